(** C55: the variables of a function.

    [Spec.python n p] is what Python does with the function [p] in [n] steps;
    [Model.compile p] is the function after the scoping pass and the type
    checker, [Model.run n q] what that does in [n] steps.  [n] is arbitrary, so
    the theorems speak of every moment of every run, also of one that never
    ends. *)
From Coq Require Import List Bool Arith Lia.
From Verif.Scope Require Import Spec Model Final Total.
Import ListNotations.

Section Claims.
  Context {V : Type} (truth : V -> bool) (elems : V -> list V).

  (** A function that assigns to every name somewhere before it reads it (in
      the text) is accepted. *)
  Theorem C55_accepted_partial : forall p : stmt V,
    covered p = true -> well_numbered p -> named [] p -> exists q, compile p = Some q.
  Proof. exact accepted. Qed.

  (** The compiled function does what Python does, or stops with a NameError
      having printed what Python prints up to there. *)
  Theorem C55_sound_partial : forall (p : stmt V) q,
    covered p = true -> well_numbered p -> compile p = Some q -> forall n,
    run truth elems n q = python truth elems n p \/
    ((exists x, snd (run truth elems n q) = NameError x) /\
     exists t, fst (python truth elems n p) = fst (run truth elems n q) ++ t).
  Proof.
    intros p q Cov Num C n.
    destruct (runs p Cov Num truth elems false ltac:(discriminate) q C n) as [E|(_ & E)]; auto.
  Qed.

  (** If also every name assigned to in a loop is assigned to before it, the
      two agree: each read gets the last value assigned to the name, and there
      is a NameError exactly when there is none. *)
  Theorem C55_exact_partial : forall (p : stmt V) q,
    covered p = true -> well_numbered p -> loops_after [] p -> compile p = Some q ->
    forall n, run truth elems n q = python truth elems n p.
  Proof.
    intros p q Cov Num LA C n.
    destruct (runs p Cov Num truth elems true (fun _ => LA) q C n) as [E|(E & _)];
      [exact E|discriminate].
  Qed.

  Lemma peval_no_garbage : forall (e : expr V) m, peval truth e m <> Garbage.
  Proof.
    induction e; intros m; cbn [peval].
    - discriminate.
    - destruct (m x); discriminate.
    - specialize (IHe1 m). destruct (peval truth e1 m) as [[v m1]| |]; simpl; try congruence.
      specialize (IHe2 m1). destruct (peval truth e2 m1) as [[w m2]| |]; simpl; congruence.
    - specialize (IHe m). destruct (peval truth e m) as [[v m1]| |]; simpl; congruence.
    - specialize (IHe1 m). destruct (peval truth e1 m) as [[v m1]| |]; simpl; try congruence.
      destruct (truth v); [apply IHe2|discriminate].
    - specialize (IHe1 m). destruct (peval truth e1 m) as [[v m1]| |]; simpl; try congruence.
      destruct (truth v); [discriminate|apply IHe2].
    - specialize (IHe1 m). destruct (peval truth e1 m) as [[v m1]| |]; simpl; try congruence.
      destruct (truth v); auto.
  Qed.
  Lemma pexec_defined : forall n (p : stmt V) m, snd (pexec truth elems n p m) <> Undefined.
  Proof.
    assert (A : forall (o : list V) r, snd r <> Undefined -> snd (after (A := @env V) o r) <> Undefined)
      by (intros o [? ?] N; exact N).
    assert (W : forall e m (f : V * @env V -> list V * ending (@env V)),
              (forall a, snd (f a) <> Undefined) -> snd (with_val (peval truth e m) f) <> Undefined).
    { intros e m f N. pose proof (peval_no_garbage e m).
      destruct (peval truth e m); simpl; [apply N|discriminate|congruence]. }
    assert (X : forall (r : list V * ending (@env V)) f, snd r <> Undefined ->
              (forall m, snd (f m) <> Undefined) -> snd (next r f) <> Undefined).
    { intros [o []] f N K; simpl in *; auto; try (apply A; apply K); discriminate. }
    induction n as [|n IH]; intros p m; [discriminate|]. destruct p; cbn [pexec]; try discriminate.
    - apply W. intros [v m1]. discriminate.
    - apply W. intros [v m1]. discriminate.
    - pose proof (IH p1 m) as N. destruct (pexec truth elems n p1 m) as [o []]; simpl in *; congruence.
    - apply W. intros [v m1]. destruct (truth v); apply IH.
    - apply W. intros [v m1]. destruct (truth v); [|discriminate]. apply X; [apply IH|intros; apply IH].
    - apply W. intros [v m1]. revert m1. induction (elems v) as [|w vs IHv]; intros m1; simpl;
        [discriminate|]. apply X; [apply IH|exact IHv].
    - apply W. intros [v m1]. discriminate.
  Qed.

  (** In particular no variable is read before something has been stored in it. *)
  Theorem C55_initialised_partial : forall (p : stmt V) q,
    covered p = true -> well_numbered p -> compile p = Some q ->
    forall n, snd (run truth elems n q) <> Undefined.
  Proof.
    intros p q Cov Num C n. destruct (C55_sound_partial p q Cov Num C n) as [E|[[x E] _]].
    - rewrite E. unfold python, seen. simpl. pose proof (pexec_defined n p env0) as N.
      destruct (snd (pexec truth elems n p env0)); try discriminate. congruence.
    - rewrite E. discriminate.
  Qed.
End Claims.

(** ** Cases *)

Definition tr (n : nat) : bool := negb (n =? 0).
Definition el (n : nat) : list nat := seq 0 n.
Definition lt2 (a b : nat) : nat := if a <? b then 1 else 0.
Definition eq2 (a b : nat) : nat := if a =? b then 1 else 0.

Lemma ran : forall n p r, option_map (run tr el n) (compile p) = Some r ->
  exists q, compile p = Some q /\ run tr el n q = r.
Proof.
  intros n p r E. destruct (compile p) as [q|]; [|discriminate]. injection E as E. eauto.
Qed.

Local Ltac distinct := split; repeat constructor; simpl; intuition lia.

(** i = 3; x = 0; y = 0
    while i:
        if i == 2: x = 5
        for y in range(i): x = x + y
        i = i - 1
    if x == 10 and (w := x + y): print(w)
    print(w)
    if i: z = 1
    else: print(x)
    print(z) *)
Definition sample : stmt nat :=
  SSeq (SAssign 0 0 (EConst 3)) (SSeq (SAssign 1 1 (EConst 0)) (SSeq (SAssign 2 2 (EConst 0))
  (SSeq (SWhile (EVar 3 0) 1
    (SSeq (SIf (EOp eq2 (EVar 4 0) (EConst 2)) 2 (SAssign 5 1 (EConst 5)) 3 SSkip)
    (SSeq (SFor 6 2 (EVar 7 0) 4 (SAssign 8 1 (EOp Nat.add (EVar 9 1) (EVar 10 2))))
      (SAssign 11 0 (EOp Nat.sub (EVar 12 0) (EConst 1))))))
  (SSeq (SIf (EAnd (EOp lt2 (EConst 1) (EVar 13 1)) 5 (EWalrus 14 3 (EOp Nat.add (EVar 15 1) (EVar 16 2))))
          6 (SPrint (EVar 17 3)) 7 SSkip)
  (SSeq (SPrint (EVar 18 3))
  (SSeq (SIf (EVar 19 0) 8 (SAssign 20 4 (EConst 1)) 9 (SPrint (EVar 21 1)))
    (SPrint (EVar 22 4)))))))).

Example sample_covered :
  covered sample = true /\ well_numbered sample /\ named [] sample /\ loops_after [] sample.
Proof.
  split; [reflexivity|]. split; [distinct|]. split; [simpl; intuition|].
  cbn [sample loops_after bound bound_e app]. unfold incl. simpl. intuition.
Qed.
Example sample_run : exists q, compile sample = Some q /\
  run tr el 40 q = ([6; 6; 6], NameError 4) /\ python tr el 40 sample = ([6; 6; 6], NameError 4).
Proof.
  destruct (ran 40 sample ([6; 6; 6], NameError 4)) as (q & C & R); [vm_compute; reflexivity|].
  exists q. repeat split; auto.
Qed.

(** ** What is not so *)

(** i = 0
    while i < 2:
        if i == 0: x = 7
        print(x)
        i = i + 1 *)
Definition stale : stmt nat :=
  SSeq (SAssign 1 0 (EConst 0))
    (SWhile (EOp lt2 (EVar 2 0) (EConst 2)) 1
      (SSeq (SIf (EOp eq2 (EVar 3 0) (EConst 0)) 2 (SAssign 4 1 (EConst 7)) 3 SSkip)
      (SSeq (SPrint (EVar 5 1))
        (SAssign 6 0 (EOp Nat.add (EVar 7 0) (EConst 1)))))).

(** The declaration of [x] is put in front of the loop's body and run again in
    every round: the value of the round before is lost. *)
Theorem C55_exact_in_loops_refuted : exists q,
  covered stale = true /\ well_numbered stale /\ named [] stale /\ compile stale = Some q /\
  python tr el 20 stale = ([7; 7], Fin tt) /\ run tr el 20 q = ([7], NameError 1).
Proof.
  destruct (ran 20 stale ([7], NameError 1)) as (q & C & R); [vm_compute; reflexivity|].
  exists q. split; [reflexivity|]. split; [distinct|]. split; [simpl; intuition|]. auto.
Qed.

(** c = 1; d = 0; print(c and ((d and (x := 5)) or x)) *)
Definition unset : stmt nat :=
  SSeq (SAssign 1 0 (EConst 1)) (SSeq (SAssign 2 1 (EConst 0))
    (SPrint (EAnd (EVar 3 0) 1
      (EOr (EAnd (EVar 4 1) 2 (EWalrus 5 2 (EConst 5))) 3 (EVar 6 2))))).

(** Looking for a suite, the scoping pass steps over every other block: no
    declaration, and [x] is read without a check. *)
Theorem C55_initialised_refuted : exists q,
  well_numbered unset /\ named [] unset /\ compile unset = Some q /\
  python tr el 20 unset = ([], NameError 2) /\ run tr el 20 q = ([], Undefined).
Proof.
  destruct (ran 20 unset ([], Undefined)) as (q & C & R); [vm_compute; reflexivity|].
  exists q. split; [distinct|]. split; [simpl; intuition|]. auto.
Qed.

(** a = 1
    while a and (x := 5):
        print(x)
        a = 0 *)
Definition refused : stmt nat :=
  SSeq (SAssign 1 0 (EConst 1))
    (SWhile (EAnd (EVar 2 0) 1 (EWalrus 3 1 (EConst 5))) 2
      (SSeq (SPrint (EVar 4 1)) (SAssign 5 0 (EConst 0)))).

Theorem C55_accepted_refuted :
  well_numbered refused /\ named [] refused /\
  python tr el 20 refused = ([5], Fin tt) /\ compile refused = None.
Proof.
  split; [distinct|]. split; [simpl; intuition|]. split; reflexivity.
Qed.

Print Assumptions C55_accepted_partial.
Print Assumptions C55_sound_partial.
Print Assumptions C55_exact_partial.
Print Assumptions C55_initialised_partial.
Print Assumptions C55_exact_in_loops_refuted.
Print Assumptions C55_initialised_refuted.
Print Assumptions C55_accepted_refuted.
