(** What the resolution of one name sees of a function, as a list of events, and
    facts about such lists.  Proof machinery only. *)
From Coq Require Import List Bool Arith Lia.
From Verif.Scope Require Import Spec Model.
Import ListNotations.

(** [Body k fo]: the suite of block [k] begins ([fo]: after a for loop's
    variable); [Open k su lp]: block [k] with suite [su] and loop [lp]. *)
Inductive ev : Type :=
| Open (k : nat) (su lp : bool)
| Body (k : nat) (fo : bool)
| Rd (r : nat)
| Bd (b : nat)
| Close (lp : bool).

Section Events.
  Context {V : Type} (x : nat).
  Definition one (y : nat) (e : ev) : list ev := if Nat.eqb y x then [e] else [].
  Definition blocked (k : nat) (es : list ev) : list ev :=
    Open k false false :: es ++ [Close false].
  Definition branch (k : nat) (es : list ev) : list ev :=
    Open k true false :: (Body k false :: es) ++ [Close false].

  Fixpoint evs_e (e : expr V) : list ev :=
    match e with
    | EConst _ => []
    | EVar r y => one y (Rd r)
    | EOp _ a b => evs_e a ++ evs_e b
    | EWalrus b y a => evs_e a ++ one y (Bd b)
    | EAnd a k b | EOr a k b => evs_e a ++ blocked k (evs_e b)
    | EIf c k1 a k2 b => evs_e c ++ blocked k1 (evs_e a) ++ blocked k2 (evs_e b)
    end.

  Fixpoint evs (p : stmt V) : list ev :=
    match p with
    | SSkip | SBreak | SContinue => []
    | SPrint e | SReturn e => evs_e e
    | SAssign b y e => evs_e e ++ one y (Bd b)
    | SSeq a b => evs a ++ evs b
    | SIf c k1 a k2 b => evs_e c ++ branch k1 (evs a) ++ branch k2 (evs b)
    | SWhile c k a =>
        Open k true true :: (evs_e c ++ Body k false :: evs a) ++ [Close true]
    | SFor b y e k a =>
        evs_e e ++ Open k true true :: (one y (Bd b) ++ Body k true :: evs a) ++ [Close true]
    end.

  Definition all (p : stmt V) : list ev := Open 0 true false :: Body 0 false :: evs p.

  (** The visitor as a fold. *)
  Definition step1 (e : ev) (s : st) : option st :=
    match e with
    | Open k su lp => Some (push k su lp s)
    | Body _ fo => Some (if fo then forget s else s)
    | Rd r => visit_read r s
    | Bd b => visit_add b s
    | Close lp => Some (if lp then pop_loop s else pop s)
    end.
  Fixpoint steps (es : list ev) (s : st) : option st :=
    match es with
    | [] => Some s
    | e :: es => andthen (step1 e s) (steps es)
    end.

  Lemma steps_app : forall u w s, steps (u ++ w) s = andthen (steps u s) (steps w).
  Proof.
    induction u as [|e u IH]; intros w s; simpl; [reflexivity|].
    destruct (step1 e s); simpl; [apply IH|reflexivity].
  Qed.

  Lemma steps_one : forall y e s,
    steps (one y e) s = if Nat.eqb y x then step1 e s else Some s.
  Proof.
    intros. unfold one. destruct (Nat.eqb y x); simpl; [|reflexivity].
    destruct (step1 e s); reflexivity.
  Qed.

  Lemma andthen_some : forall A (o : option A), andthen o Some = o.
  Proof. intros A [a|]; reflexivity. Qed.
  Lemma fmap_andthen : forall A B (f : A -> B) (o : option A),
    fmap f o = andthen o (fun a => Some (f a)).
  Proof. intros A B f [a|]; reflexivity. Qed.

  Lemma steps_blocked : forall k es s,
    steps (blocked k es) s = fmap pop (steps es (push k false false s)).
  Proof.
    intros. unfold blocked. simpl. rewrite steps_app, fmap_andthen. reflexivity.
  Qed.
  Lemma steps_branch : forall k es s,
    steps (branch k es) s = fmap pop (steps es (push k true false s)).
  Proof.
    intros. unfold branch. simpl. rewrite steps_app, fmap_andthen. reflexivity.
  Qed.

  Lemma andthen_ext : forall A B (o : option A) (f g : A -> option B),
    (forall a, f a = g a) -> andthen o f = andthen o g.
  Proof. intros A B [a|] f g H; simpl; auto. Qed.

  Lemma scan_e_steps : forall (e : expr V) s, scan_e x e s = steps (evs_e e) s.
  Proof.
    induction e; intros s; cbn [scan_e evs_e];
      rewrite ?steps_app, ?steps_one, ?steps_blocked; try reflexivity.
    - rewrite IHe1. apply andthen_ext. exact IHe2.
    - rewrite IHe. apply andthen_ext. intros. rewrite steps_one. reflexivity.
    - rewrite IHe1. apply andthen_ext. intros. rewrite steps_blocked, IHe2. reflexivity.
    - rewrite IHe1. apply andthen_ext. intros. rewrite steps_blocked, IHe2. reflexivity.
    - rewrite IHe1. apply andthen_ext. intros.
      rewrite steps_app, steps_blocked, IHe2. apply andthen_ext. intros.
      rewrite steps_blocked, IHe3. reflexivity.
  Qed.

  Lemma scan_steps : forall (p : stmt V) s, scan x p s = steps (evs p) s.
  Proof.
    induction p; intros s0; cbn [scan evs]; rewrite ?steps_app, ?scan_e_steps; try reflexivity.
    - apply andthen_ext. intros. rewrite steps_one. reflexivity.
    - rewrite IHp1. apply andthen_ext. exact IHp2.
    - apply andthen_ext. intros.
      rewrite steps_app, steps_branch, IHp1. apply andthen_ext. intros.
      rewrite steps_branch, IHp2. reflexivity.
    - simpl. rewrite steps_app, steps_app. simpl.
      destruct (steps (evs_e c) (push k true true s0)); simpl; [|reflexivity].
      rewrite IHp, fmap_andthen. reflexivity.
    - destruct (steps (evs_e e) s0) as [s1|]; simpl; [|reflexivity].
      rewrite steps_app, steps_app, steps_one. simpl.
      destruct (if x0 =? x then visit_add b (push k true true s1)
                else Some (push k true true s1)); simpl; [|reflexivity].
      rewrite IHp, fmap_andthen. reflexivity.
  Qed.

  Lemma resolve_steps : forall p a, resolve x p = Some a ->
    exists s, steps (all p) (St [] [] ann0) = Some s /\ an s = a.
  Proof.
    intros p a H. unfold resolve in H. rewrite scan_steps in H.
    unfold all. simpl.
    destruct (steps (evs p) _) as [s|] eqn:E; [|discriminate].
    simpl in H. injection H as H. exists s. split; [reflexivity|exact H].
  Qed.
End Events.

(** ** Depth *)

Fixpoint dep (d : nat) (es : list ev) : option nat :=
  match es with
  | [] => Some d
  | Open _ _ _ :: es => dep (S d) es
  | Close _ :: es => match d with 0 => None | S d => dep d es end
  | _ :: es => dep d es
  end.
Definition stays (es : list ev) : Prop := exists d, dep 0 es = Some d.
Definition bal (es : list ev) : Prop := dep 0 es = Some 0.

Lemma dep_app : forall u w d, dep d (u ++ w) = andthen (dep d u) (fun d => dep d w).
Proof.
  induction u as [|e u IH]; intros w d; simpl; [reflexivity|].
  destruct e; auto. destruct d; auto.
Qed.
Lemma dep_shift : forall es d d' c, dep d es = Some d' -> dep (d + c) es = Some (d' + c).
Proof.
  induction es as [|e es IH]; intros d d' c H; simpl in *; [congruence|].
  destruct e; auto.
  - apply (IH (S d)); exact H.
  - destruct d; [discriminate|]. simpl. auto.
Qed.
Lemma bal_dep : forall es d, bal es -> dep d es = Some d.
Proof. intros es d H. exact (dep_shift es 0 0 d H). Qed.
Lemma bal_app : forall u w, bal u -> bal w -> bal (u ++ w).
Proof. intros u w Hu Hw. unfold bal. rewrite dep_app, Hu. exact Hw. Qed.
Lemma bal_block : forall k su lp lp' es, bal es -> bal (Open k su lp :: es ++ [Close lp']).
Proof.
  intros. unfold bal. simpl. rewrite dep_app, (bal_dep es 1 H). reflexivity.
Qed.
Lemma stays_app_l : forall u w, stays (u ++ w) -> stays u.
Proof.
  intros u w [d H]. rewrite dep_app in H. destruct (dep 0 u) eqn:E; [|discriminate].
  exists n. exact E.
Qed.
Lemma dep_lower : forall es d d', dep 0 es = Some d' -> dep d es = Some (d' + d).
Proof. intros es d d' H. exact (dep_shift es 0 d' d H). Qed.
Lemma stays_app : forall u w, stays u -> stays w -> stays (u ++ w).
Proof.
  intros u w [d H] [d' H']. unfold stays. rewrite dep_app, H. simpl.
  rewrite (dep_lower w d d' H'). eauto.
Qed.
Lemma bal_stays : forall es, bal es -> stays es.
Proof. intros es H. exists 0. exact H. Qed.
Lemma stays_bal_app : forall u w, bal u -> stays (u ++ w) -> stays w.
Proof. intros u w H [d H']. rewrite dep_app, H in H'. exists d. exact H'. Qed.
Lemma dep_none_shift : forall es d, dep (S d) es = None -> dep d es = None.
Proof.
  induction es as [|e es IH]; intros d H; simpl in *; [discriminate|].
  destruct e; auto. destruct d; auto.
Qed.
(** A block that has been closed. *)
Lemma not_stays : forall es, dep 0 es = None ->
  exists u lp w, es = u ++ Close lp :: w /\ bal u.
Proof.
  enough (G : forall n es, length es <= n -> forall d, dep d es = None ->
    exists u lp w, es = u ++ Close lp :: w /\ dep d u = Some 0) by
    (intros es H; destruct (G _ es (Nat.le_refl _) 0 H) as (u & lp & w & E & B); eauto).
  induction n; intros es L d H; destruct es as [|e es]; simpl in *; try discriminate; [lia|].
  destruct e as [k su lp|k fo|r|b|lp].
  - destruct (IHn es ltac:(lia) (S d) H) as (u & l & w & -> & B).
    exists (Open k su lp :: u), l, w. auto.
  - destruct (IHn es ltac:(lia) d H) as (u & l & w & -> & B).
    exists (Body k fo :: u), l, w. auto.
  - destruct (IHn es ltac:(lia) d H) as (u & l & w & -> & B).
    exists (Rd r :: u), l, w. auto.
  - destruct (IHn es ltac:(lia) d H) as (u & l & w & -> & B).
    exists (Bd b :: u), l, w. auto.
  - destruct d.
    + exists [], lp, es. auto.
    + destruct (IHn es ltac:(lia) d H) as (u & l & w & -> & B).
      exists (Close lp :: u), l, w. auto.
Qed.

Lemma one_bal : forall x y e, dep 0 [e] = Some 0 -> bal (one x y e).
Proof. intros. unfold one. destruct (Nat.eqb y x); [exact H|reflexivity]. Qed.
Lemma blocked_bal : forall k es, bal es -> bal (blocked k es).
Proof. intros. apply bal_block. exact H. Qed.
Lemma branch_bal : forall k es, bal es -> bal (branch k es).
Proof. intros. apply bal_block. exact H. Qed.

Lemma evs_e_bal : forall V x (e : expr V), bal (evs_e x e).
Proof.
  induction e; cbn [evs_e]; repeat apply bal_app; auto using blocked_bal;
    try reflexivity; apply one_bal; reflexivity.
Qed.
Lemma evs_bal : forall V x (p : stmt V), bal (evs x p).
Proof.
  induction p; cbn [evs]; repeat apply bal_app; auto using evs_e_bal, branch_bal;
    try reflexivity; try (apply one_bal; reflexivity);
    apply bal_block; apply bal_app; auto using evs_e_bal; apply one_bal; reflexivity.
Qed.
