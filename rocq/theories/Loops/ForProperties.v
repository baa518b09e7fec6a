(** C72: for loops over ranges and lists. *)
From Coq Require Import List ZArith Lia Bool.
From Verif.Common Require Import Int64.
From Verif.Loops Require Import ForModel ForSpec ForProofs.
Import ListNotations.
Local Open Scope Z_scope.

(** The elements of a range exist and are unique. *)
Theorem C72_range_elements a b k : k <> 0 -> exists l, is_range a b k l /\ forall l', is_range a b k l' -> l' = l.
Proof.
  intros Hk. assert (Ex : forall n a, (Z.to_nat (Z.abs (b - a)) <= n)%nat -> exists l, is_range a b k l).
  { clear a. induction n as [|n IH]; intros a Hn.
    - exists []. split; [intros [|?] ? H; discriminate|]. unfold before. cbn [length]. lia.
    - assert (D : before b k a \/ ~ before b k a) by (unfold before; lia). destruct D as [D|D].
      + destruct (Z_le_gt_dec (Z.abs (b - (a + k))) (Z.abs (b - a) - 1)) as [L|L].
        * destruct (IH (a + k)) as [l [H1 H2]]; [lia|]. exists (a :: l). split.
          -- intros [|m] x E; cbn in E; [injection E as <-; split; [lia|assumption]|]. destruct (H1 m x E) as [-> B]. split; [lia|assumption].
          -- cbn [length]. replace (a + Z.of_nat (S (length l)) * k) with (a + k + Z.of_nat (length l) * k) by lia. exact H2.
        * exists [a]. split.
          -- intros [|[|m]] x E; cbn in E; try discriminate. injection E as <-. split; [lia|assumption].
          -- cbn [length]. unfold before in *. lia.
      + exists []. split; [intros [|?] ? H; discriminate|]. cbn [length]. replace (a + Z.of_nat 0 * k) with a by lia. exact D. }
  destruct (Ex _ a (le_n _)) as [l H]. exists l. split; [assumption|]. clear Ex. revert a H.
  assert (N : forall a l, is_range a b k [] -> is_range a b k l -> l = []).
  { intros a [|x m] [_ H] H'; [reflexivity|]. apply is_range_cons in H'. destruct H' as (_ & B & _). cbn [length] in H. replace (a + Z.of_nat 0 * k) with a in H by lia. contradiction. }
  induction l as [|x l IH]; intros a H l' H'; [eauto|]. destruct l' as [|y l']; [symmetry; eauto|].
  apply is_range_cons in H, H'. destruct H as (-> & _ & H), H' as (-> & _ & H'). f_equal. eauto.
Qed.

Section Theorems.
Context {st V ref addr X : Type}.
Context (len_of : ref -> st -> Z) (ptr_of : ref -> st -> addr) (load : addr -> Z -> st -> V).
Context (setz : Z -> st -> st) (setv : V -> st -> st) (value_error : X).
Local Notation exec := (exec len_of ptr_of load setz setv value_error).

(** Replacing the generator by a counting loop changes nothing, for all loop bodies and all
    bounds, whatever their effects.  Lists have an [int] length. *)
Theorem C72_lowered (f : flow) s s' o : (forall r t, 0 <= len_of r t <= max64) -> exec (lower f) s s' o <-> exec f s s' o.
Proof. intros H. apply lower_ok. eauto. Qed.

(** A range loop evaluates its bounds, fails for step 0, and runs the body for each element.
    Partial: the value after the last element is an [int]. *)
Theorem C72_range_partial (args : list arg) body s s' o :
  (forall s1 zs a b k l, eval_args args s s1 (Val zs) -> bounds zs a b k -> is_range a b k l ->
     in64 a /\ in64 b /\ in64 (a + Z.of_nat (length l) * k)) ->
  exec (ForRange args body) s s' o <->
  (exists s1 zs a b k l, eval_args args s s1 (Val zs) /\ bounds zs a b k /\ is_range a b k l /\ runs setz body l s1 s' o) \/
  (exists a b, eval_args args s s' (Val [a; b; 0]) /\ o = Exit value_error) \/
  (exists x, eval_args args s s' (Fail x) /\ o = Exit x).
Proof.
  intros Ok. split.
  - intros H. inversion H as [? ? ? ? ? ? ? ? ? ? E N F|? ? ? ? ? ? E N|? ? ? ? ? E| | | | | | |]; subst.
    + left. apply range_args in N. destruct (C72_range_elements a b k (proj1 N)) as (l & R & _). exists s1, zs, a, b, k, l.
      split; [assumption|]. split; [exact N|]. split; [assumption|]. destruct (Ok _ _ _ _ _ _ E N R) as (A1 & A2 & A3).
      apply range_imp in F; [|apply N]. apply (imp_runs setz body b k (proj1 N) A2 l a) in F; auto.
    + right. left. destruct zs as [|a [|b [|k [|? ?]]]]; try discriminate. cbn in N. destruct (Z.eqb_spec k 0) as [->|]; [|discriminate]. injection N as <-. eauto.
    + right. right. eauto.
  - intros [(s1 & zs & a & b & k & l & E & N & R & F)|[(a & b & E & ->)|(x & E & ->)]].
    + destruct (Ok _ _ _ _ _ _ E N R) as (A1 & A2 & A3). apply (imp_runs setz body b k (proj1 N) A2 l a) in F; auto. apply range_imp in F; [|apply N].
      eapply x_range; eauto. destruct N as [K [(-> & -> & ->)|[(-> & ->)| ->]]]; [reflexivity|reflexivity|]. cbn. apply Z.eqb_neq in K. now rewrite K.
    + eapply x_range_err; eauto.
    + now apply x_range_fail.
Qed.

(** A loop over a list visits its elements as Python does.  Partial: the body does not change
    the length of the list or move its elements to another place; it may assign to them. *)
Theorem C72_list_partial (e : expr (st := st) (X := X) ref) (body : stmt (st := st) (X := X)) s s' o : (forall r t, 0 <= len_of r t <= max64) ->
  (forall r s1, e s s1 (Val r) -> forall t t' v q, len_of r t = len_of r s1 -> ptr_of r t = ptr_of r s1 -> body (setv v t) t' q ->
     len_of r t' = len_of r s1 /\ ptr_of r t' = ptr_of r s1) ->
  exec (ForList e body) s s' o <->
  (exists s1 r, e s s1 (Val r) /\ py_list len_of ptr_of load setv body r 0 s1 s' o) \/ (exists x, e s s' (Fail x) /\ o = Exit x).
Proof.
  intros Hl K. split.
  - intros H. inversion H as [| | |? ? ? ? ? ? ? E F|? ? ? ? ? E| | | | |]; subst; [left|right; eauto]. exists s1, r. split; [assumption|].
    apply list_imp in F; auto. eapply py_imp in F; eauto. specialize (Hl r s1). lia.
  - intros [(s1 & r & E & F)|(x & E & ->)]; [|now apply x_list_fail]. eapply x_list; eauto. apply list_imp; auto. eapply py_imp; eauto. specialize (Hl r s1). lia.
Qed.
End Theorems.

(** ** Witnesses *)

(** The state is the list of visited values, newest first; [unit] for everything else. *)
Definition visit (z : Z) (s : list Z) : list Z := z :: s.
(** The body ends with [continue] at 4 and with [break] if it has run [n] times. *)
Definition upto (n : nat) (s s' : list Z) (o : out unit) : Prop :=
  s' = s /\ o = if (n <=? length s)%nat then Brk else match s with 4 :: _ => Cont | _ => Norm end.
Local Notation run := (exec (st := list Z) (V := Z) (ref := unit) (addr := unit) (X := unit) (fun _ _ => 0) (fun _ _ => tt) (fun _ i _ => i) visit visit tt).
Definition three (a b k : Z) : list (arg (st := list Z) (X := unit)) := [AConst a; AConst b; AConst k].

Lemma three_eval a b k s s1 v : eval_args (three a b k) s s1 v -> s1 = s /\ v = Val [a; b; k].
Proof.
  intros H. unfold three in H. apply eval_const in H. destruct H as (w & E & ->). apply eval_two in E.
  destruct E as [(s2 & y & z & -> & [-> E1] & [-> E2])|[(s2 & y & x & -> & _ & [_ E])|(x & -> & [_ E])]]; try discriminate. injection E1 as ->. injection E2 as ->. auto.
Qed.
Lemma eval_three a b k s : eval_args (three a b k) s s (Val [a; b; k]).
Proof. unfold three. apply eval_const. exists (Val [a; b]). split; [|reflexivity]. apply eval_two. left. exists s, a, b. cbn. auto. Qed.

(** [for i in range(1, 9, 3)] and its counting loop visit 1, 4 and 7. *)
Example C72_applies : is_range 1 9 3 [1; 4; 7] /\
  (forall s1 zs a b k l, eval_args (three 1 9 3) [] s1 (Val zs) -> bounds zs a b k -> is_range a b k l ->
     in64 a /\ in64 b /\ in64 (a + Z.of_nat (length l) * k)) /\
  lower (ref := unit) (ForRange (three 1 9 3) (upto 5)) = ImpFor (AConst 1) 3 (AConst 9) (upto 5) /\
  run (lower (ForRange (three 1 9 3) (upto 5))) [] [7; 4; 1] Norm.
Proof.
  assert (R : is_range 1 9 3 [1; 4; 7]).
  { split; [|unfold before; cbn; lia]. intros [|[|[|[|?]]]] x E; cbn in E; try discriminate; injection E as <-; unfold before; split; lia. }
  split; [assumption|]. assert (Ok : forall s1 zs a b k l, eval_args (three 1 9 3) [] s1 (Val zs) -> bounds zs a b k -> is_range a b k l ->
     in64 a /\ in64 b /\ in64 (a + Z.of_nat (length l) * k)).
  { intros s1 zs a b k l E [K B] H. apply three_eval in E. destruct E as [-> E]. injection E as ->. destruct B as [(B & _)|[(B & _)|B]]; try discriminate.
    injection B as <- <- <-. destruct (C72_range_elements 1 9 3 K) as (l0 & _ & U). rewrite (U l H), <- (U _ R). unfold in64, min64, max64. cbn. lia. }
  split; [exact Ok|]. split; [reflexivity|]. apply C72_lowered; [unfold max64; lia|]. apply (C72_range_partial _ _ _ _ _ _ _ _ _ _ _ Ok).
  left. exists [], [1; 9; 3], 1, 9, 3, [1; 4; 7]. split; [apply eval_three|]. split; [split; [lia|auto]|]. split; [assumption|].
  eapply r_next; [split; reflexivity|cbn; auto|]. eapply r_next; [split; reflexivity|cbn; auto|]. eapply r_next; [split; reflexivity|cbn; auto|]. constructor.
Qed.

(** A list in memory: its cells, its length, and the visited values. *)
Definition mem := (list Z * Z * list Z)%type.
Definition cells (s : mem) := fst (fst s).
Definition note (z : Z) (s : mem) : mem := (fst s, z :: snd s).
Local Notation run_list := (exec (st := mem) (V := Z) (ref := unit) (addr := unit) (X := unit)
  (fun _ s => Z.max 0 (Z.min (snd (fst s)) max64)) (fun _ _ => tt) (fun _ i s => nth (Z.to_nat i) (cells s) 0) (fun _ s => s) note tt).
Local Notation py := (py_list (st := mem) (X := unit) (V := Z) (ref := unit) (addr := unit)
  (fun _ s => Z.max 0 (Z.min (snd (fst s)) max64)) (fun _ _ => tt) (fun _ i s => nth (Z.to_nat i) (cells s) 0) note).
Definition the_list : expr (st := mem) (X := unit) unit := fun s s' v => s' = s /\ v = Val tt.
(** [l\[1\] = 9] *)
Definition assign (s s' : mem) (o : out unit) : Prop := s' = (nth 0 (cells s) 0 :: 9 :: skipn 2 (cells s), snd (fst s), snd s) /\ o = Norm.

Example C72_list_applies :
  (forall r s1, the_list ([1; 2], 2, []) s1 (Val r) -> forall t t' v q,
     snd (fst t) = snd (fst s1) -> assign (note v t) t' q -> snd (fst t') = snd (fst s1)) /\
  run_list (lower (ForList the_list assign)) ([1; 2], 2, []) ([1; 9], 2, [9; 1]) Norm.
Proof.
  split. { intros r s1 _ t t' v q E [-> _]. exact E. }
  cbn [lower]. eapply x_implist; [split; reflexivity|]. eapply if_next; [reflexivity|split; reflexivity|auto|].
  eapply if_next; [reflexivity|split; reflexivity|auto|]. apply if_done. reflexivity.
Qed.

(** ** Refutations *)

(** [range(max - 1, max, 2)] has one element, but the loop goes on after an overflow. *)
Theorem C72_overflow_refuted : exists (a b k : Z) l (s' : list Z), in64 a /\ in64 b /\ in64 k /\ is_range a b k l /\
  run (ForRange (three a b k) (upto 2)) [] s' Norm /\ ~ runs visit (upto 2) l [] s' Norm.
Proof.
  exists (max64 - 1), max64, 2, [max64 - 1], [min64; max64 - 1].
  split; [unfold in64, min64, max64; lia|]. split; [unfold in64, min64, max64; lia|]. split; [unfold in64, min64, max64; lia|]. split.
  { split; [|unfold before, max64; cbn; lia]. intros [|[|?]] x E; cbn in E; try discriminate; injection E as <-; unfold before, max64; split; lia. }
  split.
  - eapply x_range; [apply eval_three|reflexivity|]. eapply ff_next; [reflexivity|split; reflexivity|cbn; auto|].
    eapply ff_break; [reflexivity|]. split; reflexivity.
  - intros H. inversion H as [|? ? ? ? ? ? ? B O F|? ? ? ? B|? ? ? ? ? B]; subst; destruct B as [E B]; try discriminate. subst. inversion F.
Qed.

(** [for x in l: l.pop()] on two elements: Python visits one, the loop visits both. *)
Definition pop (s s' : mem) (o : out unit) : Prop := s' = (cells s, snd (fst s) - 1, snd s) /\ o = Norm.
Theorem C72_list_shrinking_refuted : exists s s' : mem, run_list (ForList the_list pop) s s' Norm /\ ~ py pop tt 0 s s' Norm.
Proof.
  exists ([1; 2], 2, []), ([1; 2], 0, [2; 1]). split.
  - eapply x_list; [split; reflexivity|]. eapply ff_next; [reflexivity|split; reflexivity|auto|]. eapply ff_next; [reflexivity|split; reflexivity|auto|].
    apply ff_done. reflexivity.
  - intros H. inversion H as [|? ? ? ? ? ? L B O F|? ? ? ? B|]; subst; [|destruct B as [_ B]; discriminate]. destruct B as [-> ->].
    inversion F as [? ? D|? ? ? ? ? ? D|? ? ? D|? ? ? ? D]; subst; cbn in *; unfold max64 in *; lia.
Qed.

(** [for x in l: if ...: l.append(3)]: Python visits the new element, the loop does not. *)
Definition append (s s' : mem) (o : out unit) : Prop :=
  s' = (if snd (fst s) =? 1 then cells s ++ [3] else cells s, if snd (fst s) =? 1 then 2 else snd (fst s), snd s) /\ o = Norm.
Theorem C72_list_growing_refuted : exists s s' : mem, run_list (ForList the_list append) s s' Norm /\ ~ py append tt 0 s s' Norm.
Proof.
  exists ([1], 1, []), ([1; 3], 2, [1]). split.
  - eapply x_list; [split; reflexivity|]. eapply ff_next; [reflexivity|split; reflexivity|auto|]. apply ff_done. reflexivity.
  - intros H. inversion H as [|? ? ? ? ? ? L B O F|? ? ? ? B|]; subst; [|destruct B as [_ B]; discriminate]. destruct B as [-> ->].
    inversion F as [? ? D|? ? ? ? ? ? D B O2 F2|? ? ? D B|? ? ? ? D B]; subst; cbn in *; unfold max64 in *; try lia; destruct B as [E B]; try discriminate.
    subst. inversion F2 as [? ? D2|? ? ? ? ? ? D2|? ? ? D2|? ? ? ? D2]; subst; cbn in *; unfold max64 in *; try lia; try discriminate.
Qed.

Print Assumptions C72_range_elements.
Print Assumptions C72_lowered.
Print Assumptions C72_range_partial.
Print Assumptions C72_list_partial.
Print Assumptions C72_overflow_refuted.
Print Assumptions C72_list_shrinking_refuted.
Print Assumptions C72_list_growing_refuted.
