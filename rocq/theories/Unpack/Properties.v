(** C83: assigning to several targets at once gives each its item. *)
From Coq Require Import List ZArith Bool Lia.
From Verif.Common Require Import Result.
From Verif.Unpack Require Import Spec Model Proofs.
Import ListNotations.
Local Open Scope res_scope.
Local Open Scope Z_scope.

(** An unpacking assignment that succeeds in Python (nested and starred targets included) leaves the same variables
    and lists behind when compiled, if no dictionary is unpacked, no list is unpacked into targets that store into
    lists ([true]), and a variable on the right is not also named on the left. Missing: those cases, and assignments
    that fail in Python (see the refutations). *)
Theorem C83_unpacking_partial (t : target) (r : source) (st st2 : state) :
  assignment true t r st = Ok st2 ->
  (forall x, r = FromVar x -> ~ In x (names t)) ->
  assignment false t r st = Ok st2 /\ compiled t r st = Ok st2.
Proof.
  intros A N. split; [now apply strict_both|]. unfold assignment in A. unfold compiled, rewritten.
  set (e := match r with FromVar x => EVar x | FromValue v => EVal v end).
  destruct (unpack t e 0) as [ss k'] eqn:U.
  destruct (proj1 claims t e (source_value r st) st st st2 (fun _ => VInt 0) O ss k' U) as (_ & tmp & X & _).
  - subst e. now destruct r.
  - subst e. now destruct r.
  - intros x Q. apply N. subst e. destruct r; [|discriminate]. now injection Q as ->.
  - exact A.
  - cbn [fst]. now rewrite X.
Qed.
(** [a, (b, *c), d[0] = "p", ("q", 1, 2, 3), 9], with [d] a list *)
Definition ex_state : state := State (fun x => if Nat.eqb x 3 then VList 0 else VInt (-1)) [[VInt 7; VInt 8]].
Definition ex_target : target :=
  TSeq (TCons (TVar 0) (TCons (TStar (TCons (TVar 1) TNil) (TVar 2) TNil) (TCons (TItem 3 (IConst 0)) TNil))).
Definition ex_value : value := VTuple [VStr [112]; VTuple [VStr [113]; VInt 1; VInt 2; VInt 3]; VInt 9].
Example C83_unpacking_example :
  match assignment true ex_target (FromValue ex_value) ex_state with
  | Ok st => heap st = [[VInt 9; VInt 8]; [VInt 1; VInt 2; VInt 3]] /\ map (var st) [0; 1; 2; 3]%nat = [VStr [112]; VStr [113]; VList 1; VList 0]
  | _ => False
  end.
Proof. split; reflexivity. Qed.
(** [a, *b, c = l], with [l] a list *)
Example C83_unpacking_example_list :
  let st := State (fun x => if Nat.eqb x 3 then VList 0 else VInt (-1)) [[VInt 5; VInt 6; VInt 7; VInt 8]] in
  match assignment true (TStar (TCons (TVar 0) TNil) (TVar 1) (TCons (TVar 2) TNil)) (FromVar 3) st with
  | Ok st2 => nth 1 (heap st2) [] = [VInt 6; VInt 7] /\ var st2 0%nat = VInt 5 /\ var st2 2%nat = VInt 8
  | _ => False
  end.
Proof. repeat split; reflexivity. Qed.

(** Swapping two variables *)
Theorem C83_swap_variables (x y : nat) (st : state) :
  exists st2, compiled (TSeq (TCons (TVar x) (TCons (TVar y) TNil))) (FromValue (VTuple [var st y; var st x])) st = Ok st2 /\
    var st2 x = var st y /\ var st2 y = var st x /\ heap st2 = heap st /\
    forall z, z <> x -> z <> y -> var st2 z = var st z.
Proof.
  eexists. split; [reflexivity|]. cbn. rewrite !Nat.eqb_refl. repeat split.
  - destruct (Nat.eqb_spec x y); congruence.
  - intros z A B. apply Nat.eqb_neq in A, B. now rewrite A, B.
Qed.
(** [x[i], y[j] = v, w] stores [v], then [w]; errors included. *)
Theorem C83_pair_of_items (x y : nat) (i j : index) (v w : value) (st : state) :
  compiled (TSeq (TCons (TItem x i) (TCons (TItem y j) TNil))) (FromValue (VTuple [v; w])) st =
  (st <- store x i v st ;; store y j w st).
Proof.
  unfold compiled, rewritten. cbn -[store]. destruct (store x i v st) as [s1| | |]; cbn -[store]; try reflexivity.
  change (Pos.to_nat 1) with 1%nat. cbn -[store]. now destruct (store y j w s1).
Qed.

(** More items than targets: the extra ones are dropped (Python raises [ValueError]). *)
Theorem C83_extra_items_dropped (b : targets) (v : value) (all : list value) (st st2 : state) :
  sequence v (heap st) = Ok all -> (is_list v = true -> stores_all b = false) -> (size b <= length all)%nat ->
  assign_all true b (firstn (size b) all) st = Ok st2 ->
  compiled (TSeq b) (FromValue v) st = Ok st2.
Proof.
  intros Sq St Ln A. unfold compiled, rewritten. cbn [unpack is_name]. destruct (unpack_all b (ETmp 0) 0 1) as [ss k'] eqn:U.
  destruct (proj2 claims b (ETmp 0) all (firstn (size b) all) 0 st st2 (fun j => if Nat.eqb j 0 then v else VInt 0) 1%nat ss k' U) as (_ & tmp & X & _); auto.
  - cbn. lia.
  - discriminate.
  - rewrite firstn_length. lia.
  - intros i x Hx. apply idx_front. rewrite <- Hx.
    rewrite <- (firstn_skipn (size b) all) at 1. apply nth_error_app1. apply nth_error_Some. now rewrite Hx.
  - cbn [fst app exec_all exec eval bind]. now rewrite X.
Qed.
Example C83_extra_items_dropped_example :
  sequence (VTuple [VInt 1; VInt 2; VInt 3]) [] = Ok [VInt 1; VInt 2; VInt 3] /\ (size (TCons (TVar 0) (TCons (TVar 1) TNil)) <= 3)%nat.
Proof. split; [reflexivity|cbn; lia]. Qed.

(** Fewer items than variables: [IndexError]. *)
Fixpoint variables (xs : list nat) : targets := match xs with [] => TNil | x :: xs => TCons (TVar x) (variables xs) end.
Lemma short_variables (xs : list nat) : forall (v : value) (all : list value) (p k : nat) (tmp : nat -> value) (st : state),
  sequence v (heap st) = Ok all -> tmp O = v -> (p <= length all < p + length xs)%nat ->
  exec_all (fst (unpack_all (variables xs) (ETmp 0) (Z.of_nat p) k)) tmp st = Raise IndexError.
Proof.
  induction xs as [|x xs IH]; intros v all p k tmp st Sq T L; [cbn in L; lia|]. cbn [variables unpack_all unpack].
  replace (Z.of_nat p + 1) with (Z.of_nat (S p)) by lia. specialize (IH v all (S p) k tmp).
  destruct (unpack_all (variables xs) (ETmp 0) (Z.of_nat (S p)) k) as [ss k2]. cbn [fst app exec_all exec eval bind] in IH |- *.
  rewrite T, (getitem_idx _ _ _ _ Sq). destruct (nth_error all p) as [y|] eqn:N.
  - rewrite (idx_front _ _ _ N). cbn [bind]. apply IH; [exact Sq|exact T|].
    assert (p < length all)%nat by (apply nth_error_Some; now rewrite N). cbn [length] in L. lia.
  - apply nth_error_None in N. unfold idx, place. replace (Z.of_nat p <? 0) with false by (symmetry; apply Z.ltb_ge; lia).
    replace (_ && _) with false; [reflexivity|]. symmetry. apply andb_false_iff. right. apply Z.ltb_ge. lia.
Qed.
Theorem C83_too_few_items (xs : list nat) (v : value) (all : list value) (st : state) :
  sequence v (heap st) = Ok all -> (length all < length xs)%nat ->
  compiled (TSeq (variables xs)) (FromValue v) st = Raise IndexError.
Proof.
  intros Sq L. unfold compiled, rewritten. cbn [unpack is_name].
  pose proof (short_variables xs v all O 1%nat (fun j => if Nat.eqb j 0 then v else VInt 0) st Sq eq_refl) as H.
  change (Z.of_nat 0) with 0 in H. destruct (unpack_all (variables xs) (ETmp 0) 0 1) as [ss k']. cbn [fst app exec_all exec eval bind] in H |- *.
  rewrite H; [reflexivity|lia].
Qed.
Example C83_too_few_items_example : sequence (VStr [97]) [] = Ok [VStr [97]] /\ (1 < length [0; 1])%nat.
Proof. split; [reflexivity|cbn; lia]. Qed.

(** FINDING: [a, b = (1, 2, 3)] is accepted. *)
Theorem C83_extra_items_refuted :
  exists b v st st2, assignment false (TSeq b) (FromValue v) st = Raise ValueError /\ compiled (TSeq b) (FromValue v) st = Ok st2 /\
    map (var st2) [0; 1]%nat = [VInt 1; VInt 2].
Proof.
  exists (variables [0; 1]%nat), (VTuple [VInt 1; VInt 2; VInt 3]), ex_state. eexists. split; [reflexivity|]. split; reflexivity.
Qed.
(** FINDING: [a, *b, c = [1]] is accepted; [a] and [c] are both the one item. *)
Theorem C83_starred_too_few_refuted :
  exists v st st2, let t := TStar (variables [0%nat]) (TVar 1) (variables [2%nat]) in
    assignment false t (FromValue v) st = Raise ValueError /\ compiled t (FromValue v) st = Ok st2 /\
    var st2 0%nat = VInt 1 /\ var st2 2%nat = VInt 1.
Proof. exists (VTuple [VInt 1]), ex_state. eexists. cbv zeta. split; [reflexivity|]. split; [reflexivity|]. split; reflexivity. Qed.
(** FINDING: [s, t = s] with [s = "ab"] fails; Python gives "a" and "b". *)
Theorem C83_named_on_both_sides_refuted :
  exists st st2, let t := TSeq (variables [0; 1]%nat) in
    assignment false t (FromVar 0) st = Ok st2 /\ map (var st2) [0; 1]%nat = [VStr [97]; VStr [98]] /\
    compiled t (FromVar 0) st = Raise IndexError.
Proof. exists (State (fun _ => VStr [97; 98]) []). eexists. cbv zeta. split; [reflexivity|]. split; reflexivity. Qed.
(** FINDING: [l[1], l[0] = l] with [l = [1, 2]] gives [1, 1]; Python gives [2, 1]. *)
Theorem C83_storing_into_unpacked_list_refuted :
  exists st st2 st3, let t := TSeq (TCons (TItem 0 (IConst 1)) (TCons (TItem 0 (IConst 0)) TNil)) in
    assignment false t (FromVar 0) st = Ok st2 /\ heap st2 = [[VInt 2; VInt 1]] /\
    compiled t (FromVar 0) st = Ok st3 /\ heap st3 = [[VInt 1; VInt 1]].
Proof.
  exists (State (fun _ => VList 0) [[VInt 1; VInt 2]]). do 2 eexists. cbv zeta.
  split; [reflexivity|]. split; [reflexivity|]. split; reflexivity.
Qed.
(** FINDING: [a, b = {0: 5, 1: 6}] gives the values; Python gives the keys. *)
Theorem C83_dictionary_refuted :
  exists v st st2 st3, let t := TSeq (variables [0; 1]%nat) in
    assignment false t (FromValue v) st = Ok st2 /\ map (var st2) [0; 1]%nat = [VInt 0; VInt 1] /\
    compiled t (FromValue v) st = Ok st3 /\ map (var st3) [0; 1]%nat = [VInt 5; VInt 6].
Proof.
  exists (VDict [(0, VInt 5); (1, VInt 6)]), ex_state. do 2 eexists. cbv zeta.
  split; [reflexivity|]. split; [reflexivity|]. split; reflexivity.
Qed.

Print Assumptions C83_unpacking_partial.
Print Assumptions C83_swap_variables.
Print Assumptions C83_pair_of_items.
Print Assumptions C83_extra_items_dropped.
Print Assumptions C83_too_few_items.
Print Assumptions C83_extra_items_refuted.
Print Assumptions C83_starred_too_few_refuted.
Print Assumptions C83_named_on_both_sides_refuted.
Print Assumptions C83_storing_into_unpacked_list_refuted.
Print Assumptions C83_dictionary_refuted.
