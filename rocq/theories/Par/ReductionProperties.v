(** C63: reductions give the sequential result. *)
From Coq Require Import ZArith List Bool Lia Permutation.
From Coq Require Import Floats.SpecFloat.
From Verif.Common Require Import Int64.
From Verif.Par Require Import ReductionSpec ReductionModel Reduction.
Import ListNotations.
Local Open Scope Z_scope.

(** For every body whose assignments of [s] all accumulate with one of the operations
    + * & | ^ min max, every iteration list [xs], every division [xss] of it among any
    number of threads, every order and grouping of the combination: the compiler finds the
    reduction, and the only possible final value is the sequential one. *)
Theorem C63_int_partial :
  forall st k, reduces k st -> assigns st = true -> initial k <> None ->
  reduction_of st = Some k /\
  forall xs xss s s', in64 s -> Permutation (concat xss) xs ->
    reduced st k xss s s' -> s' = seq_loop st xs s.
Proof.
  intros st k HR HA HI. split.
  - unfold reduction_of. rewrite (identify_reduces k st HR None) by auto. now rewrite HA.
  - intros xs xss s s' Hs HP (init & Hin & HC).
    destruct (body_factor k init st Hin HR) as (G & G1 & G2).
    apply (parallel_fold in64 (apply k) init) with (G := G) (step := exec st) (xss := xss); auto.
    + now apply (init_in64 k).
    + intros. now apply (apply_in64 k init).
    + intros. now apply (apply_assoc k init).
    + intros. now apply (apply_comm k init).
    + intros. now apply (apply_unit k init).
Qed.

(** There always is a final value: the runtime can combine in some order. *)
Theorem C63_total :
  forall {A} (f : A -> A -> A) ls s, exists s', combine f s ls s'.
Proof.
  intros A f ls. induction ls as [|l ls IH]; intros s.
  - exists s. constructor.
  - destruct (IH (f s l)) as [s' H]. exists s'. apply (CCommit f s l (l :: ls) ls s'); auto.
Qed.

(** A user-defined type reduces correctly whenever its addition is associative and
    commutative and its default value is a neutral element. *)
Theorem C63_custom :
  forall {A} (add : A -> A -> A) (zero : A),
  (forall a b c, add (add a b) c = add a (add b c)) ->
  (forall a b, add a b = add b a) -> (forall a, add a zero = a) ->
  forall (x : Z -> A) xs xss s s', Permutation (concat xss) xs ->
  combine add s (map (fun ys => fold_left (fun s i => add s (x i)) ys zero) xss) s' ->
  s' = fold_left (fun s i => add s (x i)) xs s.
Proof.
  intros A add zero Ha Hc Hz x xs xss s s' HP HC.
  apply (parallel_fold (fun _ : A => True) add zero) with
    (G := x) (step := fun i s => add s (x i)) (xss := xss); auto.
Qed.

(** ** Bodies taken for reductions that are not *)

Definition is_red (st : stmt) (k : op) : Prop := reduction_of st = Some k.

(** [s = s + s] reads the variable twice: s = 1, one iteration gives 2; the thread doubles
    its initial 0. *)
Theorem C63_twice_refuted :
  let st := SSet (EBin OAdd EVar EVar) in
  is_red st OAdd /\ seq_loop st [0] 1 = 2 /\ reduced st OAdd [[0]] 1 1.
Proof.
  split; [reflexivity|]. split; [reflexivity|]. exists 0. split; [reflexivity|].
  apply (CCommit _ _ 0 [0] []); [reflexivity|]. constructor.
Qed.

(** [s += 1; s = 5]: the plain assignment is ignored by the analysis. *)
Theorem C63_assignment_refuted :
  let st := SSeq (SSet (EBin OAdd EVar (EVal (fun _ => 1)))) (SSet (EVal (fun _ => 5))) in
  is_red st OAdd /\ seq_loop st [0; 1] 7 = 5 /\ reduced st OAdd [[0]; [1]] 7 17.
Proof.
  split; [reflexivity|]. split; [reflexivity|]. exists 0. split; [reflexivity|].
  apply (CCommit _ _ 5 [5; 5] [5]); [reflexivity|].
  apply (CCommit _ _ 5 [5] []); [reflexivity|]. constructor.
Qed.

(** [if s < 2: s += 1]: a saturating counter is not a reduction either. *)
Theorem C63_condition_refuted :
  let st := SIf (fun _ s => s <? 2) (SSet (EBin OAdd EVar (EVal (fun _ => 1)))) SSkip in
  is_red st OAdd /\ seq_loop st [0; 1; 2; 3] 0 = 2 /\ reduced st OAdd [[0; 1]; [2; 3]] 0 4.
Proof.
  split; [reflexivity|]. split; [reflexivity|]. exists 0. split; [reflexivity|].
  apply (CCommit _ _ 2 [2; 2] [2]); [reflexivity|].
  apply (CCommit _ _ 2 [2] []); [reflexivity|]. constructor.
Qed.

(** ** Reductions that are not found: the loop keeps one thread's copy (C62). *)
Theorem C63_missed_refuted :
  (* s -= x *)
  reduction_of (SSet (EBin OSub EVar (EVal (fun i => i)))) = None /\
  (* s = min(min(s, x), y) *)
  reduction_of (SSet (EBin OMin (EBin OMin EVar (EVal (fun i => i))) (EVal (fun i => - i)))) = None /\
  (* s += x in one place and s *= x in another *)
  reduction_of (SSeq (SSet (EBin OAdd EVar (EVal (fun i => i))))
                     (SSet (EBin OMul EVar (EVal (fun i => i))))) = None.
Proof. repeat split. Qed.

(** ** Wrong initial values *)

(** The maximum of negative floats: the initial value is the smallest positive normal
    number, not the least float. *)
Theorem C63_float_max_refuted :
  let m1 := S754_finite true 4503599627370496 (-52) in (* -1.0 *)
  let m2 := S754_finite true 4503599627370496 (-51) in (* -2.0 *)
  exists init, initial_float OMax = Some init /\
  fold_left fmax [m1] m2 = m1 /\
  combine fmax m2 [fold_left fmax [m1] init] init /\ init <> m1.
Proof.
  exists dbl_min. split; [reflexivity|]. split; [reflexivity|]. split; [|discriminate].
  apply (CCommit _ _ (fold_left fmax [S754_finite true 4503599627370496 (-52)] dbl_min) _ []);
    [reflexivity|]. vm_compute fmax. constructor.
Qed.

(** The minimum of infinities is the largest finite float. *)
Theorem C63_float_min_refuted :
  exists init, initial_float OMin = Some init /\
  let inf := S754_infinity false in
  fold_left fmin [inf] inf = inf /\
  combine fmin inf [fold_left fmin [inf] init] init /\ init <> inf.
Proof.
  exists dbl_max. split; [reflexivity|]. split; [reflexivity|]. split; [|discriminate].
  apply (CCommit _ _ (fold_left fmin [S754_infinity false] dbl_max) _ []);
    [reflexivity|]. vm_compute fmin. constructor.
Qed.

(** [ok &= x] on [bool] starts from [bool()], which is False. *)
Theorem C63_bool_and_refuted :
  exists init, initial_other false OAnd = Some init /\
  forall xss s s', xss <> [] ->
    combine andb s (map (fun ys : list bool => fold_left andb ys init) xss) s' -> s' = false.
Proof.
  exists false. split; [reflexivity|]. intros xss s s' HN HC.
  assert (F : forall ys, fold_left andb ys false = false) by (induction ys; auto).
  assert (E : map (fun ys => fold_left andb ys false) xss = repeat false (length xss)).
  { clear. induction xss; simpl; auto. f_equal; auto. clear. induction a; auto. }
  rewrite E in HC. clear E F.
  assert (X : exists l, In l (repeat false (length xss)) /\ l = false).
  { destruct xss; [congruence|]. exists false. simpl. auto. }
  revert X HC. generalize (repeat false (length xss)). intros ls X HC.
  assert (Y : s = false \/ In false ls) by (destruct X as (l & H & ->); auto).
  clear X. induction HC as [s|s l ls rest s' HP HC IH|s a b ls rest s' HP HC IH].
  - destruct Y as [-> |[]]; reflexivity.
  - apply IH. destruct Y as [-> |Y]; [now left|].
    apply (Permutation_in _ HP) in Y as [-> |Y]; [left; apply andb_false_r|now right].
  - apply IH. destruct Y as [-> |Y]; [now left|].
    apply (Permutation_in _ HP) in Y as [-> |[-> |Y]]; right; simpl; auto using andb_false_r.
Qed.

(** The product of [Int[32]], [complex] or other numbers starts from 0. *)
Theorem C63_product_refuted :
  exists init, initial_other 0 OMul = Some init /\
  forall s xs s', combine Z.mul s [fold_left Z.mul xs init] s' -> s' = 0.
Proof.
  exists 0. split; [reflexivity|]. intros s xs s' HC.
  assert (F : fold_left Z.mul xs 0 = 0).
  { induction xs as [|x xs IH]; simpl; auto. }
  rewrite F in HC. inversion HC as [| ? l ls rest ? HP H | ? a b ls rest ? HP H]; subst.
  - apply Permutation_length_1_inv in HP. inversion HP; subst.
    inversion H as [| ? l' ls rest' ? HP' H' | ? a b ls rest' ? HP' H']; subst; [lia| |].
    + apply Permutation_nil in HP'. discriminate.
    + apply Permutation_nil in HP'. discriminate.
  - apply Permutation_length in HP. discriminate.
Qed.

(** Concatenation has a neutral default and is associative, but the order of the threads
    shows: [s += [i]] over 0, 1 may give [1, 0]. *)
Theorem C63_order_refuted :
  let body := fun (s : list Z) i => s ++ [i] in
  fold_left body [0; 1] [] = [0; 1] /\
  combine (@app Z) [] (map (fun ys => fold_left body ys []) [[0]; [1]]) [1; 0].
Proof.
  split; [reflexivity|].
  apply (CCommit _ _ [1] [[0]; [1]] [[0]]); [apply perm_swap|].
  apply (CCommit _ _ [0] [[0]] []); [reflexivity|]. constructor.
Qed.

(** ** Non-vacuity: [if is_prime(i): total += 1; total = i + (total + 2)] *)
Example reduction_ex :
  let st := SSeq (SIf (fun i _ => Z.odd i) (SSet (EBin OAdd EVar (EVal (fun _ => 1)))) SSkip)
                 (SSet (EBin OAdd (EVal (fun i => i)) (EBin OAdd EVar (EVal (fun _ => 2))))) in
  reduces OAdd st /\ assigns st = true /\ seq_loop st [0; 1; 2] 100 = 110 /\
  reduced st OAdd [[2; 0]; []; [1]] 100 110.
Proof.
  split. { simpl. split; [split; [reflexivity|]|]; auto 12. }
  split; [reflexivity|]. split; [reflexivity|]. exists 0. split; [reflexivity|].
  apply (CMerge _ _ 6 4 [6; 0; 4] [0]); [apply perm_skip, perm_swap|].
  apply (CCommit _ _ 0 [10; 0] [10]); [apply perm_swap|].
  apply (CCommit _ _ 10 [10] []); [reflexivity|]. constructor.
Qed.

Example reduction_min_ex :
  let st := SSet (EBin OMin (EVal (fun i => (i - 3) * (i - 3))) EVar) in
  reduces OMin st /\ seq_loop st [0; 1; 2; 3; 4] 50 = 0.
Proof. split; [simpl; auto 8|reflexivity]. Qed.

Print Assumptions C63_int_partial.
Print Assumptions C63_total.
Print Assumptions C63_custom.
Print Assumptions C63_twice_refuted.
Print Assumptions C63_assignment_refuted.
Print Assumptions C63_condition_refuted.
Print Assumptions C63_missed_refuted.
Print Assumptions C63_float_max_refuted.
Print Assumptions C63_float_min_refuted.
Print Assumptions C63_bool_and_refuted.
Print Assumptions C63_product_refuted.
Print Assumptions C63_order_refuted.
