(** C14-C19: the sorting algorithms.

    Reading guide.  A Codon list is a backing array together with a length; the
    theorems run the code on [l ++ spare] with length [zlen l], where [spare] is the
    unused capacity.  [Ok (r ++ spare)] says that the run terminates, makes no access
    outside the array and leaves the spare cells alone.  [strict_weak], [is_sort_of]
    and [stable_sort_of] are in Common/Ord.v. *)
From Coq Require Import List ZArith Lia Bool Permutation Sorted.
From Verif.Common Require Import Result Arr Ord.
From Verif.Sort Require Import Model QModel TModel Dispatch DispatchProofs.
Import ListNotations.
Local Open Scope Z_scope.

(** C14: insertion sort is a stable sort. *)
Theorem C14_insertion_sort_stable :
  forall (A : Type) (lt : A -> A -> bool), strict_weak lt ->
  forall l spare : list A,
  exists r, insertion_sort_array lt (l ++ spare) (zlen l) = Ok (r ++ spare) /\
            stable_sort_of lt l r.
Proof. intros A lt W l spare. exact (insertion_lift lt l spare W). Qed.
Print Assumptions C14_insertion_sort_stable.

(** C15: heap sort sorts. *)
Theorem C15_heap_sort_sorts :
  forall (A : Type) (lt : A -> A -> bool), strict_weak lt ->
  forall l spare : list A,
  exists r, heap_sort_array lt (l ++ spare) (zlen l) = Ok (r ++ spare) /\ is_sort_of lt l r.
Proof. intros A lt W l spare. exact (heap_lift lt l spare W). Qed.
Print Assumptions C15_heap_sort_sorts.

(** C16: quicksort sorts. *)
Theorem C16_qsort_sorts :
  forall (A : Type) (lt eq : A -> A -> bool), strict_weak lt ->
  (forall x y, eq x y = negb (lt x y) && negb (lt y x)) ->
  forall l spare : list A,
  exists r, qsort_array lt eq (l ++ spare) (zlen l) = Ok (r ++ spare) /\ is_sort_of lt l r.
Proof. intros A lt eq W EQ l spare. exact (q_lift lt eq l spare W EQ). Qed.
Print Assumptions C16_qsort_sorts.

(** C17: the default sort sorts. *)
Theorem C17_pdq_sort_sorts :
  forall (A : Type) (lt : A -> A -> bool), strict_weak lt ->
  forall l spare : list A,
  exists r, pdq_sort_array lt (l ++ spare) (zlen l) = Ok (r ++ spare) /\ is_sort_of lt l r.
Proof. intros A lt W l spare. exact (pdq_lift lt l spare W). Qed.
Print Assumptions C17_pdq_sort_sorts.

(** C17, memory safety: any asymmetric comparison - floats with NaN included -
    gives a permutation, with no access outside the array. *)
Theorem C17_pdq_sort_safe_for_asymmetric_comparisons :
  forall (A : Type) (lt : A -> A -> bool),
  (forall x y, lt x y = true -> lt y x = false) ->
  forall l spare : list A,
  exists r, pdq_sort_array lt (l ++ spare) (zlen l) = Ok (r ++ spare) /\ Permutation l r.
Proof.
  intros A lt W l spare. destruct (pdq_lift_safe lt l spare W) as (r & E & P & _). eauto.
Qed.
Print Assumptions C17_pdq_sort_safe_for_asymmetric_comparisons.

(** Sharpness: with a comparison that is not asymmetric the unguarded scans do
    leave the array (a user-defined [__lt__] that is [<=] is enough). *)
Theorem C17_pdq_sort_needs_asymmetry_refuted :
  exists (lt : Z -> Z -> bool) (l : list Z), pdq_sort_array lt l (zlen l) = Undef.
Proof. exists Z.leb, (repeat 0 24). vm_compute. reflexivity. Qed.
Print Assumptions C17_pdq_sort_needs_asymmetry_refuted.

(** C18: timsort sorts. *)
Theorem C18_tim_sort_sorts :
  forall (A : Type) (lt ge : A -> A -> bool), strict_weak lt ->
  (forall x y, ge x y = negb (lt x y)) ->
  forall l spare : list A,
  exists r, tim_sort_array lt ge (l ++ spare) (zlen l) = Ok (r ++ spare) /\ is_sort_of lt l r.
Proof. intros A lt ge W GE l spare. exact (tim_lift lt ge l spare W GE). Qed.
Print Assumptions C18_tim_sort_sorts.

(** C18, memory safety: timsort is safe and permutes for every comparison. *)
Theorem C18_tim_sort_safe_for_all_comparisons :
  forall (A : Type) (lt ge : A -> A -> bool) (l spare : list A),
  exists r, tim_sort_array lt ge (l ++ spare) (zlen l) = Ok (r ++ spare) /\ Permutation l r.
Proof.
  intros A lt ge l spare. destruct (tim_lift_safe lt ge l spare) as (r & E & P & _). eauto.
Qed.
Print Assumptions C18_tim_sort_safe_for_all_comparisons.

(** C18: [list.sort] and [sorted] with any algorithm, key or no key, and either
    direction. *)
Theorem C18_list_sort_sorts :
  forall (A : Type) (lt ge eq : A -> A -> bool), strict_weak lt ->
  (forall x y, ge x y = negb (lt x y)) ->
  (forall x y, eq x y = negb (lt x y) && negb (lt y x)) ->
  forall (a : algo) (has_key compat reverse : bool) (l spare : list A),
  exists r, list_sort lt ge eq a has_key compat reverse (l ++ spare) (zlen l) = Ok (r ++ spare) /\
            is_sort_of (if reverse then (fun x y => lt y x) else lt) l r.
Proof.
  intros A lt ge eq W GE EQ a hk c rv l spare. now apply list_sort_lift.
Qed.
Print Assumptions C18_list_sort_sorts.

(** C19 is false of the code: [_count_run] (timsort.codon:67,71) treats a
    non-increasing run as descending and reverses it, ties included. *)
Definition key_lt (x y : Z * Z) : bool := fst x <? fst y.
Definition key_ge (x y : Z * Z) : bool := fst y <=? fst x.
Definition key_eq (x y : Z * Z) : bool := fst x =? fst y.

Theorem C19_sorted_with_key_stable_refuted :
  exists l r : list (Z * Z),
    sorted_fn key_lt key_ge key_eq Auto true false false l = Ok r /\
    ~ stable_sort_of key_lt l r.
Proof.
  exists [(1,10);(1,20)], [(1,20);(1,10)]. split; [vm_compute; reflexivity|].
  intros [_ H]. specialize (H (1,10)). vm_compute in H. discriminate.
Qed.
Print Assumptions C19_sorted_with_key_stable_refuted.

(** The same with [reverse=True]: Python keeps ties in order, the final
    [self.reverse()] does not. *)
Theorem C19_sorted_reverse_stable_refuted :
  exists l r : list (Z * Z),
    sorted_fn key_lt key_ge key_eq Auto true false true l = Ok r /\
    ~ stable_sort_of (fun x y => key_lt y x) l r.
Proof.
  exists [(1,10);(2,0);(1,20)], [(2,0);(1,20);(1,10)]. split; [vm_compute; reflexivity|].
  intros [_ H]. specialize (H (1,10)). vm_compute in H. discriminate.
Qed.
Print Assumptions C19_sorted_reverse_stable_refuted.

(** What does hold: timsort is stable on inputs where no two neighbouring elements
    have equal keys (equal keys further apart are fine). *)
Theorem C19_tim_sort_stable_partial :
  forall (A : Type) (lt ge : A -> A -> bool), strict_weak lt ->
  (forall x y, ge x y = negb (lt x y)) ->
  forall l spare : list A,
  (forall p x y s, l = p ++ x :: y :: s -> lt x y = true \/ lt y x = true) ->
  exists r, tim_sort_array lt ge (l ++ spare) (zlen l) = Ok (r ++ spare) /\ stable_sort_of lt l r.
Proof.
  intros A lt ge W GE l spare NA.
  destruct (tim_lift_safe lt ge l spare) as (r & E & P & S).
  destruct (S W GE) as [S1 S2]. exists r. split; [exact E|]. split; [split; auto|].
  intros k. now apply (S2 NA).
Qed.
Print Assumptions C19_tim_sort_stable_partial.

(** ** Non-vacuity *)

Lemma Zlt_strict_weak : strict_weak Z.ltb.
Proof. split; intros; rewrite ?Z.ltb_lt, ?Z.ltb_ge in *; lia. Qed.

Lemma key_strict_weak : strict_weak key_lt.
Proof. split; unfold key_lt; intros; rewrite ?Z.ltb_lt, ?Z.ltb_ge in *; lia. Qed.

Example key_ge_ok : forall x y, key_ge x y = negb (key_lt x y).
Proof. intros. unfold key_ge, key_lt. lia. Qed.

Example key_eq_ok : forall x y, key_eq x y = negb (key_lt x y) && negb (key_lt y x).
Proof. intros. unfold key_eq, key_lt. lia. Qed.

(** A partial order that is not total, like [<] on floats with a NaN (here [None]). *)
Definition nan_lt (x y : option Z) : bool :=
  match x, y with Some a, Some b => a <? b | _, _ => false end.

Example nan_lt_asym : forall x y, nan_lt x y = true -> nan_lt y x = false.
Proof. intros [x|] [y|]; simpl; intros; try discriminate; auto; lia. Qed.

Example nan_lt_not_weak : ~ strict_weak nan_lt.
Proof.
  intros [_ _ H]. specialize (H (Some 2) None (Some 3) eq_refl eq_refl). discriminate.
Qed.

Example pdq_example :
  pdq_sort_array Z.ltb (map (fun i => (i * 37) mod 64) (map Z.of_nat (seq 0 64)) ++ [99]) 64
  = Ok (map Z.of_nat (seq 0 64) ++ [99]).
Proof. vm_compute. reflexivity. Qed.

Example tim_example :
  tim_sort_array Z.ltb (fun x y => y <=? x)
    (map (fun i => (i * 37) mod 101) (map Z.of_nat (seq 0 101)) ++ [7]) 101
  = Ok (map Z.of_nat (seq 0 101) ++ [7]).
Proof. vm_compute. reflexivity. Qed.

Example qsort_example :
  qsort_array Z.ltb Z.eqb (map (fun i => (i * 37) mod 64) (map Z.of_nat (seq 0 64))) 64
  = Ok (map Z.of_nat (seq 0 64)).
Proof. vm_compute. reflexivity. Qed.

Example insertion_stable_example :
  insertion_sort_array key_lt [(2,0);(1,1);(2,2);(1,3)] 4 = Ok [(1,1);(1,3);(2,0);(2,2)].
Proof. vm_compute. reflexivity. Qed.

Example heap_example : heap_sort_array Z.ltb [5;1;4;2;3] 5 = Ok [1;2;3;4;5].
Proof. vm_compute. reflexivity. Qed.

(** An input satisfying the hypothesis of the partial stability theorem, with ties. *)
Example stable_partial_example :
  (forall p x y s, [(1,0);(0,1);(1,2);(0,3)] = p ++ x :: y :: s ->
     key_lt x y = true \/ key_lt y x = true) /\
  tim_sort_array key_lt key_ge [(1,0);(0,1);(1,2);(0,3)] 4 = Ok [(0,1);(0,3);(1,0);(1,2)].
Proof.
  split; [|vm_compute; reflexivity].
  intros p x y s H.
  destruct p as [|a [|b [|c [|e p]]]]; simpl in H;
    try (inversion H; subst; vm_compute; auto; fail).
  inversion H; destruct p; discriminate.
Qed.
