(** What heaps, the n best items, merging and insertion points are. *)
From Coq Require Import List ZArith Bool Permutation Sorted.
From Verif.Common Require Import Ord.
Import ListNotations.
Local Open Scope Z_scope.

(** The heap invariant: no child is smaller than its parent. *)
Definition is_heap {A} (lt : A -> A -> bool) (h : list A) : Prop :=
  forall k c x y, (c = 2 * k + 1 \/ c = 2 * k + 2)%nat ->
  nth_error h k = Some x -> nth_error h c = Some y -> lt y x = false.

(** [m] is a minimum of [l]. *)
Definition is_min {A} (lt : A -> A -> bool) (m : A) (l : list A) : Prop :=
  In m l /\ forall y, In y l -> lt y m = false.

(** Python's [sorted(l)] and [sorted(l, reverse=True)]: ties stay in order. *)
Definition sorted_asc {A} (lt : A -> A -> bool) (l r : list A) : Prop := stable_sort_of lt l r.
Definition sorted_desc {A} (lt : A -> A -> bool) (l r : list A) : Prop := stable_sort_of (fun x y => lt y x) l r.

(** The split point of a window [lo, hi) of [a]: what is before it satisfies [p], what is
    after does not. *)
Definition splits {A} (p : A -> bool) (a : list A) (lo hi i : Z) : Prop :=
  lo <= i <= hi /\
  forall k y, lo <= k < hi -> nth_error a (Z.to_nat k) = Some y -> p y = (k <? i).
