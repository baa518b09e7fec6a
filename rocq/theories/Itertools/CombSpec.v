(** What the combinatoric iterators must yield, said with tuples of positions:
    a list of tuples of positions is in lexicographic order without repetition,
    and holds exactly the tuples of some kind. *)
From Coq Require Import List Arith Sorting.Sorted.
Import ListNotations.

(** Lexicographic order on tuples of positions. *)
Inductive lexlt : list nat -> list nat -> Prop :=
| lex_here a b s t : a < b -> lexlt (a :: s) (b :: t)
| lex_later a s t : lexlt s t -> lexlt (a :: s) (a :: t).

(** [J] lists, in strictly increasing lexicographic order, the tuples in [P]. *)
Definition enumerates (P : list nat -> Prop) (J : list (list nat)) : Prop :=
  StronglySorted lexlt J /\ forall t, In t J <-> P t.

(** [v] is what stands in [pool] at the positions [t]. *)
Definition at_positions {A} (pool : list A) (t : list nat) (v : list A) : Prop :=
  Forall2 (fun i x => nth_error pool i = Some x) t v.

(** The same when every position is in a pool of its own. *)
Inductive at_pools {A} : list (list A) -> list nat -> list A -> Prop :=
| at_pools_nil : at_pools [] [] []
| at_pools_cons p ps i is x v :
    nth_error p i = Some x -> at_pools ps is v -> at_pools (p :: ps) (i :: is) (x :: v).

(** Tuples of [r] positions below [n] ... *)
Definition positions (n r : nat) (t : list nat) : Prop :=
  length t = r /\ Forall (fun i => i < n) t.
(** ... each after the previous one: combinations; *)
Definition is_combination (n r : nat) (t : list nat) : Prop :=
  positions n r t /\ StronglySorted lt t.
(** ... none before the previous one: combinations with replacement; *)
Definition is_multiset (n r : nat) (t : list nat) : Prop :=
  positions n r t /\ StronglySorted le t.
(** ... all different: permutations. *)
Definition is_arrangement (n r : nat) (t : list nat) : Prop :=
  positions n r t /\ NoDup t.
(** One position of each pool: Cartesian product. *)
Definition is_choice {A} (pools : list (list A)) (t : list nat) : Prop :=
  Forall2 (fun i p => i < length p) t pools.
