(** What a counter is: an integer for every key, 0 for all but finitely many. *)
From Coq Require Import List ZArith Bool Permutation Sorted.
From Verif.Common Require Import Int64.
From Verif.Dict Require Import Spec.
Import ListNotations.
Local Open Scope Z_scope.

Section Spec.
Context {K : Type} (eqb : K -> K -> bool).

(** The count of [k] in a dict of counts. *)
Definition count (m : list (K * Z)) (k : K) : Z := match lookup eqb m k with Some v => v | None => 0 end.
(** How often [k] occurs in a sequence. *)
Fixpoint occurrences (l : list K) (k : K) : Z :=
  match l with [] => 0 | a :: l => (if eqb a k then 1 else 0) + occurrences l k end.
(** The counts are [int]s. *)
Definition ints (m : list (K * Z)) : Prop := forall k v, In (k, v) m -> in64 v.
(** No entry is kept for counts that are not positive. *)
Definition positive (m : list (K * Z)) : Prop := forall k v, In (k, v) m -> 0 < v.

(** [r] are [n] items of [l] with the largest counts (all of them if there are fewer), the
    largest first. *)
Definition largest (n : nat) (l r : list (K * Z)) : Prop :=
  exists rest, Permutation l (r ++ rest) /\ length r = Nat.min n (length l) /\
    StronglySorted (fun a b => snd b <= snd a) r /\ forall a b, In a r -> In b rest -> snd b <= snd a.
End Spec.
