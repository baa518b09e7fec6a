(** What a for loop does: the body is run for one element after the other. *)
From Coq Require Import List ZArith.
From Verif.Common Require Import Int64.
From Verif.Loops Require Import ForModel.
Import ListNotations.
Local Open Scope Z_scope.

Section Spec.
Context {st X : Type}.
(** The body for each element of a list: a statement that ends normally or with [continue]
    goes on with the next element, [break] ends the loop, return and raise leave it. *)
Inductive runs {A} (set : A -> st -> st) (body : st -> st -> out X -> Prop) : list A -> st -> st -> out X -> Prop :=
| r_nil s : runs set body [] s s Norm
| r_next a l s s1 o s2 o2 : body (set a s) s1 o -> (o = Norm \/ o = Cont) -> runs set body l s1 s2 o2 -> runs set body (a :: l) s s2 o2
| r_break a l s s1 : body (set a s) s1 Brk -> runs set body (a :: l) s s1 Norm
| r_exit a l s s1 x : body (set a s) s1 (Exit x) -> runs set body (a :: l) s s1 (Exit x).

(** [l] is [range(a, b, k)] of unbounded integers: [a], [a + k], ... as long as [b] is not reached. *)
Definition before (b k i : Z) : Prop := (0 < k /\ i < b) \/ (k < 0 /\ b < i).
Definition is_range (a b k : Z) (l : list Z) : Prop :=
  (forall n x, nth_error l n = Some x -> x = a + Z.of_nat n * k /\ before b k x) /\
  ~ before b k (a + Z.of_nat (length l) * k).

(** Python's loop over a list: the length and the element are read anew for each index. *)
Inductive py_list {V ref addr} (len_of : ref -> st -> Z) (ptr_of : ref -> st -> addr) (load : addr -> Z -> st -> V) (set : V -> st -> st)
  (body : st -> st -> out X -> Prop) (r : ref) : Z -> st -> st -> out X -> Prop :=
| p_done i s : len_of r s <= i -> py_list len_of ptr_of load set body r i s s Norm
| p_next i s s1 o s2 o2 : i < len_of r s -> body (set (load (ptr_of r s) i s) s) s1 o -> (o = Norm \/ o = Cont) ->
    py_list len_of ptr_of load set body r (i + 1) s1 s2 o2 -> py_list len_of ptr_of load set body r i s s2 o2
| p_break i s s1 : i < len_of r s -> body (set (load (ptr_of r s) i s) s) s1 Brk -> py_list len_of ptr_of load set body r i s s1 Norm
| p_exit i s s1 x : i < len_of r s -> body (set (load (ptr_of r s) i s) s) s1 (Exit x) -> py_list len_of ptr_of load set body r i s s1 (Exit x).
End Spec.

(** The bounds that the arguments of [range] stand for. *)
Definition bounds (zs : list Z) (a b k : Z) : Prop :=
  k <> 0 /\ (zs = [b] /\ a = 0 /\ k = 1 \/ zs = [a; b] /\ k = 1 \/ zs = [a; b; k]).
