(** What the integer functions promise, independent of the code. *)
From Coq Require Import List ZArith.
Import ListNotations.
Local Open Scope Z_scope.

Fixpoint fact (n : nat) : Z := match n with O => 1 | S m => Z.of_nat n * fact m end.

(** [g] is the greatest common divisor of the numbers [l]: it divides them and all their common
    divisors divide it; [m] is their least common multiple. *)
Definition divides_all (d : Z) (l : list Z) : Prop := forall x, In x l -> (d | x).
Definition is_gcd (g : Z) (l : list Z) : Prop := 0 <= g /\ divides_all g l /\ forall d, divides_all d l -> (d | g).
Definition multiple_of_all (m : Z) (l : list Z) : Prop := forall x, In x l -> (x | m).
Definition is_lcm (m : Z) (l : list Z) : Prop := 0 <= m /\ multiple_of_all m l /\ forall k, multiple_of_all k l -> (m | k).

(** [x] is the first of the items [l] whose key is the least. *)
Definition first_least {A K} (le : K -> K -> Prop) (key : A -> K) (l : list A) (x : A) : Prop :=
  exists l1 l2, l = l1 ++ x :: l2 /\ (forall y, In y l1 -> ~ le (key y) (key x)) /\ (forall y, In y l2 -> le (key x) (key y)).
