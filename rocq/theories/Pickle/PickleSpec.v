(** What pickling must preserve. *)
From Coq Require Import List ZArith Bool Permutation.
From Verif.Common Require Import Result Int64 Arr.
From Verif.Dict Require Import Model Run Properties.
From Verif.Pickle Require Import PickleModel.
Import ListNotations.
Local Open Scope Z_scope.

(** Types without a dict or a set inside (the types of dict keys and set elements here). *)
Fixpoint plain (t : ty) : bool :=
  match t with
  | TInt | TBool | TBits _ | TStr => true
  | TList e => plain e
  | TPair a b => plain a && plain b
  | TDict _ _ | TSet _ => false
  end.

Section Spec.
Context (eqb : forall t, den t -> den t -> bool) (hash : forall t, den t -> Z).

(** Values that exist: integers of 64 bits, byte strings, containers whose size in bytes is an
    int, hash tables in a state that dict operations can produce ([repr], C01) over keys whose
    [==] is an equivalence respected by [hash]. *)
Fixpoint valid (t : ty) : den t -> Prop :=
  match t with
  | TInt => fun z => in64 z
  | TBool => fun _ => True
  | TBits w => fun z => 0 <= z < 256 ^ Z.of_nat w
  | TStr => fun s : list Z => zlen s < 2^63
  | TList e => fun l : list (den e) => zlen l < 2^63 /\ zlen l * Z.of_nat (sizeof e) < 2^63 /\ Forall (valid e) l
  | TPair a b => fun p => valid a (fst p) /\ valid b (snd p)
  | TDict k v => fun d : tbl (den k) (den v) =>
      plain k = true /\ key_ok (eqb k) (hash k) /\
      nb d * Z.of_nat (sizeof k) < 2^63 /\ nb d * Z.of_nat (sizeof v) < 2^63 /\
      exists m, repr (eqb k) (hash k) d m /\ zlen m <= 2^60 /\
        Forall (fun e => valid k (fst e) /\ valid v (snd e)) m
  | TSet k => fun d : tbl (den k) unit =>
      plain k = true /\ key_ok (eqb k) (hash k) /\ nb d * Z.of_nat (sizeof k) < 2^63 /\
      exists m, repr (eqb k) (hash k) d m /\ zlen m <= 2^60 /\ Forall (fun e => valid k (fst e)) m
  end.

(** Equal Python values: numbers and strings are identical, lists and tuples have equal
    elements, dicts hold the same keys with equal values, sets the same elements.  (Tables
    represent a dict up to the order of its items.) *)
Fixpoint same (t : ty) : den t -> den t -> Prop :=
  match t with
  | TInt => fun x y => x = y
  | TBool => fun x y => x = y
  | TBits _ => fun x y => x = y
  | TStr => fun x y => x = y
  | TList e => Forall2 (same e)
  | TPair a b => fun p q => same a (fst p) (fst q) /\ same b (snd p) (snd q)
  | TDict k v => fun d d' =>
      exists m m', repr (eqb k) (hash k) d m /\ repr (eqb k) (hash k) d' m' /\
        Forall2 (fun e e' => fst e = fst e' /\ same v (snd e) (snd e')) m m'
  | TSet k => fun d d' =>
      exists m, repr (eqb k) (hash k) d m /\ repr (eqb k) (hash k) d' m
  end.
End Spec.
