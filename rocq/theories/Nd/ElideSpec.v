(** What a user relies on when bounds checks are removed: an indexing expression
    in a loop denotes the same element, or raises the same exception, as before. *)
From Coq Require Import ZArith List Bool.
From Verif Require Import Common.Result Nd.ElideModel.
Import ListNotations.
Open Scope Z_scope.
Open Scope bool_scope.

(** The position that index [i] denotes in a one-dimensional array of [n]
    elements: negative indices count from the end, the others from the front;
    anything outside raises IndexError. *)
Definition denotes (n i : Z) : res Z :=
  if (0 <=? i) && (i <? n) then Ok i
  else if (- n <=? i) && (i <? 0) then Ok (n + i)
  else Raise IndexError.

(** Exact integer meaning of the loop [for i in range(start, stop, step)]. *)
Definition in_range (start stop step i : Z) : Prop :=
  exists k, 0 <= k /\ i = start + k * step /\
    (0 < step /\ i < stop \/ step < 0 /\ stop < i).

(** The value of an expression in unbounded integers. *)
Fixpoint exact (e : env) (x : iexpr) : Z :=
  match x with
  | EConst z => z
  | EVar v => ints e v
  | EAdd a b => exact e a + exact e b
  | ESub a b => exact e a - exact e b
  | ELen v => hd 0 (shapes e v)
  | ESize v => fold_right Z.mul 1 (shapes e v)
  | EOther z => z
  end.

(** How often an expression adds (minus: subtracts) a variable satisfying [f]. *)
Fixpoint adds_var (f : nat -> bool) (x : iexpr) : Z :=
  match x with
  | EVar v => if f v then 1 else 0
  | EAdd a b => adds_var f a + adds_var f b
  | ESub a b => adds_var f a - adds_var f b
  | _ => 0
  end.
(** How often it adds the length of array [w]. *)
Fixpoint adds_len (w : nat) (x : iexpr) : Z :=
  match x with
  | ELen v | ESize v => if Nat.eqb v w then 1 else 0
  | EAdd a b => adds_len w a + adds_len w b
  | ESub a b => adds_len w a - adds_len w b
  | _ => 0
  end.

(** How fast the index moves with the loop variable (or an alias of it). *)
Definition slope (alias : nat -> bool) (p : access) : Z :=
  adds_var (fun v => alias v || Nat.eqb v (lv p)) (idx p).
(** How often len(w) is added by the index when the loop variable is [x]. *)
Definition lens_at (alias : nat -> bool) (p : access) (x : iexpr) (w : nat) : Z :=
  adds_len w (idx p) + slope alias p * adds_len w x.

(** A state in which every array is one-dimensional and everything fits. *)
Definition int64 (z : Z) : Prop := - 2 ^ 63 <= z < 2 ^ 63.
Definition sane (e : env) : Prop :=
  (forall v, int64 (ints e v)) /\
  (forall v, exists n, shapes e v = [n] /\ 0 <= n < 2 ^ 63).
Fixpoint consts_fit (x : iexpr) : Prop :=
  match x with
  | EConst z | EOther z => int64 z
  | EAdd a b | ESub a b => consts_fit a /\ consts_fit b
  | _ => True
  end.

(** The state at the access in the iteration with value [i]: the loop variable and
    its aliases hold [i], the other variables are as when the loop was entered. *)
Definition at_iteration (alias : nat -> bool) (p : access) (e e' : env) (i : Z)
  : Prop :=
  (forall v, ints e' v = if alias v || Nat.eqb v (lv p) then i else ints e v) /\
  (forall v, shapes e' v = shapes e v).
