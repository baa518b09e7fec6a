(** What a deque is: a sequence, optionally kept to the [m] most recent elements. *)
From Coq Require Import List ZArith Bool.
From Verif.Common Require Import Result.
Import ListNotations.
Local Open Scope Z_scope.

Inductive dop (T : Type) : Type :=
| DAppend (x : T) | DAppendLeft (x : T) | DPop | DPopLeft | DClear | DLen | DBool
| DIndex (i : Z) | DLeft | DItems.
Arguments DAppend {T} _. Arguments DAppendLeft {T} _. Arguments DPop {T}. Arguments DPopLeft {T}.
Arguments DClear {T}. Arguments DLen {T}. Arguments DBool {T}. Arguments DIndex {T} _.
Arguments DLeft {T}. Arguments DItems {T}.
Inductive dval (T : Type) : Type :=
| DVNone | DVElem (x : T) | DVInt (n : Z) | DVBool (b : bool) | DVItems (l : list T) | DVExn (e : exn).
Arguments DVNone {T}. Arguments DVElem {T} _. Arguments DVInt {T} _. Arguments DVBool {T} _.
Arguments DVItems {T} _. Arguments DVExn {T} _.

Section Spec.
Context {T : Type}.
Definition size (xs : list T) : Z := Z.of_nat (length xs).

(** A bound of [None] keeps everything; otherwise the elements too many go at the end
    opposite to the one appended to. *)
Definition keep_last (bound : option Z) (xs : list T) : list T :=
  match bound with None => xs | Some m => skipn (Z.to_nat (size xs - m)) xs end.
Definition keep_first (bound : option Z) (xs : list T) : list T :=
  match bound with None => xs | Some m => firstn (Z.to_nat m) xs end.

Definition elem (o : option T) : dval T :=
  match o with Some x => DVElem x | None => DVExn IndexError end.
(** Python indexing, counting from the end when negative. *)
Definition index (xs : list T) (i : Z) : option T :=
  let i := if i <? 0 then i + size xs else i in
  if (i <? 0) then None else nth_error xs (Z.to_nat i).

Definition spec_dop (bound : option Z) (xs : list T) (o : dop T) : list T * dval T :=
  match o with
  | DAppend x => (keep_last bound (xs ++ [x]), DVNone)
  | DAppendLeft x => (keep_first bound (x :: xs), DVNone)
  | DPop => (removelast xs, elem (nth_error xs (length xs - 1)))
  | DPopLeft => (tl xs, elem (hd_error xs))
  | DClear => ([], DVNone)
  | DLen => (xs, DVInt (size xs))
  | DBool => (xs, DVBool (negb (size xs =? 0)))
  | DIndex i => (xs, elem (index xs i))
  | DLeft => (xs, elem (hd_error xs))
  | DItems => (xs, DVItems xs)
  end.
Fixpoint spec_drun (bound : option Z) (xs : list T) (os : list (dop T)) : list (dval T) * list T :=
  match os with
  | [] => ([], xs)
  | o :: os => let '(xs1, v) := spec_dop bound xs o in
               let '(vs, xs2) := spec_drun bound xs1 os in (v :: vs, xs2)
  end.
End Spec.
