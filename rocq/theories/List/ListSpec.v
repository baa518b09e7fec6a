(** Specification of Python's list operations on mathematical sequences, written
    from the Python documentation (mutable sequence types), plus Codon's documented
    deviation that [remove] returns whether it found the value. *)
From Coq Require Import List ZArith Lia Bool.
From Verif.Common Require Import Result.
From Verif.List Require Import SliceSpec.
Import ListNotations.
Local Open Scope Z_scope.

Section Spec.
Context {A : Type} (eqb ltb : A -> A -> bool).

Definition size (xs : list A) : Z := Z.of_nat (length xs).

(** Negative indices count from the end. *)
Definition norm (xs : list A) (i : Z) : Z := if i <? 0 then i + size xs else i.
Definition valid (xs : list A) (i : Z) : bool := (0 <=? norm xs i) && (norm xs i <? size xs).

Definition item (xs : list A) (i : Z) : option A :=
  if valid xs i then nth_error xs (Z.to_nat (norm xs i)) else None.

(** Sequence surgery at position [p] (0 <= p). *)
Definition take (p : Z) (xs : list A) := firstn (Z.to_nat p) xs.
Definition drop (p : Z) (xs : list A) := skipn (Z.to_nat p) xs.

Definition replace_at (xs : list A) (p : Z) (x : A) : list A :=
  take p xs ++ x :: drop (p + 1) xs.
Definition delete_at (xs : list A) (p : Z) : list A := take p xs ++ drop (p + 1) xs.
Definition insert_at (xs : list A) (i : Z) (x : A) : list A :=
  let p := Z.min (size xs) (Z.max 0 (norm xs i)) in take p xs ++ x :: drop p xs.

Definition times (n : Z) (xs : list A) : list A := concat (repeat xs (Z.to_nat n)).

(** Position of the first element equal to [x]. *)
Fixpoint first_index (xs : list A) (x : A) : option Z :=
  match xs with
  | [] => None
  | a :: xs => if eqb a x then Some 0
               else match first_index xs x with Some i => Some (i + 1) | None => None end
  end.

Definition occurrences (xs : list A) (x : A) : Z := size (filter (fun a => eqb a x) xs).

Fixpoint equal_lists (xs ys : list A) : bool :=
  match xs, ys with
  | [], [] => true
  | x :: xs, y :: ys => eqb x y && equal_lists xs ys
  | _, _ => false
  end.

(** Lexicographic comparison: -1, 0 or 1. *)
Fixpoint lex (xs ys : list A) : Z :=
  match xs, ys with
  | [], [] => 0
  | [], _ => -1
  | _, [] => 1
  | x :: xs, y :: ys => if ltb x y then -1 else if eqb x y then lex xs ys else 1
  end.

(** *** Slices *)

(** The elements at the given (valid) positions. *)
Definition pick (xs : list A) (ps : list Z) : list A :=
  flat_map (fun p => match nth_error xs (Z.to_nat p) with Some x => [x] | None => [] end) ps.

(** All positions of a sequence. *)
Definition positions (xs : list A) : list Z := map Z.of_nat (seq 0 (length xs)).

Definition slice_get (xs : list A) (s : slice) : list A := pick xs (py_positions (size xs) s).

(** Deleting a slice keeps the elements at the positions it does not select. *)
Definition slice_del (xs : list A) (s : slice) : list A :=
  pick xs (filter (fun p => negb (existsb (Z.eqb p) (py_positions (size xs) s))) (positions xs)).

(** Assigning to a slice of step 1 replaces a segment. *)
Definition slice_set_seg (xs : list A) (s : slice) (ys : list A) : list A :=
  let i := py_start (size xs) s in
  let j := Z.max i (py_stop (size xs) s) in
  take i xs ++ ys ++ drop j xs.

(** Assigning to an extended slice replaces the selected elements one by one. *)
Definition slice_set_ext (xs : list A) (s : slice) (ys : list A) : list A :=
  fold_left (fun acc '(p, y) => replace_at acc p y) (combine (py_positions (size xs) s) ys) xs.

(** *** Operations *)

(** What an operation gives back. *)
Inductive value (B : Type) : Type :=
| VNone | VElem (x : A) | VInt (z : Z) | VBool (b : bool) | VList (l : B) | VExn (e : exn).
Arguments VNone {B}. Arguments VElem {B} _. Arguments VInt {B} _. Arguments VBool {B} _.
Arguments VList {B} _. Arguments VExn {B} _.

(** [B] is the type of list operands. *)
Inductive op (B : Type) : Type :=
| OLen | OGet (i : Z) | OSet (i : Z) (x : A) | ODel (i : Z)
| OAppend (x : A) | OExtend (itr : list A) | OInsert (i : Z) (x : A) | OPop (i : Z)
| ORemove (x : A) | OIndex (x : A) | OFind (x : A) | OCount (x : A) | OContains (x : A)
| OReverse | OClear | OCopy | OEq (ys : B) | OCmp (ys : B)
| OAdd (ys : B) | OIadd (ys : B) | OIaddSelf | OMul (n : Z) | OImul (n : Z)
| OGetSlice (s : slice) | OSetSlice (s : slice) (ys : B) | OSetSliceSelf (s : slice)
| ODelSlice (s : slice).

Arguments OLen {B}. Arguments OGet {B}. Arguments OSet {B}. Arguments ODel {B}.
Arguments OAppend {B}. Arguments OExtend {B}. Arguments OInsert {B}. Arguments OPop {B}.
Arguments ORemove {B}. Arguments OIndex {B}. Arguments OFind {B}. Arguments OCount {B}.
Arguments OContains {B}. Arguments OReverse {B}. Arguments OClear {B}. Arguments OCopy {B}.
Arguments OEq {B}. Arguments OCmp {B}. Arguments OAdd {B}. Arguments OIadd {B}.
Arguments OIaddSelf {B}. Arguments OMul {B}. Arguments OImul {B}. Arguments OGetSlice {B}.
Arguments OSetSlice {B}. Arguments OSetSliceSelf {B}. Arguments ODelSlice {B}.

Definition set_slice (xs : list A) (s : slice) (ys : list A) : value (list A) * list A :=
  if py_step s =? 0 then (VExn ValueError, xs)
  else if py_step s =? 1 then (VNone, slice_set_seg xs s ys)
  else if size ys =? py_count (size xs) s then (VNone, slice_set_ext xs s ys)
  else (VExn ValueError, xs).

(** One operation on the sequence [xs]: its result and the new sequence. *)
Definition py_op (xs : list A) (o : op (list A)) : value (list A) * list A :=
  match o with
  | OLen => (VInt (size xs), xs)
  | OGet i => (match item xs i with Some x => VElem x | None => VExn IndexError end, xs)
  | OSet i x => if valid xs i then (VNone, replace_at xs (norm xs i) x) else (VExn IndexError, xs)
  | ODel i => if valid xs i then (VNone, delete_at xs (norm xs i)) else (VExn IndexError, xs)
  | OAppend x => (VNone, xs ++ [x])
  | OExtend ys => (VNone, xs ++ ys)
  | OInsert i x => (VNone, insert_at xs i x)
  | OPop i => match item xs i with
              | Some x => (VElem x, delete_at xs (norm xs i))
              | None => (VExn IndexError, xs)
              end
  | ORemove x => match first_index xs x with
                 | Some i => (VBool true, delete_at xs i)
                 | None => (VBool false, xs)
                 end
  | OIndex x => (match first_index xs x with Some i => VInt i | None => VExn ValueError end, xs)
  | OFind x => (match first_index xs x with Some i => VInt i | None => VInt (-1) end, xs)
  | OCount x => (VInt (occurrences xs x), xs)
  | OContains x => (VBool (existsb (fun a => eqb a x) xs), xs)
  | OReverse => (VNone, rev xs)
  | OClear => (VNone, [])
  | OCopy => (VList xs, xs)
  | OEq ys => (VBool (equal_lists xs ys), xs)
  | OCmp ys => (VInt (lex xs ys), xs)
  | OAdd ys => (VList (xs ++ ys), xs)
  | OIadd ys => (VNone, xs ++ ys)
  | OIaddSelf => (VNone, xs ++ xs)
  | OMul n => (VList (times n xs), xs)
  | OImul n => (VNone, times n xs)
  | OGetSlice s => (if py_step s =? 0 then VExn ValueError else VList (slice_get xs s), xs)
  | OSetSlice s ys => set_slice xs s ys
  | OSetSliceSelf s => set_slice xs s xs
  | ODelSlice s => if py_step s =? 0 then (VExn ValueError, xs) else (VNone, slice_del xs s)
  end.

(** A history: the results of all the operations and the final sequence. *)
Fixpoint py_run (xs : list A) (os : list (op (list A))) : list (value (list A)) * list A :=
  match os with
  | [] => ([], xs)
  | o :: os =>
      let (v, xs1) := py_op xs o in
      let (vs, xs2) := py_run xs1 os in (v :: vs, xs2)
  end.

End Spec.

Arguments value : clear implicits.
Arguments op : clear implicits.
Arguments VNone {A B}. Arguments VElem {A B} _. Arguments VInt {A B} _. Arguments VBool {A B} _.
Arguments VList {A B} _. Arguments VExn {A B} _.
Arguments OLen {A B}. Arguments OGet {A B}. Arguments OSet {A B}. Arguments ODel {A B}.
Arguments OAppend {A B}. Arguments OExtend {A B}. Arguments OInsert {A B}. Arguments OPop {A B}.
Arguments ORemove {A B}. Arguments OIndex {A B}. Arguments OFind {A B}. Arguments OCount {A B}.
Arguments OContains {A B}. Arguments OReverse {A B}. Arguments OClear {A B}. Arguments OCopy {A B}.
Arguments OEq {A B}. Arguments OCmp {A B}. Arguments OAdd {A B}. Arguments OIadd {A B}.
Arguments OIaddSelf {A B}. Arguments OMul {A B}. Arguments OImul {A B}. Arguments OGetSlice {A B}.
Arguments OSetSlice {A B}. Arguments OSetSliceSelf {A B}. Arguments ODelSlice {A B}.
