(** What a NumPy user means by an array: a shape and an element for every
    coordinate inside it.  Written from the NumPy documentation ("Indexing",
    "Broadcasting", "numpy.reshape"), without looking at Codon's code. *)
From Coq Require Import List ZArith Lia Bool.
From Verif.List Require Import SliceSpec.
Import ListNotations.
Local Open Scope Z_scope.

(** Coordinate [c] lies inside shape [sh]. *)
Definition inside (sh c : list Z) : Prop := Forall2 (fun n i => 0 <= i < n) sh c.

Definition zrange (n : Z) : list Z := map Z.of_nat (seq 0 (Z.to_nat n)).

(** All coordinates of a shape, last axis fastest (order 'C'). *)
Fixpoint grid (sh : list Z) : list (list Z) :=
  match sh with
  | [] => [[]]
  | n :: sh => flat_map (fun i => map (cons i) (grid sh)) (zrange n)
  end.

(** The same with the first axis fastest (order 'F'). *)
Definition fgrid (sh : list Z) : list (list Z) := map (@rev Z) (grid (rev sh)).

Inductive order := OC | OF.
Definition ogrid (o : order) (sh : list Z) : list (list Z) :=
  match o with OC => grid sh | OF => fgrid sh end.

Definition product (sh : list Z) : Z := fold_right Z.mul 1 sh.

(** ** Reshaping *)

(** The shape meant by a request in which one entry may be negative ("unknown"):
    the unknown entry is whatever makes the number of elements come out. *)
Definition wanted (size : Z) (req sh : list Z) : Prop :=
  product sh = size /\ Forall (fun d => 0 <= d) sh /\
  Forall2 (fun r d => r < 0 \/ r = d) req sh /\
  (Z.of_nat (length (filter (fun r => r <? 0) req)) <= 1) /\
  (product (filter (fun r => 0 <=? r) req) = 0 -> Forall (fun r => 0 <= r) req).

(** ** Basic indexing *)

Inductive item :=
| IInt (i : Z)
| ISlice (s : slice)
| INew            (* None / newaxis *)
| IDots.          (* ... *)

Definition full : slice := Slice None None None.

Definition uses (it : item) : bool :=
  match it with IInt _ | ISlice _ => true | _ => false end.
Definition axes_used (items : list item) : nat := length (filter uses items).
Definition dots (items : list item) : nat :=
  length (filter (fun it => match it with IDots => true | _ => false end) items).

(** An ellipsis stands for the axes not mentioned; if there is none, they come last. *)
Definition spread (items : list item) (ndim : nat) : list item :=
  let rest := repeat (ISlice full) (ndim - axes_used items) in
  if (dots items =? 0)%nat then items ++ rest
  else flat_map (fun it => match it with IDots => rest | it => [it] end) items.

(** Python's negative indices. *)
Definition wrap (n i : Z) : Z := if i <? 0 then i + n else i.

(** What an index tuple without ellipsis selects from a shape: the result's shape,
    and for each coordinate of the result the coordinate it comes from. *)
Fixpoint sel_shape (items : list item) (sh : list Z) : list Z :=
  match items, sh with
  | IInt _ :: items, _ :: sh => sel_shape items sh
  | ISlice s :: items, n :: sh => py_count n s :: sel_shape items sh
  | INew :: items, sh => 1 :: sel_shape items sh
  | _, _ => []
  end.

Fixpoint sel_from (items : list item) (sh c : list Z) : list Z :=
  match items, sh, c with
  | IInt i :: items, n :: sh, c => wrap n i :: sel_from items sh c
  | ISlice s :: items, n :: sh, k :: c =>
      nth (Z.to_nat k) (py_positions n s) 0 :: sel_from items sh c
  | INew :: items, sh, _ :: c => sel_from items sh c
  | _, _, _ => []
  end.

(** The integers are in range and no slice has step 0. *)
Fixpoint sel_ok (items : list item) (sh : list Z) : Prop :=
  match items, sh with
  | IInt i :: items, n :: sh => - n <= i < n /\ sel_ok items sh
  | ISlice s :: items, _ :: sh => py_step s <> 0 /\ sel_ok items sh
  | INew :: items, sh => sel_ok items sh
  | [], [] => True
  | _, _ => False
  end.

(** ** Broadcasting *)

(** The [k]-th entry of a shape counted from the end, if there is one. *)
Definition from_end (k : nat) (sh : list Z) : option Z := nth_error (rev sh) k.

(** [out] is the shape that [shapes] broadcast to: as many axes as the longest, and
    at each distance from the end some array has that extent and all others have it
    too, or have extent 1, or have no such axis. *)
Definition broadcasts (shapes : list (list Z)) (out : list Z) : Prop :=
  (forall sh, In sh shapes -> (length sh <= length out)%nat) /\
  (exists sh, In sh shapes /\ length sh = length out) /\
  forall k d, from_end k out = Some d ->
    (exists sh, In sh shapes /\ from_end k sh = Some d) /\
    (forall sh e, In sh shapes -> from_end k sh = Some e -> e = 1 \/ e = d).

(** The coordinate of an operand of shape [sh] that coordinate [c] of the broadcast
    shape refers to: excess leading axes are ignored, axes of extent 1 are repeated. *)
Definition pick (sh c : list Z) : list Z :=
  map (fun '(n, i) => if n =? 1 then 0 else i)
      (combine sh (skipn (length c - length sh) c)).
