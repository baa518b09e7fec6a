(** Model of basic indexing (/repo/stdlib/numpy/indexing.codon) and of broadcasting
    (/repo/stdlib/numpy/routines.codon), on the arrays of [Nd.Model].

    An index is a tuple of integers, slices, newaxis and ellipsis; a single index is
    the tuple of it (indexing.codon:478-479).  Index arrays are not modelled.  The
    conversion of an assigned value to the array's element type is the identity. *)
From Coq Require Import List ZArith Lia Bool.
From Verif.Common Require Import Result Int64.
From Verif.List Require Import SliceSpec SliceModel.
From Verif.Nd Require Import Spec Model.
Import ListNotations.
Local Open Scope Z_scope.
Local Open Scope res_scope.

(** util.codon:222-228 [normalize_index]; [idx + n] cannot overflow *)
Definition normalize_index (idx n : Z) : res Z :=
  let idx := if idx <? 0 then idx + n else idx in
  if (idx <? 0) || (n <=? idx) then Raise IndexError else Ok idx.

Definition is_new (it : item) : bool := match it with INew => true | _ => false end.
Definition is_dots (it : item) : bool := match it with IDots => true | _ => false end.

(** indexing.codon:64-79 [_expand_ellipsis]; [k] is the number of ellipses *)
Fixpoint expand_ellipsis (items : list item) (n k : nat) : list item :=
  if (k =? 0)%nat then items else
  match items with
  | [] => []
  | IDots :: items => repeat (ISlice full) n ++ expand_ellipsis items n k
  | it :: items => it :: expand_ellipsis items n k
  end.

(** indexing.codon:81-86 [_expand_remainder] *)
Definition expand_remainder (items : list item) (n : nat) : list item :=
  items ++ repeat (ISlice full) n.

(** indexing.codon:88-98 [_expand_newaxis] *)
Fixpoint expand_newaxis (items : list item) (sh st : list Z) : list item * list Z * list Z :=
  match items with
  | [] => ([], [], [])
  | INew :: items =>
      let '(ri, rs, rt) := expand_newaxis items sh st in (ISlice full :: ri, 1 :: rs, 0 :: rt)
  | it :: items =>
      let '(ri, rs, rt) := expand_newaxis items (tl sh) (tl st) in
      (it :: ri, hd 0 sh :: rs, hd 0 st :: rt)
  end.

(** indexing.codon:9-25 [_multiindex]: start, stop, step and count per axis.  The rest
    is done first, so the error of the last bad index is raised. *)
Fixpoint multiindex (items : list item) (sh : list Z) : res (list (Z * Z * Z * Z)) :=
  match items, sh with
  | [], [] => Ok []
  | it :: items, n :: sh =>
      rest <- multiindex items sh ;;
      match it with
      | IInt i => idx <- normalize_index i n ;; Ok ((idx, idx + 1, 1, 1) :: rest)
      | ISlice s => m <- adjust_indices s n ;; Ok (m :: rest)
      | _ => Raise TypeError
      end
  | _, _ => Raise TypeError
  end.

(** indexing.codon:27-37 [_keep_axes] *)
Fixpoint keep_axes (items : list item) (index : nat) : list nat :=
  match items with
  | [] => []
  | IInt _ :: items => keep_axes items (S index)
  | _ :: items => index :: keep_axes items (S index)
  end.

Definition m_start (m : Z * Z * Z * Z) : Z := fst (fst (fst m)).
Definition m_step (m : Z * Z * Z * Z) : Z := snd (fst m).
Definition m_count (m : Z * Z * Z * Z) : Z := snd m.

(** indexing.codon:39-49 [_base_offset], [_new_shape], [_new_strides] *)
Fixpoint base_offset (mi : list (Z * Z * Z * Z)) (st : list Z) : Z :=
  match mi, st with
  | m :: mi, s :: st => m_start m * s + base_offset mi st
  | _, _ => 0
  end.
Definition new_shape (mi : list (Z * Z * Z * Z)) (keep : list nat) : list Z :=
  map (fun i => m_count (nth i mi (0, 0, 0, 0))) keep.
Definition new_strides (mi : list (Z * Z * Z * Z)) (st : list Z) (keep : list nat) : list Z :=
  map (fun i => m_step (nth i mi (0, 0, 0, 0)) * nth i st 0) keep.

(** indexing.codon:484-505 the part of [_getset] common to reading and writing: the view,
    and whether an axis is left.  Both checks are made at compile time. *)
Definition index_view (a : nd) (items : list item) : res (nd * bool) :=
  let news := length (filter is_new items) in
  let ds := length (filter is_dots items) in
  if (1 <? ds)%nat then Raise TypeError
  else if (ndim a <? length items - news - ds)%nat then Raise TypeError
  else
    let items1 := expand_ellipsis items (ndim a - (length items - news - ds)) ds in
    let items2 := expand_remainder items1 (ndim a + news - length items1) in
    let '(items3, sh, st) := expand_newaxis items2 (shape a) (strides a) in
    mi <- multiindex items3 sh ;;
    let keep := keep_axes items3 0 in
    Ok (Nd (blk a) (base a + base_offset mi st) (isz a) (new_shape mi keep) (new_strides mi st keep),
        negb (length keep =? 0)%nat).

(** routines.codon:712-756 [broadcast_shapes] (= indexing.codon:269-309 and the one inside
    ndarray.codon:712-746 [_loop], up to the check for negative extents) *)
Fixpoint largest (t : list Z) (args : list (list Z)) : list Z :=
  match args with
  | [] => t
  | a :: args => let b := largest a args in if (length t <? length b)%nat then b else t
  end.

(** The loop over one argument, from the last axis on; both lists are reversed. *)
Fixpoint merge_shape (ans a : list Z) : res (list Z) :=
  match a, ans with
  | [], _ => Ok ans
  | x :: a, y :: ans =>
      if y =? 1 then r <- merge_shape ans a ;; Ok (x :: r)
      else if negb (x =? 1) && negb (x =? y) then Raise ValueError
      else r <- merge_shape ans a ;; Ok (y :: r)
  | _ :: _, [] => Undef
  end.

Fixpoint merge_shapes (ans : list Z) (args : list (list Z)) : res (list Z) :=
  match args with
  | [] => Ok ans
  | a :: args => ans <- merge_shape ans (rev a) ;; merge_shapes ans args
  end.

Definition broadcast_shapes (args : list (list Z)) : res (list Z) :=
  match args with
  | [] => Ok []
  | a :: rest =>
      if existsb (existsb (fun i => i <? 0)) args then Raise ValueError
      else r <- merge_shapes (rev (largest a rest)) args ;; Ok (rev r)
  end.

(** routines.codon:758-787 [broadcast_to] *)
Fixpoint bcast_strides (xs st sh : list Z) : res (list Z) :=
  match xs, st, sh with
  | a :: xs, s :: st, b :: sh =>
      if a =? b then r <- bcast_strides xs st sh ;; Ok (s :: r)
      else if a =? 1 then r <- bcast_strides xs st sh ;; Ok (0 :: r)
      else Raise ValueError
  | _, _, _ => Ok []
  end.

Definition broadcast_to (x : nd) (sh : list Z) : res nd :=
  let n := ndim x in
  if (length sh <? n)%nat then Raise TypeError (* at compile time *)
  else
    sub <- bcast_strides (shape x) (strides x) (skipn (length sh - n) sh) ;;
    Ok (Nd (blk x) (base x) (isz x) sh (repeat 0 (length sh - n) ++ sub)).

(** routines.codon:789-800 [broadcast_arrays] *)
Definition broadcast_arrays (l : list nd) : res (list nd) :=
  sh <- broadcast_shapes (map shape l) ;; mapm (fun a => broadcast_to a sh) l.

Section Index.
Context {V : Type}.

(** routines.codon:874-882 [_broadcast.__iter__]: what one full run yields *)
Fixpoint biter (fuel : nat) (h : heap V) (l : list nd) (sh : list Z) (index : Z) : res (list (list V)) :=
  match fuel with
  | O => NoFuel
  | S fuel =>
      if index <? count sh then
        idx <- index_to_coords index sh ;;
        rest <- biter fuel h l sh (index + 1) ;;
        Ok (map (fun a => load h (ptr_bcast a idx)) l :: rest)
      else Ok []
  end.

(** indexing.codon:529-532 [__getitem__] *)
Definition getitem (h : heap V) (a : nd) (items : list item) : res (V + nd) :=
  '(sub, some) <- index_view a items ;;
  if (some : bool) then Ok (inr sub) else Ok (inl (load h (blk sub, base sub))).

(** [for i in range(n): p[i] = elem] *)
Fixpoint fill_range (h : heap V) (b : nat) (base isz : Z) (n : nat) (v : V) : heap V :=
  match n with
  | O => h
  | S n => store (fill_range h b base isz n v) (b, base + Z.of_nat n * isz) v
  end.

(** indexing.codon:457-472 [_assign_one] *)
Definition assign_one (h : heap V) (a : nd) (v : V) : heap V :=
  match shape a with
  | [] => store h (blk a, base a) v
  | _ =>
      if is_contig a then fill_range h (blk a) (base a) (isz a) (Z.to_nat (count (shape a))) v
      else fold_left (fun h c => store h (ptr a c) v) (multirange (shape a)) h
  end.

(** [for i in range(n): p[i] = q[i]] *)
Fixpoint copy_range (h : heap V) (x a : nd) (n : nat) : heap V :=
  match n with
  | O => h
  | S n =>
      let h := copy_range h x a n in
      store h (blk x, base x + Z.of_nat n * isz x) (load h (blk a, base a + Z.of_nat n * isz a))
  end.

(** indexing.codon:499-527 [__setitem__] with a number (or any non-sequence) *)
Definition setitem_one (h : heap V) (a : nd) (items : list item) (v : V) : res (heap V) :=
  '(sub, some) <- index_view a items ;;
  let h := if (some : bool) then h else store h (blk sub, base sub) v in
  Ok (assign_one h sub v).

(** the same with an array, at least one axis being left *)
Definition setitem_array (h : heap V) (a : nd) (items : list item) (b : nd) : res (heap V) :=
  '(sub, _) <- index_view a items ;;
  match shape b with
  | [] => Ok (assign_one h sub (load h (blk b, base b)))
  | _ =>
      bb <- broadcast_to b (shape sub) ;;
      if contig_match sub bb then Ok (copy_range h sub bb (Z.to_nat (size bb)))
      else Ok (copy_elems h sub bb (multirange (shape sub)))
  end.

End Index.
