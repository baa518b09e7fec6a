(** Model of indexing with a boolean array (/repo/stdlib/numpy/indexing.codon), on the
    arrays of [Nd.Model].

    Simplifications: the mask's cells are in the same memory as all others, [tr] is the
    truth of a cell; the conversion of an assigned value to the array's element type is
    the identity; the index has as many axes as the array (with fewer axes the array is
    indexed with [indexes.nonzero()], which is not modelled here). *)
From Coq Require Import List ZArith Lia Bool.
From Verif.Common Require Import Result Int64.
From Verif.Nd Require Import Spec Model.
Import ListNotations.
Local Open Scope Z_scope.
Local Open Scope res_scope.

Section Mask.
Context {V : Type} (zero : V) (tr : V -> bool).
Local Notation heap := (heap V).

(** The cells [data[0], ..., data[n - 1]] *)
Definition linear (a : nd) (n : Z) : list (nat * Z) := map (fun i => (blk a, base a + i * isz a)) (zrange n).

(** indexing.codon:259-270 [_bool_idx_num_true] *)
Definition num_true (h : heap) (m : nd) (sz : Z) : Z :=
  fold_left (fun n p => if tr (load h p) then n + 1 else n)
    (if is_contig m then linear m sz else map (ptr m) (multirange (shape m))) 0.

(** indexing.codon:418-425: [None] if an extent differs *)
Fixpoint same_extents (sh ms : list Z) (sz : Z) : option Z :=
  match sh, ms with
  | d :: sh, e :: ms => if negb (d =? e) then None else same_extents sh ms (sz * d)
  | _, _ => Some sz
  end.

(** indexing.codon:448-475: the cells of the mask and of the array, in the order in which
    both loops visit them *)
Definition visited (a m : nd) (sz : Z) : list ((nat * Z) * (nat * Z)) :=
  if fst (contig a) && fst (contig m) then combine (linear m sz) (linear a sz)
  else map (fun c => (ptr m c, ptr a c)) (multirange (shape a)).

(** The same lines: the loops, without and with an item; [ans.data[k]] is
    [(b, k * e)], [src k] is the cell of the item *)
Fixpoint get_loop (h : heap) (ps : list ((nat * Z) * (nat * Z))) (b : nat) (e k : Z) : heap :=
  match ps with
  | [] => h
  | (m, p) :: ps =>
      if tr (load h m) then get_loop (store h (b, k * e) (load h p)) ps b e (k + 1)
      else get_loop h ps b e k
  end.

Fixpoint set_loop (h : heap) (ps : list ((nat * Z) * (nat * Z))) (src : Z -> nat * Z) (k : Z) : heap :=
  match ps with
  | [] => h
  | (m, p) :: ps =>
      if tr (load h m) then set_loop (store h p (load h (src k))) ps src (k + 1)
      else set_loop h ps src k
  end.

(** indexing.codon:401-480 [_getset_bool] without an item *)
Definition getset_bool_get (h : heap) (a m : nd) : res (heap * nd) :=
  if negb (ndim m =? ndim a)%nat then Raise TypeError (* not modelled, or at compile time *)
  else if (ndim a =? 0)%nat then
    if tr (load h (blk m, base m)) then reshape zero h a [1] RC
    else let '(h, b) := alloc zero h in Ok (h, mk b 0 (isz a) [0] false)
  else
    match same_extents (shape a) (shape m) 1 with
    | None => Raise IndexError
    | Some sz =>
        let n := num_true h m sz in
        let '(h, b) := alloc zero h in
        Ok (get_loop h (visited a m sz) b (isz a) 0, mk b 0 (isz a) [n] false)
    end.

(** indexing.codon:461, 473: the cell of the item for the [k]-th true element; for an
    item with one axis [data] is indexed directly *)
Definition item_cell (it : nd) (k : Z) : nat * Z :=
  if (ndim it =? 0)%nat then (blk it, base it)
  else if size it =? 1 then (blk it, base it) else (blk it, base it + k * isz it).

(** indexing.codon:401-480 [_getset_bool] with an item *)
Definition getset_bool_set (h : heap) (a m it : nd) : res heap :=
  if negb (ndim m =? ndim a)%nat then Raise TypeError (* not modelled, or at compile time *)
  else if (ndim a =? 0)%nat then
    if tr (load h (blk m, base m)) then
      (* [arr_item.item()] *)
      if size it =? 1 then Ok (store h (blk a, base a) (load h (blk it, base it))) else Raise ValueError
    else Ok h
  else
    match same_extents (shape a) (shape m) 1 with
    | None => Raise IndexError
    | Some sz =>
        if (1 <? ndim it)%nat then Raise TypeError (* at compile time *)
        else if (ndim it =? 1)%nat && negb (size it =? 1) && negb (size it =? num_true h m sz) then Raise ValueError
        else Ok (set_loop h (visited a m sz) (item_cell it) 0)
    end.

End Mask.
