(** Model of /repo/stdlib/internal/types/slice.codon and range.codon.
    Codon's [int] arithmetic that user-supplied values can push out of 64 bits is
    wrapped with [w64]; `//` is LLVM [sdiv] (default numerics mode). *)
From Coq Require Import List ZArith Lia Bool.
From Verif.Common Require Import Result Int64.
From Verif.List Require Import SliceSpec.
Import ListNotations.
Local Open Scope Z_scope.
Local Open Scope res_scope.

(** slice.codon:51-75 [adjust_indices_helper] *)
Definition adjust_indices_helper (length start stop step : Z) : res (Z * Z * Z * Z) :=
  let start :=
    if start <? 0 then
      let start := w64 (start + length) in
      if start <? 0 then (if step <? 0 then -1 else 0) else start
    else if length <=? start then (if step <? 0 then length - 1 else length)
    else start in
  let stop :=
    if stop <? 0 then
      let stop := w64 (stop + length) in
      if stop <? 0 then (if step <? 0 then -1 else 0) else stop
    else if length <=? stop then (if step <? 0 then length - 1 else length)
    else stop in
  if step <? 0 then
    if stop <? start then
      q <- sdiv (w64 (start - stop - 1)) (w64 (0 - step)) ;;
      Ok (start, stop, step, w64 (q + 1))
    else Ok (start, stop, step, 0)
  else
    if start <? stop then
      q <- sdiv (w64 (stop - start - 1)) step ;;
      Ok (start, stop, step, w64 (q + 1))
    else Ok (start, stop, step, 0).

(** slice.codon:33-49 [adjust_indices] *)
Definition adjust_indices (s : slice) (length : Z) : res (Z * Z * Z * Z) :=
  let step := match sl_step s with Some k => k | None => 1 end in
  if step =? 0 then Raise ValueError
  else
    let '(start, stop) :=
      if 0 <? step then
        (match sl_start s with Some v => v | None => 0 end,
         match sl_stop s with Some v => v | None => length end)
      else
        (match sl_start s with Some v => v | None => length - 1 end,
         match sl_stop s with Some v => v | None => w64 (- (length + 1)) end) in
    adjust_indices_helper length start stop step.

(** slice.codon:77-80 [indices] *)
Definition indices (s : slice) (length : Z) : res (Z * Z * Z) :=
  if length <? 0 then Raise ValueError
  else '(start, stop, step, _) <- adjust_indices s length ;; Ok (start, stop, step).

(** ** range.codon *)

Record range := Range { r_start : Z; r_stop : Z; r_step : Z }.

(** range.codon:19-23 [__new__] *)
Definition range_new (start stop step : Z) : res range :=
  if step =? 0 then Raise ValueError else Ok (Range start stop step).

(** range.codon:25-26 [_get] *)
Definition range_get_raw (r : range) (idx : Z) : Z := w64 (r_start r + w64 (idx * r_step r)).

(** range.codon:81-89 [__len__] *)
Definition range_len (r : range) : res Z :=
  let '(Range start stop step) := r in
  if (0 <? step) && (start <? stop) then
    q <- sdiv (w64 (w64 (stop - 1) - start)) step ;; Ok (w64 (1 + q))
  else if (step <? 0) && (stop <? start) then
    q <- sdiv (w64 (w64 (start - 1) - stop)) (w64 (0 - step)) ;; Ok (w64 (1 + q))
  else Ok 0.

(** range.codon:28-35 [__getitem__] *)
Definition range_getitem (r : range) (idx : Z) : res Z :=
  n <- range_len r ;;
  let idx := if idx <? 0 then w64 (idx + n) else idx in
  if (idx <? 0) || (n <=? idx) then Raise IndexError
  else Ok (range_get_raw r idx).

(** range.codon:37-46 [__getitem__] with a slice *)
Definition range_slice (r : range) (s : slice) : res range :=
  match sl_start s, sl_stop s, sl_step s with
  | None, None, None => Ok r
  | _, _, _ =>
      n <- range_len r ;;
      '(start, stop, step, _) <- adjust_indices s n ;;
      range_new (range_get_raw r start) (range_get_raw r stop) (w64 (r_step r * step))
  end.

(** range.codon:48-54 [__contains__] *)
Definition range_contains (r : range) (idx : Z) : res bool :=
  let '(Range start stop step) := r in
  if ((0 <? step) && negb ((start <=? idx) && (idx <? stop))) ||
     ((step <? 0) && negb ((stop <? idx) && (idx <=? start)))
  then Ok false
  else m <- srem (w64 (idx - start)) step ;; Ok (m =? 0).

(** range.codon:56-63 [_index], [index] *)
Definition range_index (r : range) (n : Z) : res Z :=
  c <- range_contains r n ;;
  if (c : bool) then sdiv (w64 (n - r_start r)) (r_step r) else Raise ValueError.

(** range.codon:65-66 [count] *)
Definition range_count (r : range) (n : Z) : res Z :=
  c <- range_contains r n ;; Ok (if (c : bool) then 1 else 0).

(** range.codon:68-79 [__iter__], run for at most [fuel] elements; [NoFuel] if it
    has not stopped by then. *)
Fixpoint range_iter_from (fuel : nat) (stop step i : Z) : res (list Z) :=
  match fuel with
  | O => NoFuel
  | S fuel =>
      if (if 0 <? step then i <? stop else stop <? i) then
        rest <- range_iter_from fuel stop step (w64 (i + step)) ;; Ok (i :: rest)
      else Ok []
  end.

Definition range_iter (fuel : nat) (r : range) : res (list Z) :=
  range_iter_from fuel (r_stop r) (r_step r) (r_start r).

(** range.codon:94-97 [__reversed__] *)
Definition range_reversed (fuel : nat) (r : range) : res (list Z) :=
  n <- range_len r ;;
  r' <- range_new (w64 (r_start r + w64 (w64 (n - 1) * r_step r)))
                  (w64 (r_start r - r_step r)) (w64 (0 - r_step r)) ;;
  range_iter fuel r'.
