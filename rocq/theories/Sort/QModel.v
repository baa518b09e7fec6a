(** Model of /repo/stdlib/algorithms/qsort.codon.

    Simplifications: [key] is pure; [lt x y] models [key(x) < key(y)] and [eq x y]
    models [key(x) == key(y)]; indices are mathematical integers. *)
From Coq Require Import List ZArith Lia Bool.
From Verif.Common Require Import Result Arr.
Import ListNotations.
Local Open Scope Z_scope.
Local Open Scope res_scope.

Section Model.
Context {A : Type} (lt eq : A -> A -> bool).

(** qsort.codon:21-31 [_med3].  Every path of the code reads all three cells, so
    the model reads them first. *)
Definition med3 (a b c : Z) (arr : list A) : res Z :=
  x <- aget arr a ;; y <- aget arr b ;; z <- aget arr c ;;
  Ok (if lt x y then
        (if lt y z then b else if lt x z then c else a)
      else
        (if negb (lt y z || eq y z) then b
         else if negb (lt x z || eq x z) then c else a)).

(** qsort.codon:36-41 [_vecswap]; state (arr, i, j, n). *)
Definition vecswap (arr : list A) (i j n : Z) : res (list A) :=
  loop (S (Z.to_nat n)) (fun s : list A * Z * Z * Z =>
    let '(arr, i, j, n) := s in
    if 0 <? n then
      arr1 <- aswap arr i j ;; Ok (inl (arr1, i + 1, j + 1, n - 1))
    else Ok (inr arr)) (arr, i, j, n).

(** qsort.codon:50-54, inner loop of the small case; state (arr, j). *)
Definition small_inner (frm : Z) (s : list A * Z) : res (list A * Z + list A) :=
  let '(arr, j) := s in
  if frm <? j then
    p <- aget arr (j - 1) ;; q <- aget arr j ;;
    if negb (lt p q || eq p q) then
      arr1 <- aswap arr j (j - 1) ;; Ok (inl (arr1, j - 1))
    else Ok (inr arr)
  else Ok (inr arr).

(** qsort.codon:46-56, the small case; state (arr, i). *)
Definition small_sort (arr : list A) (frm cnt : Z) : res (list A) :=
  loop (S (Z.to_nat cnt)) (fun s : list A * Z =>
    let '(arr, i) := s in
    if i <? frm + cnt then
      arr1 <- loop (S (Z.to_nat (i - frm))) (small_inner frm) (arr, i) ;;
      Ok (inl (arr1, i + 1))
    else Ok (inr arr)) (arr, frm + 1).

(** qsort.codon:58-67, pivot position *)
Definition pick (arr : list A) (frm cnt : Z) : res Z :=
  let mid := cnt / 2 in
  let lo := frm in
  let hi := frm + cnt - 1 in
  if 40 <? cnt then
    let s := cnt / 8 in
    lo1 <- med3 lo (lo + s) (lo + 2 * s) arr ;;
    mid1 <- med3 (mid - s) mid (mid + s) arr ;;
    hi1 <- med3 (hi - 2 * s) (hi - s) hi arr ;;
    med3 lo1 mid1 hi1 arr
  else med3 lo mid hi arr.

(** qsort.codon:76-82, left scan; state (arr, a, b). *)
Definition scan_b (frm c : Z) (s : list A * Z * Z) : res (list A * Z * Z + list A * Z * Z) :=
  let '(arr, a, b) := s in
  if b <=? c then
    x <- aget arr b ;; p <- aget arr frm ;;
    if lt x p || eq x p then
      '(arr1, a1) <- (if eq x p then arr1 <- aswap arr a b ;; Ok (arr1, a + 1)
                      else Ok (arr, a)) ;;
      Ok (inl (arr1, a1, b + 1))
    else Ok (inr (arr, a, b))
  else Ok (inr (arr, a, b)).

(** qsort.codon:84-88, right scan; state (arr, c, d). *)
Definition scan_c (frm b : Z) (s : list A * Z * Z) : res (list A * Z * Z + list A * Z * Z) :=
  let '(arr, c, d) := s in
  if b <=? c then
    x <- aget arr c ;; p <- aget arr frm ;;
    if negb (lt x p) then
      '(arr1, d1) <- (if eq x p then arr1 <- aswap arr c d ;; Ok (arr1, d - 1)
                      else Ok (arr, d)) ;;
      Ok (inl (arr1, c - 1, d1))
    else Ok (inr (arr, c, d))
  else Ok (inr (arr, c, d)).

(** qsort.codon:75-94, one iteration of the main loop; state (arr, a, b, c, d). *)
Definition part_body (frm : Z) (s : list A * Z * Z * Z * Z)
  : res (list A * Z * Z * Z * Z + list A * Z * Z * Z * Z) :=
  let '(arr, a, b, c, d) := s in
  '(arr, a, b) <- loop (S (Z.to_nat (c - b + 1))) (scan_b frm c) (arr, a, b) ;;
  '(arr, c, d) <- loop (S (Z.to_nat (c - b + 1))) (scan_c frm b) (arr, c, d) ;;
  if c <? b then Ok (inr (arr, a, b, c, d))
  else
    arr <- aswap arr b c ;;
    Ok (inl (arr, a, b + 1, c - 1, d)).

(** qsort.codon:43-109 [_qsort] *)
Fixpoint qsort_rec (fuel : nat) (arr : list A) (frm cnt : Z) : res (list A) :=
  match fuel with
  | O => NoFuel
  | S fuel =>
      if cnt <=? 7 then small_sort arr frm cnt
      else
        mid <- pick arr frm cnt ;;
        arr <- aswap arr frm mid ;;
        '(arr, a, b, c, d) <- loop (S (Z.to_nat cnt)) (part_body frm)
                                (arr, frm, frm, frm + cnt - 1, frm + cnt - 1) ;;
        let hi := frm + cnt in
        let span := Z.min (a - frm) (b - a) in
        arr <- vecswap arr frm (b - span) span ;;
        let span := Z.min (d - c) (hi - d - 1) in
        arr <- vecswap arr b (hi - span) span ;;
        let span := b - a in
        arr <- (if 1 <? span then qsort_rec fuel arr frm span else Ok arr) ;;
        let span := d - c in
        if 1 <? span then qsort_rec fuel arr (hi - span) span else Ok arr
  end.

(** qsort.codon:111-124 [qsort_array] / [qsort_inplace] / [qsort] *)
Definition qsort_array (arr : list A) (size : Z) : res (list A) :=
  qsort_rec (S (Z.to_nat size)) arr 0 size.

End Model.
