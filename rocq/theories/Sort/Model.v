(** Model of Codon's in-place sorts on raw arrays:
    /repo/stdlib/algorithms/insertionsort.codon, heapsort.codon, pdqsort.codon.

    Simplifications, common to the file:
    - [keyf] is a pure function, so [keyf(x) < keyf(y)] is a boolean function
      [lt x y] of the two elements;
    - indices are mathematical integers (an array index never gets near 2^63);
    - the array is a list; an access outside it is [Undef]. *)
From Coq Require Import List ZArith Lia Bool.
From Verif.Common Require Import Result Arr.
Import ListNotations.
Local Open Scope Z_scope.
Local Open Scope res_scope.

Section Model.
Context {A : Type} (lt : A -> A -> bool).
(** [lt x y] models [keyf(x) < keyf(y)]. *)

(** ** insertionsort.codon *)

(** insertionsort.codon:9-13, the inner loop; the state is (arr, j). *)
Definition ins_inner (begin : Z) (x : A) (s : list A * Z) : res (list A * Z + list A * Z) :=
  let '(arr, j) := s in
  if begin <=? j then
    y <- aget arr j ;;
    if lt x y then
      arr1 <- aset arr (j + 1) y ;; Ok (inl (arr1, j - 1))
    else Ok (inr (arr, j))
  else Ok (inr (arr, j)).

(** insertionsort.codon:6-14, one iteration of the outer loop; state (arr, i). *)
Definition ins_outer (begin end_ : Z) (s : list A * Z) : res (list A * Z + list A) :=
  let '(arr, i) := s in
  if i <? end_ then
    x <- aget arr i ;;
    '(arr1, j) <- loop (S (Z.to_nat (i - begin))) (ins_inner begin x) (arr, i - 1) ;;
    arr2 <- aset arr1 (j + 1) x ;;
    Ok (inl (arr2, i + 1))
  else Ok (inr arr).

(** insertionsort.codon:3-14 [_insertion_sort] *)
Definition insertion_sort (arr : list A) (begin end_ : Z) : res (list A) :=
  loop (S (Z.to_nat (end_ - begin))) (ins_outer begin end_) (arr, begin + 1).

(** ** heapsort.codon *)

(** heapsort.codon:3-21 [_heapify], on the view [arr.slice(off, ...)] of line 29:
    element [i] of the view is element [off + i] of the array. *)
Fixpoint heapify (fuel : nat) (off : Z) (arr : list A) (begin end_ : Z) : res (list A) :=
  match fuel with
  | O => NoFuel
  | S fuel =>
      let left := 2 * begin + 1 in
      let right := 2 * begin + 2 in
      root1 <- (if left <? end_ then
                  x <- aget arr (off + begin) ;; y <- aget arr (off + left) ;;
                  Ok (if lt x y then left else begin)
                else Ok begin) ;;
      root2 <- (if right <? end_ then
                  x <- aget arr (off + root1) ;; y <- aget arr (off + right) ;;
                  Ok (if lt x y then right else root1)
                else Ok root1) ;;
      if negb (root2 =? begin) then
        arr1 <- aswap arr (off + begin) (off + root2) ;;
        heapify fuel off arr1 root2 end_
      else Ok arr
  end.

(** heapsort.codon:33-36, building loop; state (arr, i). *)
Definition heap_build (off n : Z) (s : list A * Z) : res (list A * Z + list A) :=
  let '(arr, i) := s in
  if 0 <=? i then
    arr1 <- heapify (S (Z.to_nat n)) off arr i n ;; Ok (inl (arr1, i - 1))
  else Ok (inr arr).

(** heapsort.codon:38-42, extraction loop; state (arr, i). *)
Definition heap_extract (off : Z) (s : list A * Z) : res (list A * Z + list A) :=
  let '(arr, i) := s in
  if 0 <=? i then
    arr1 <- aswap arr (off + i) (off + 0) ;;
    arr2 <- heapify (S (Z.to_nat i)) off arr1 0 i ;; Ok (inl (arr2, i - 1))
  else Ok (inr arr).

(** heapsort.codon:23-42 [_heap_sort].  [end // 2] is on a non-negative number. *)
Definition heap_sort (arr : list A) (begin end_ : Z) : res (list A) :=
  if end_ - begin <? 2 then Ok arr
  else
    let n := end_ - begin in
    arr1 <- loop (S (Z.to_nat n)) (heap_build begin n) (arr, n / 2 - 1) ;;
    loop (S (Z.to_nat n)) (heap_extract begin) (arr1, n - 1).

(** ** pdqsort.codon *)

(** pdqsort.codon:21-23 *)
Definition INSERTION_SORT_THRESHOLD := 24.
Definition NINTHER_THRESHOLD := 128.
Definition PARTIAL_INSERTION_SORT_LIMIT := 8.

(** pdqsort.codon:28-35 [_floor_log2]; [n >>= 1] on a non-negative [n] halves. *)
Definition floor_log2 (n : Z) : res Z :=
  loop (S (Z.to_nat n)) (fun s : Z * Z =>
    let '(m, log) := s in
    let m1 := m / 2 in
    if m1 =? 0 then Ok (inr log) else Ok (inl (m1, log + 1))) (n, 0).

(** pdqsort.codon:55-60, sifting loop; state (arr, sift) with sift_1 = sift - 1. *)
Definition pins_inner (begin : Z) (tmp : A) (s : list A * Z) : res (list A * Z + list A * Z) :=
  let '(arr, sift) := s in
  y <- aget arr (sift - 1) ;;
  arr1 <- aset arr sift y ;;
  let sift1 := sift - 1 in
  if sift1 =? begin then Ok (inr (arr1, sift1))
  else
    z <- aget arr1 (sift1 - 1) ;;
    if negb (lt tmp z) then Ok (inr (arr1, sift1)) else Ok (inl (arr1, sift1)).

(** pdqsort.codon:43-67; state (arr, limit, cur). *)
Definition pins_outer (begin end_ : Z) (s : list A * Z * Z)
  : res (list A * Z * Z + bool * list A) :=
  let '(arr, limit, cur) := s in
  if negb (cur =? end_) then
    if PARTIAL_INSERTION_SORT_LIMIT <? limit then Ok (inr (false, arr))
    else
      x <- aget arr cur ;;
      y <- aget arr (cur - 1) ;;
      if lt x y then
        '(arr1, sift) <- loop (S (Z.to_nat (cur - begin))) (pins_inner begin x) (arr, cur) ;;
        arr2 <- aset arr1 sift x ;;
        Ok (inl (arr2, limit + (cur - sift), cur + 1))
      else Ok (inl (arr, limit, cur + 1))
  else Ok (inr (true, arr)).

(** pdqsort.codon:37-67 [_partial_insertion_sort] *)
Definition partial_insertion_sort (arr : list A) (begin end_ : Z) : res (bool * list A) :=
  if begin =? end_ then Ok (true, arr)
  else loop (S (Z.to_nat (end_ - begin))) (pins_outer begin end_) (arr, 0, begin + 1).

(** [while True: i -= 1; if not p(arr[i]): break], unguarded downward scan
    (pdqsort.codon:76-79, 95-98, 129-132, 146-149). *)
Definition scan_down (p : A -> bool) (arr : list A) (i : Z) : res Z :=
  loop (S (Z.to_nat i + 1)) (fun i => 
    x <- aget arr (i - 1) ;;
    if negb (p x) then Ok (inr (i - 1)) else Ok (inl (i - 1))) i.

(** [while True: i += 1; if not p(arr[i]): break], unguarded upward scan
    (pdqsort.codon:88-91, 99-102, 117-120, 141-144). *)
Definition scan_up (p : A -> bool) (arr : list A) (i : Z) : res Z :=
  loop (S (Z.to_nat (zlen arr - i))) (fun i => 
    x <- aget arr (i + 1) ;;
    if negb (p x) then Ok (inr (i + 1)) else Ok (inl (i + 1))) i.

(** pdqsort.codon:82-85, guarded upward scan. *)
Definition scan_up_guarded (p : A -> bool) (arr : list A) (first last : Z) : res Z :=
  loop (S (Z.to_nat (last - first))) (fun i => 
    if i <? last then
      x <- aget arr (i + 1) ;;
      if negb (p x) then Ok (inr (i + 1)) else Ok (inl (i + 1))
    else Ok (inr i)) first.

(** pdqsort.codon:123-126, guarded downward scan. *)
Definition scan_down_guarded (p : A -> bool) (arr : list A) (first last : Z) : res Z :=
  loop (S (Z.to_nat (last - first))) (fun i => 
    if first <? i then
      x <- aget arr (i - 1) ;;
      if negb (p x) then Ok (inr (i - 1)) else Ok (inl (i - 1))
    else Ok (inr i)) last.

(** pdqsort.codon:93-102, main loop of [_partition_left]; state (arr, first, last). *)
Definition pleft_loop (pivot : A) (s : list A * Z * Z)
  : res (list A * Z * Z + list A * Z * Z) :=
  let '(arr, first, last) := s in
  if first <? last then
    arr1 <- aswap arr first last ;;
    last1 <- scan_down (fun x => lt pivot x) arr1 last ;;
    first1 <- scan_up (fun x => negb (lt pivot x)) arr1 first ;;
    Ok (inl (arr1, first1, last1))
  else Ok (inr (arr, first, last)).

(** pdqsort.codon:69-108 [_partition_left] *)
Definition partition_left (arr : list A) (begin end_ : Z) : res (list A * Z) :=
  pivot <- aget arr begin ;;
  last <- scan_down (fun x => lt pivot x) arr end_ ;;
  first <- (if last + 1 =? end_
            then scan_up_guarded (fun x => negb (lt pivot x)) arr begin last
            else scan_up (fun x => negb (lt pivot x)) arr begin) ;;
  '(arr1, _, last1) <- loop (S (length arr)) (pleft_loop pivot) (arr, first, last) ;;
  let pivot_pos := last1 in
  y <- aget arr1 pivot_pos ;;
  arr2 <- aset arr1 begin y ;;
  arr3 <- aset arr2 pivot_pos pivot ;;
  Ok (arr3, pivot_pos).

(** pdqsort.codon:138-149, main loop of [_partition_right]. *)
Definition pright_loop (pivot : A) (s : list A * Z * Z)
  : res (list A * Z * Z + list A * Z * Z) :=
  let '(arr, first, last) := s in
  if first <? last then
    arr1 <- aswap arr first last ;;
    first1 <- scan_up (fun x => lt x pivot) arr1 first ;;
    last1 <- scan_down (fun x => negb (lt x pivot)) arr1 last ;;
    Ok (inl (arr1, first1, last1))
  else Ok (inr (arr, first, last)).

(** pdqsort.codon:110-155 [_partition_right]; the flag is [already_partitioned]. *)
Definition partition_right (arr : list A) (begin end_ : Z) : res (list A * Z * bool) :=
  pivot <- aget arr begin ;;
  first <- scan_up (fun x => lt x pivot) arr begin ;;
  last <- (if first - 1 =? begin
           then scan_down_guarded (fun x => negb (lt x pivot)) arr first end_
           else scan_down (fun x => negb (lt x pivot)) arr end_) ;;
  let already := last <=? first in
  '(arr1, first1, _) <- loop (S (length arr)) (pright_loop pivot) (arr, first, last) ;;
  let pivot_pos := first1 - 1 in
  y <- aget arr1 pivot_pos ;;
  arr2 <- aset arr1 begin y ;;
  arr3 <- aset arr2 pivot_pos pivot ;;
  Ok (arr3, pivot_pos, already).

(** pdqsort.codon:157-161 [_sort2] *)
Definition sort2 (arr : list A) (i j : Z) : res (list A) :=
  y <- aget arr j ;; x <- aget arr i ;;
  if lt y x then aswap arr i j else Ok arr.

(** pdqsort.codon:163-168 [_sort3] *)
Definition sort3 (arr : list A) (i j k : Z) : res (list A) :=
  a1 <- sort2 arr i j ;; a2 <- sort2 a1 j k ;; sort2 a2 i j.

(** pdqsort.codon:186-196, pivot selection *)
Definition choose_pivot (arr : list A) (begin end_ : Z) : res (list A) :=
  let size := end_ - begin in
  let size_2 := size / 2 in
  if NINTHER_THRESHOLD <? size then
    a1 <- sort3 arr begin (begin + size_2) (end_ - 1) ;;
    a2 <- sort3 a1 (begin + 1) (begin + (size_2 - 1)) (end_ - 2) ;;
    a3 <- sort3 a2 (begin + 2) (begin + (size_2 + 1)) (end_ - 3) ;;
    a4 <- sort3 a3 (begin + (size_2 - 1)) (begin + size_2) (begin + (size_2 + 1)) ;;
    aswap a4 begin (begin + size_2)
  else sort3 arr (begin + size_2) begin (end_ - 1).

(** pdqsort.codon:216-242, shuffling the left part *)
Definition shuffle_left (arr : list A) (begin pivot_pos : Z) : res (list A) :=
  let l := pivot_pos - begin in
  if INSERTION_SORT_THRESHOLD <=? l then
    a1 <- aswap arr begin (begin + l / 4) ;;
    a2 <- aswap a1 (pivot_pos - 1) (pivot_pos - l / 4) ;;
    if NINTHER_THRESHOLD <? l then
      a3 <- aswap a2 (begin + 1) (begin + (l / 4 + 1)) ;;
      a4 <- aswap a3 (begin + 2) (begin + (l / 4 + 2)) ;;
      a5 <- aswap a4 (pivot_pos - 2) (pivot_pos - (l / 4 + 1)) ;;
      aswap a5 (pivot_pos - 3) (pivot_pos - (l / 4 + 2))
    else Ok a2
  else Ok arr.

(** pdqsort.codon:244-270, shuffling the right part *)
Definition shuffle_right (arr : list A) (pivot_pos end_ : Z) : res (list A) :=
  let r := end_ - (pivot_pos + 1) in
  if INSERTION_SORT_THRESHOLD <=? r then
    a1 <- aswap arr (pivot_pos + 1) (pivot_pos + (1 + r / 4)) ;;
    a2 <- aswap a1 (end_ - 1) (end_ - r / 4) ;;
    if NINTHER_THRESHOLD <? r then
      a3 <- aswap a2 (pivot_pos + 2) (pivot_pos + (2 + r / 4)) ;;
      a4 <- aswap a3 (pivot_pos + 3) (pivot_pos + (3 + r / 4)) ;;
      a5 <- aswap a4 (end_ - 2) (end_ - (1 + r / 4)) ;;
      aswap a5 (end_ - 3) (end_ - (2 + r / 4))
    else Ok a2
  else Ok arr.

(** pdqsort.codon:170-282 [_pdq_sort].  The [while True] loop and the recursive
    call of line 280 are both recursion on [fuel] here. *)
Fixpoint pdq_sort_rec (fuel : nat) (arr : list A) (begin end_ bad_allowed : Z)
         (leftmost : bool) : res (list A) :=
  match fuel with
  | O => NoFuel
  | S fuel =>
      let size := end_ - begin in
      if size <? INSERTION_SORT_THRESHOLD then insertion_sort arr begin end_
      else
        arr <- choose_pivot arr begin end_ ;;
        (* line 198: the short-circuit [not leftmost and not ...] *)
        go_left <- (if leftmost then Ok false
                    else
                      p <- aget arr (begin - 1) ;; q <- aget arr begin ;;
                      Ok (negb (lt p q))) ;;
        if (go_left : bool) then
          '(arr, pos) <- partition_left arr begin end_ ;;
          pdq_sort_rec fuel arr (pos + 1) end_ bad_allowed leftmost
        else
          '(arr, pivot_pos, already) <- partition_right arr begin end_ ;;
          let l_size := pivot_pos - begin in
          let r_size := end_ - (pivot_pos + 1) in
          (* lines 280-282 *)
          let continue_ (arr : list A) (bad : Z) :=
            arr <- pdq_sort_rec fuel arr begin pivot_pos bad leftmost ;;
            pdq_sort_rec fuel arr (pivot_pos + 1) end_ bad false in
          if (l_size <? size / 8) || (r_size <? size / 8) then
            let bad := bad_allowed - 1 in
            if bad =? 0 then heap_sort arr begin end_
            else
              arr <- shuffle_left arr begin pivot_pos ;;
              arr <- shuffle_right arr pivot_pos end_ ;;
              continue_ arr bad
          else if already then
            '(ok1, arr) <- partial_insertion_sort arr begin pivot_pos ;;
            if (ok1 : bool) then
              '(ok2, arr) <- partial_insertion_sort arr (pivot_pos + 1) end_ ;;
              if (ok2 : bool) then Ok arr else continue_ arr bad_allowed
            else continue_ arr bad_allowed
          else continue_ arr bad_allowed
  end.

(** pdqsort.codon:284-297 [pdq_sort_array] / [pdq_sort_inplace] / [pdq_sort] on a
    list whose backing array may be longer than [size] (the tail is capacity). *)
Definition pdq_sort_array (arr : list A) (size : Z) : res (list A) :=
  log <- floor_log2 size ;;
  pdq_sort_rec (S (Z.to_nat size)) arr 0 size log true.

(** insertionsort.codon:16-19, heapsort.codon:44-47 *)
Definition insertion_sort_array (arr : list A) (size : Z) : res (list A) :=
  insertion_sort arr 0 size.
Definition heap_sort_array (arr : list A) (size : Z) : res (list A) :=
  heap_sort arr 0 size.

End Model.
