(** Model of /repo/stdlib/algorithms/timsort.codon.

    Simplifications: [keyf] is pure; [lt x y] models [keyf(x) < keyf(y)] and
    [ge x y] models [keyf(x) >= keyf(y)]; indices are mathematical integers; the
    run stack is a list with its top first. *)
From Coq Require Import List ZArith Lia Bool.
From Verif.Common Require Import Result Arr.
From Verif.Sort Require Import Model.
Import ListNotations.
Local Open Scope Z_scope.
Local Open Scope res_scope.

Section Model.
Context {A : Type} (lt ge : A -> A -> bool).

(** timsort.codon:50 *)
Definition MIN_GALLOP := 7.

(** timsort.codon:70-74 and 78-82: extend the run while [stop] is false on
    adjacent elements; state (i, n). *)
Definition run_loop (stop : A -> A -> bool) (arr : list A) (end_ i n : Z) : res Z :=
  loop (S (Z.to_nat (end_ - i))) (fun s : Z * Z =>
    let '(i, n) := s in
    if i <? end_ then
      x <- aget arr (i - 1) ;; y <- aget arr i ;;
      if stop x y then Ok (inr n) else Ok (inl (i + 1, n + 1))
    else Ok (inr n)) (i, n).

(** timsort.codon:54-84 [_count_run]; the flag is [inorder]. *)
Definition count_run (arr : list A) (begin end_ : Z) : res (Z * bool) :=
  if end_ - begin =? 1 then Ok (1, true)
  else
    let i := begin + 1 in
    x <- aget arr (i - 1) ;; y <- aget arr i ;;
    if ge x y then n <- run_loop lt arr end_ (i + 1) 2 ;; Ok (n, false)
    else n <- run_loop ge arr end_ (i + 1) 2 ;; Ok (n, true).

(** timsort.codon:86-94 [_merge_compute_minrun]; the size is non-negative. *)
Definition minrun (n : Z) : res Z :=
  loop (S (Z.to_nat n)) (fun s : Z * Z =>
    let '(n, r) := s in
    if 64 <=? n then Ok (inl (Z.shiftr n 1, Z.lor r (Z.land n 1)))
    else Ok (inr (n + r))) (n, 0).

(** timsort.codon:96-100 [_reverse_sortslice] *)
Fixpoint reverse_sortslice (fuel : nat) (arr : list A) (begin end_ : Z) : res (list A) :=
  match fuel with
  | O => NoFuel
  | S fuel =>
      if end_ - begin <? 2 then Ok arr
      else
        arr1 <- aswap arr begin (end_ - 1) ;;
        reverse_sortslice fuel arr1 (begin + 1) (end_ - 1)
  end.

(** timsort.codon:102-111 [_modified_comp] *)
Definition modified_comp (a b : A) (left : bool) : bool :=
  if left then ge b a else lt a b.

(** timsort.codon:113-176 [_gallop]; the runs [a], [b] are (start, length). *)
Definition gallop (arr : list A) (a b : Z * Z) (hint : Z) (left : bool) : res Z :=
  let '(a0, a1) := a in
  let '(b0, b1) := b in
  _ <- aget arr 0 ;;                                   (* line 127 *)
  key <- (if left then aget arr (b0 + b1 - 1) else aget arr b0) ;;
  let curr := a0 + hint in
  c <- aget arr curr ;;
  '(ofs, lastofs) <-
    (if modified_comp key c left then
       (* lines 137-150, state (ofs, lastofs) *)
       let maxofs := hint + 1 in
       '(ofs, lastofs) <- loop (S (Z.to_nat maxofs)) (fun s : Z * Z =>
           let '(ofs, lastofs) := s in
           if ofs <? maxofs then
             x <- aget arr (curr - ofs) ;;
             if modified_comp key x left then Ok (inl (2 * ofs + 1, ofs))
             else Ok (inr (ofs, lastofs))
           else Ok (inr (ofs, lastofs))) (1, 0) ;;
       let ofs := if maxofs <? ofs then maxofs else ofs in
       Ok (hint - lastofs, hint - ofs)
     else
       (* lines 153-166 *)
       let maxofs := a1 - hint in
       '(ofs, lastofs) <- loop (S (Z.to_nat maxofs)) (fun s : Z * Z =>
           let '(ofs, lastofs) := s in
           if ofs <? maxofs then
             x <- aget arr (curr + ofs) ;;
             if modified_comp key x left then Ok (inr (ofs, lastofs))
             else Ok (inl (2 * ofs + 1, ofs))
           else Ok (inr (ofs, lastofs))) (1, 0) ;;
       let ofs := if maxofs <? ofs then maxofs else ofs in
       Ok (ofs + hint, lastofs + hint)) ;;
  (* lines 168-176, binary search; state (lastofs, ofs) *)
  loop (S (Z.to_nat (a1 + 1))) (fun s : Z * Z =>
    let '(lastofs, ofs) := s in
    if lastofs <? ofs then
      let m := lastofs + Z.shiftr (ofs - lastofs) 1 in
      x <- aget arr (a0 + m) ;;
      if modified_comp key x left then Ok (inl (lastofs, m)) else Ok (inl (m + 1, ofs))
    else Ok (inr ofs)) (lastofs + 1, ofs).

(** [while i < stop: arr[k] = combined[off + i]; i += 1; k += 1]
    (timsort.codon:236-239, 252-255, 265-268, 270-273); returns (arr, i, k). *)
Definition copy_run (comb : list A) (off stop : Z) (arr : list A) (i k : Z)
  : res (list A * Z * Z) :=
  loop (S (Z.to_nat (stop - i))) (fun s : list A * Z * Z =>
    let '(arr, i, k) := s in
    if i <? stop then
      x <- aget comb (off + i) ;; arr1 <- aset arr k x ;; Ok (inl (arr1, i + 1, k + 1))
    else Ok (inr (arr, i, k))) (arr, i, k).

Section Merge.
Context (comb : list A) (la lb : Z).

(** timsort.codon:205-221; state (arr, i, j, k, acount, bcount). *)
Definition merge_inner (min_gallop : Z) (s : list A * Z * Z * Z * Z * Z)
  : res (list A * Z * Z * Z * Z * Z + list A * Z * Z * Z) :=
  let '(arr, i, j, k, ac, bc) := s in
  if (i <? la) && (j <? lb) then
    y <- aget comb (la + j) ;; x <- aget comb i ;;
    if lt y x then
      arr1 <- aset arr k y ;;
      if min_gallop <=? bc + 1 then Ok (inr (arr1, i, j + 1, k + 1))
      else Ok (inl (arr1, i, j + 1, k + 1, 0, bc + 1))
    else
      arr1 <- aset arr k x ;;
      if min_gallop <=? ac + 1 then Ok (inr (arr1, i + 1, j, k + 1))
      else Ok (inl (arr1, i + 1, j, k + 1, ac + 1, 0))
  else Ok (inr (arr, i, j, k)).

(** timsort.codon:228-261; state (arr, i, j, k, min_gallop). *)
Definition merge_gallop (s : list A * Z * Z * Z * Z)
  : res (list A * Z * Z * Z * Z + list A * Z * Z * Z * Z) :=
  let '(arr, i, j, k, mg) := s in
  if (i <? la) && (j <? lb) then
    let mg := if 1 <? mg then mg - 1 else mg in
    acount <- gallop comb (0, la) (la, lb) i false ;;
    '(arr, i, j, k) <-
      (if negb (acount =? 0) then
         '(arr, i, k) <- copy_run comb 0 acount arr i k ;;
         y <- aget comb (la + j) ;; arr <- aset arr k y ;;
         Ok (arr, i, j + 1, k + 1)
       else Ok (arr, i, j, k)) ;;
    if (i =? la) || (j =? lb) then Ok (inr (arr, i, j, k, mg))
    else
      b_end <- gallop comb (la, lb) (0, la) j true ;;
      let bcount := lb - b_end in
      '(arr, i, j, k) <-
        (if negb (bcount =? 0) then
           '(arr, j, k) <- copy_run comb la b_end arr j k ;;
           x <- aget comb i ;; arr <- aset arr k x ;;
           Ok (arr, i + 1, j, k + 1)
         else Ok (arr, i, j, k)) ;;
      if (acount <? MIN_GALLOP) && (bcount <? MIN_GALLOP)
      then Ok (inr (arr, i, j, k, mg)) else Ok (inl (arr, i, j, k, mg))
  else Ok (inr (arr, i, j, k, mg)).

(** timsort.codon:202-263; state (arr, i, j, k, min_gallop). *)
Definition merge_outer (s : list A * Z * Z * Z * Z)
  : res (list A * Z * Z * Z * Z + list A * Z * Z * Z) :=
  let '(arr, i, j, k, mg) := s in
  if (i <? la) && (j <? lb) then
    '(arr, i, j, k) <- loop (S (Z.to_nat (la + lb))) (merge_inner mg) (arr, i, j, k, 0, 0) ;;
    if (i =? la) || (j =? lb) then Ok (inr (arr, i, j, k))
    else
      '(arr, i, j, k, mg) <- loop (S (Z.to_nat (la + lb))) merge_gallop (arr, i, j, k, mg + 1) ;;
      Ok (inl (arr, i, j, k, mg + 1))
  else Ok (inr (arr, i, j, k)).

End Merge.

(** timsort.codon:178-273 [_merge_with_gallop].  Lines 188-198 copy the two runs
    into the fresh array [combined]; the model takes the sub-lists. *)
Definition merge_with_gallop (arr : list A) (a b : Z * Z) : res (list A) :=
  let '(a0, la) := a in
  let '(b0, lb) := b in
  let comb := zsub arr a0 (a0 + la) ++ zsub arr b0 (b0 + lb) in
  '(arr, i, j, k) <- loop (S (Z.to_nat (la + lb))) (merge_outer comb la lb) (arr, 0, 0, a0, MIN_GALLOP) ;;
  '(arr, i, k) <- copy_run comb 0 la arr i k ;;
  '(arr, j, k) <- copy_run comb la lb arr j k ;;
  Ok arr.

(** timsort.codon:275-297 [_merge_at] *)
Definition merge_at (arr : list A) (a b : Z * Z) : res (list A) :=
  let '(start_a, len_a) := a in
  let '(start_b, len_b) := b in
  k <- gallop arr a b 0 false ;;
  let start_a := start_a + k in
  let len_a := len_a - k in
  if len_a =? 0 then Ok arr
  else
    len_b <- gallop arr b a (len_b - 1) true ;;
    if len_b =? 0 then Ok arr
    else merge_with_gallop arr (start_a, len_a) (start_b, len_b).

(** timsort.codon:309-334, loop of [_merge_collapse]; state (arr, stack). *)
Definition collapse_body (s : list A * list (Z * Z))
  : res (list A * list (Z * Z) + list A * list (Z * Z)) :=
  let '(arr, stack) := s in
  match stack with
  | C :: B :: X :: rest =>
      if (snd B + snd C <? snd X) && (snd C <? snd B) then Ok (inr (arr, stack))
      else if (snd X <=? snd B + snd C) && (snd X <? snd C) then
        arr1 <- merge_at arr X B ;;
        Ok (inl (arr1, C :: (fst X, snd X + snd B) :: rest))
      else
        arr1 <- merge_at arr B C ;;
        Ok (inl (arr1, (fst B, snd B + snd C) :: X :: rest))
  | _ => Ok (inr (arr, stack))
  end.

(** timsort.codon:299-345 [_merge_collapse] *)
Definition merge_collapse (arr : list A) (stack : list (Z * Z))
  : res (list A * list (Z * Z)) :=
  '(arr, stack) <- loop (S (length stack)) collapse_body (arr, stack) ;;
  match stack with
  | [C; B] =>
      if snd B <=? snd C then
        arr1 <- merge_at arr B C ;; Ok (arr1, [(fst B, snd B + snd C)])
      else Ok (arr, stack)
  | _ => Ok (arr, stack)
  end.

(** timsort.codon:347-358 [_final_merge] *)
Definition final_merge (arr : list A) (stack : list (Z * Z)) : res (list A) :=
  loop (S (length stack)) (fun s : list A * list (Z * Z) =>
    let '(arr, stack) := s in
    match stack with
    | C :: B :: rest =>
        arr1 <- merge_at arr B C ;; Ok (inl (arr1, (fst B, snd B + snd C) :: rest))
    | _ => Ok (inr arr)
    end) (arr, stack).

(** timsort.codon:369-381, main loop; state (arr, stack, i). *)
Definition tim_body (minrun end_ : Z) (s : list A * list (Z * Z) * Z)
  : res (list A * list (Z * Z) * Z + list A * list (Z * Z)) :=
  let '(arr, stack, i) := s in
  if i <? end_ then
    '(n, inorder) <- count_run arr i end_ ;;
    arr <- (if negb inorder then reverse_sortslice (S (Z.to_nat n)) arr i (i + n) else Ok arr) ;;
    '(arr, n) <-
      (if n <? minrun then
         let force := Z.min minrun (end_ - i) in
         arr <- insertion_sort lt arr i (i + force) ;; Ok (arr, force)
       else Ok (arr, n)) ;;
    '(arr, stack) <- merge_collapse arr ((i, n) :: stack) ;;
    Ok (inl (arr, stack, i + n))
  else Ok (inr (arr, stack)).

(** timsort.codon:360-383 [_tim_sort] *)
Definition tim_sort (arr : list A) (begin end_ : Z) : res (list A) :=
  if end_ - begin <? 2 then Ok arr
  else
    mr <- minrun (end_ - begin) ;;
    '(arr, stack) <- loop (S (Z.to_nat (end_ - begin))) (tim_body mr end_) (arr, [], begin) ;;
    final_merge arr stack.

(** timsort.codon:385-398 [tim_sort_array] / [tim_sort_inplace] / [tim_sort] *)
Definition tim_sort_array (arr : list A) (size : Z) : res (list A) :=
  tim_sort arr 0 size.

End Model.
