(** Model of /repo/stdlib/internal/types/collections/list.codon.

    A Codon list is a block of memory of [zlen (cells l)] element slots and a length
    (fields [arr] and [len], array.codon:49-54).  [None] is a slot that has not
    been written; using its contents is [Undef].  Simplifications:
    - allocation succeeds, and block sizes are counted in elements, not bytes;
    - [__eq__] and [__lt__] of the elements are the pure functions [eqb] and [ltb];
    - a generator argument is the list of the values it yields (it does not touch
      the list; [extend_self] is the exception);
    - arithmetic is on mathematical integers where the operands are lengths or
      indices of an existing block, and wrapped ([w64]) where a user-supplied value can
      push it out of range.
    Every [raise] in the modelled functions precedes their first write, so dropping
    the state on [Raise] loses nothing. *)
From Coq Require Import List ZArith Lia Bool.
From Verif.Common Require Import Result Int64 Arr.
From Verif.List Require Import SliceSpec SliceModel.
Import ListNotations.
Local Open Scope Z_scope.
Local Open Scope res_scope.

Section Model.
Context {A : Type} (eqb ltb : A -> A -> bool).

Record lst := L { cells : list (option A); len : Z }.

(** [gc.realloc] (stdlib/internal/gc.codon [realloc]) and [Ptr[T](n)]: keep a prefix,
    new slots are uninitialised. *)
Definition realloc (c : list (option A)) (n : Z) : res (list (option A)) :=
  if n <? 0 then Undef
  else Ok (firstn (Z.to_nat n) c ++ repeat None (Z.to_nat n - length c)).

Definition alloc (n : Z) : res (list (option A)) := realloc [] n.

(** [str.memmove]/[str.memcpy] of [n] elements from [src] at offset [s] to [dst] at
    offset [d] (stdlib/internal/str.codon, LLVM intrinsics). *)
Definition memmove (dst : list (option A)) (d : Z) (src : list (option A)) (s n : Z)
  : res (list (option A)) :=
  if n =? 0 then Ok dst
  else if (n <? 0) || (d <? 0) || (s <? 0) || (zlen dst <? d + n) || (zlen src <? s + n)
  then Undef
  else Ok (zsub dst 0 d ++ zsub src s (s + n) ++ zsub dst (d + n) (zlen dst)).

(** list.codon:42-43 [_get] *)
Definition get_ (l : lst) (i : Z) : res A :=
  c <- aget (cells l) i ;; match c with Some x => Ok x | None => Undef end.

(** list.codon:45-46 [_set] *)
Definition set_ (l : lst) (i : Z) (x : A) : res lst :=
  c <- aset (cells l) i (Some x) ;; Ok (L c (len l)).

(** list.codon:16-18 [__init__] *)
Definition list_new : res lst := c <- alloc 10 ;; Ok (L c 0).

(** list.codon:20-24 [__init__(capacity)] *)
Definition list_new_cap (capacity : Z) : res lst :=
  let capacity := if capacity <? 0 then 0 else capacity in
  c <- alloc capacity ;; Ok (L c 0).

(** list.codon:377-379 [_idx_check] *)
Definition idx_check (l : lst) (idx : Z) : res unit :=
  if (len l <=? idx) || (idx <? 0) then Raise IndexError else Ok tt.

(** list.codon:54-58 [__getitem__] *)
Definition getitem (l : lst) (idx : Z) : res A :=
  let idx := if idx <? 0 then idx + len l else idx in
  _ <- idx_check l idx ;; get_ l idx.

(** list.codon:60-64 [__setitem__] *)
Definition setitem (l : lst) (idx : Z) (x : A) : res lst :=
  let idx := if idx <? 0 then idx + len l else idx in
  _ <- idx_check l idx ;; set_ l idx x.

(** list.codon:70-72, the loop of [__delitem__]; state (list, idx) *)
Definition del_body (s : lst * Z) : res (lst * Z + lst) :=
  let '(l, idx) := s in
  if idx <? len l - 1 then
    x <- get_ l (idx + 1) ;; l1 <- set_ l idx x ;; Ok (inl (l1, idx + 1))
  else Ok (inr l).

(** list.codon:66-73 [__delitem__] *)
Definition delitem (l : lst) (idx : Z) : res lst :=
  let idx := if idx <? 0 then idx + len l else idx in
  _ <- idx_check l idx ;;
  l1 <- loop (S (Z.to_nat (len l))) del_body (l, idx) ;;
  Ok (L (cells l1) (len l1 - 1)).

(** list.codon:78-81, the loop of [__eq__] *)
Definition eq_body (l other : lst) (i : Z) : res (Z + bool) :=
  if i <? len l then
    x <- get_ l i ;; y <- get_ other i ;;
    if negb (eqb x y) then Ok (inr false) else Ok (inl (i + 1))
  else Ok (inr true).

(** list.codon:75-81 [__eq__]; [!=] of elements is the negation of [==] *)
Definition list_eq (l other : lst) : res bool :=
  if negb (len l =? len other) then Ok false
  else loop (S (Z.to_nat (len l))) (eq_body l other) 0.

(** list.codon:381-385 [_resize] *)
Definition resize (l : lst) (new_cap : Z) : res lst :=
  c <- realloc (cells l) new_cap ;; Ok (L c (len l)).

(** list.codon:387-392 [_resize_if_full] *)
Definition resize_if_full (l : lst) : res lst :=
  if len l =? zlen (cells l) then
    let new_cap := (1 + 3 * len l) / 2 in
    let new_cap := if new_cap <=? 0 then 1 else new_cap in
    resize l new_cap
  else Ok l.

(** list.codon:293-296 [append] *)
Definition append (l : lst) (x : A) : res lst :=
  l1 <- resize_if_full l ;;
  l2 <- set_ l1 (len l1) x ;;
  Ok (L (cells l2) (len l2 + 1)).

(** list.codon:298-300 [extend], also lines 26-36 [__init__] *)
Fixpoint extend (l : lst) (itr : list A) : res lst :=
  match itr with
  | [] => Ok l
  | a :: itr => l1 <- append l a ;; extend l1 itr
  end.

(** list.codon:298-300 with [itr] the list itself: [__iter__] (193-199) has captured
    [N] and [p = self.arr.ptr]; when [append] reallocates, the block at [p] is released
    ([gc.realloc] is Boehm's GC_REALLOC, which frees the old block when it moves it) and
    the next [yield p[i]] reads freed memory. *)
Definition extend_self_body (N : Z) (s : lst * Z * bool) : res (lst * Z * bool + lst) :=
  let '(l, i, freed) := s in
  if i <? N then
    if (freed : bool) then Undef
    else
      x <- get_ l i ;;
      l1 <- append l x ;;
      Ok (inl (l1, i + 1, len l =? zlen (cells l)))
  else Ok (inr l).
Definition extend_self (l : lst) : res lst :=
  loop (S (Z.to_nat (len l))) (extend_self_body (len l)) (l, 0, false).

(** list.codon:187-188 [__copy__], array.codon:19-22 *)
Definition copy (l : lst) : res lst :=
  p <- alloc (zlen (cells l)) ;;
  c <- memmove p 0 (cells l) 0 (zlen (cells l)) ;;
  Ok (L c (len l)).

(** list.codon:207-218 [__add__] *)
Definition add (l other : lst) : res lst :=
  let n := len l + len other in
  v <- list_new_cap n ;;
  c1 <- memmove (cells v) 0 (cells l) 0 (len l) ;;
  c2 <- memmove c1 (len l) (cells other) 0 (len other) ;;
  Ok (L c2 n).

(** list.codon:220-228 [__iadd__], [other] a different list *)
Definition iadd (l other : lst) : res lst :=
  let n := len l + len other in
  l1 <- (if zlen (cells l) <? n then resize l n else Ok l) ;;
  c <- memmove (cells l1) (len l1) (cells other) 0 (len other) ;;
  Ok (L c n).

(** list.codon:220-228 [__iadd__], [other] the list itself: [other.arr.ptr] is read
    after the resize; the two regions do not overlap. *)
Definition iadd_self (l : lst) : res lst :=
  let n := len l + len l in
  l1 <- (if zlen (cells l) <? n then resize l n else Ok l) ;;
  c <- memmove (cells l1) (len l1) (cells l1) 0 (len l1) ;;
  Ok (L c n).

(** list.codon:239-241, inner loop of [__mul__]; state (v, j) *)
Definition mul_inner (l : lst) (s : lst * Z) : res (lst * Z + lst) :=
  let '(v, j) := s in
  if j <? len l then
    x <- get_ l j ;; v1 <- append v x ;; Ok (inl (v1, j + 1))
  else Ok (inr v).

(** list.codon:237-242, outer loop; state (v, i) *)
Definition mul_outer (l : lst) (n : Z) (s : lst * Z) : res (lst * Z + lst) :=
  let '(v, i) := s in
  if i <? n then
    v1 <- loop (S (Z.to_nat (len l))) (mul_inner l) (v, 0) ;; Ok (inl (v1, i + 1))
  else Ok (inr v).

(** list.codon:230-243 [__mul__] *)
Definition mul (l : lst) (n : Z) : res lst :=
  if n <=? 0 then list_new
  else
    v <- list_new_cap (w64 (len l * n)) ;;
    loop (S (Z.to_nat n)) (mul_outer l n) (v, 0).

(** list.codon:268-271, inner loop of [__imul__]; state (l, idx, j) *)
Definition imul_inner (len0 : Z) (s : lst * Z * Z) : res (lst * Z * Z + lst * Z) :=
  let '(l, idx, j) := s in
  if j <? len0 then
    x <- get_ l j ;; l1 <- set_ l idx x ;; Ok (inl (l1, idx + 1, j + 1))
  else Ok (inr (l, idx)).

(** list.codon:266-272, outer loop; state (l, idx, i) *)
Definition imul_outer (len0 n : Z) (s : lst * Z * Z) : res (lst * Z * Z + lst) :=
  let '(l, idx, i) := s in
  if i <? n - 1 then
    '(l1, idx1) <- loop (S (Z.to_nat len0)) (imul_inner len0) (l, idx, 0) ;;
    Ok (inl (l1, idx1, i + 1))
  else Ok (inr l).

(** list.codon:248-275 [__imul__] *)
Definition imul (l : lst) (n : Z) : res lst :=
  if n =? 1 then Ok l
  else if n <=? 0 then Ok (L (cells l) 0)
  else
    let len0 := len l in
    let new_cap := w64 (n * len0) in
    l1 <- (if zlen (cells l) <? new_cap then resize l new_cap else Ok l) ;;
    l2 <- loop (S (Z.to_nat n)) (imul_outer len0 n) (l1, len0, 0) ;;
    Ok (L (cells l2) new_cap).

(** list.codon:312-314, the loop of [insert]; state (l, i) *)
Definition insert_body (idx : Z) (s : lst * Z) : res (lst * Z + lst) :=
  let '(l, i) := s in
  if idx <? i then
    x <- get_ l (i - 1) ;; l1 <- set_ l i x ;; Ok (inl (l1, i - 1))
  else Ok (inr l).

(** list.codon:302-316 [insert] *)
Definition insert (l : lst) (idx : Z) (x : A) : res lst :=
  let n := len l in
  let idx := if idx <? 0 then (if idx + n <? 0 then 0 else idx + n) else idx in
  let idx := if n <? idx then n else idx in
  l1 <- resize_if_full l ;;
  l2 <- loop (S (Z.to_nat n)) (insert_body idx) (l1, n) ;;
  l3 <- set_ l2 idx x ;;
  Ok (L (cells l3) (len l3 + 1)).

(** list.codon:318-326 [pop] *)
Definition pop (l : lst) (idx : Z) : res (A * lst) :=
  if len l =? 0 then Raise IndexError
  else
    let idx := if idx <? 0 then idx + len l else idx in
    _ <- idx_check l idx ;;
    x <- get_ l idx ;;
    l1 <- delitem l idx ;;
    Ok (x, l1).

(** list.codon:348-354 [find] (the same scan is used by index, remove, contains) *)
Definition find_body (l : lst) (x : A) (i : Z) : res (Z + Z) :=
  if i <? len l then
    a <- get_ l i ;; if eqb a x then Ok (inr i) else Ok (inl (i + 1))
  else Ok (inr (-1)).
Definition find (l : lst) (x : A) : res Z :=
  loop (S (Z.to_nat (len l))) (find_body l x) 0.

(** list.codon:340-346 [index] *)
Definition index (l : lst) (x : A) : res Z :=
  i <- find l x ;; if i =? -1 then Raise ValueError else Ok i.

(** list.codon:328-335 [remove] *)
Definition remove (l : lst) (x : A) : res (bool * lst) :=
  i <- find l x ;;
  if i =? -1 then Ok (false, l) else l1 <- delitem l i ;; Ok (true, l1).

(** list.codon:181-185 [__contains__] *)
Definition contains (l : lst) (x : A) : res bool :=
  i <- find l x ;; Ok (negb (i =? -1)).

(** list.codon:356-361 [count]; state (i, count) *)
Definition count_body (l : lst) (x : A) (s : Z * Z) : res (Z * Z + Z) :=
  let '(i, c) := s in
  if i <? len l then
    a <- get_ l i ;; Ok (inl (i + 1, if eqb a x then c + 1 else c))
  else Ok (inr c).
Definition count (l : lst) (x : A) : res Z :=
  loop (S (Z.to_nat (len l))) (count_body l x) (0, 0).

(** list.codon:363-370 [reverse]; state (l, i) *)
Definition reverse_body (s : lst * Z) : res (lst * Z + lst) :=
  let '(l, i) := s in
  if i <? len l / 2 then
    let j := len l - i - 1 in
    x <- get_ l i ;;
    y <- get_ l j ;;
    l1 <- set_ l i y ;;
    l2 <- set_ l1 j x ;;
    Ok (inl (l2, i + 1))
  else Ok (inr l).
Definition reverse (l : lst) : res lst :=
  loop (S (Z.to_nat (len l))) reverse_body (l, 0).

(** list.codon:337-338 [clear] *)
Definition clear (l : lst) : lst := L (cells l) 0.

(** list.codon:455-464, the loop of [_cmp] *)
Definition cmp_body (l other : lst) (nmin i : Z) : res (Z + option Z) :=
  if i <? nmin then
    a <- get_ l i ;; b <- get_ other i ;;
    if ltb a b then Ok (inr (Some (-1)))
    else if eqb a b then Ok (inl (i + 1))
    else Ok (inr (Some 1))
  else Ok (inr None).

(** list.codon:451-470 [_cmp] *)
Definition cmp (l other : lst) : res Z :=
  let n1 := len l in
  let n2 := len other in
  let nmin := if n1 <? n2 then n1 else n2 in
  r <- loop (S (Z.to_nat nmin)) (cmp_body l other nmin) 0 ;;
  match r with
  | Some c => Ok c
  | None => Ok (if n1 <? n2 then -1 else if n1 =? n2 then 0 else 1)
  end.

(** list.codon:472-482 *)
Definition list_lt l other := c <- cmp l other ;; Ok (c <? 0).
Definition list_gt l other := c <- cmp l other ;; Ok (0 <? c).
Definition list_le l other := c <- cmp l other ;; Ok (c <=? 0).
Definition list_ge l other := c <- cmp l other ;; Ok (0 <=? c).

(** ** Slices *)

Definition full_slice (s : slice) : bool :=
  match sl_start s, sl_stop s, sl_step s with None, None, None => true | _, _, _ => false end.

(** list.codon:446-449 [_copy_arr], array.codon:19-22, 44-45 *)
Definition copy_arr (l : lst) (start stop length : Z) : res (list (option A)) :=
  if length <=? 0 then Ok []
  else
    p <- alloc (stop - start) ;;
    memmove p 0 (cells l) start (stop - start).

(** list.codon:95-96: for i in range(start, stop, step): other.append(self._get(i));
    state (other, i); the increment is range.codon:68-79's and wraps. *)
Definition getslice_body (l : lst) (stop step : Z) (s : lst * Z) : res (lst * Z + lst) :=
  let '(other, i) := s in
  if (if 0 <? step then i <? stop else stop <? i) then
    x <- get_ l i ;; o1 <- append other x ;; Ok (inl (o1, w64 (i + step)))
  else Ok (inr other).

(** list.codon:86-97 [__getitem__(Slice)] *)
Definition getslice (l : lst) (s : slice) : res lst :=
  if full_slice s then copy l
  else match sl_step s with
  | None =>
      '(start, stop, step, length) <- adjust_indices s (len l) ;;
      c <- copy_arr l start stop length ;;
      Ok (L c length)
  | Some _ =>
      '(start, stop, step, length) <- adjust_indices s (len l) ;;
      other <- list_new_cap length ;;
      loop (S (Z.to_nat (len l))) (getslice_body l stop step) (other, start)
  end.

(** list.codon:439-443, the loop of [_assign_slice]; state (a, ilow, k) *)
Definition assign_body (v : list (option A)) (n : Z) (s : lst * Z * Z)
  : res (lst * Z * Z + lst) :=
  let '(a, ilow, k) := s in
  if k <? n then
    x <- get_ (L v n) k ;; a1 <- set_ a ilow x ;; Ok (inl (a1, ilow + 1, k + 1))
  else Ok (inr a).

(** list.codon:401-444 [_assign_slice]; [v] is a block of another list *)
Definition assign_slice (a : lst) (ilow ihigh : Z) (v : list (option A)) (n : Z) : res lst :=
  let L_ := len a in
  let ilow := if ilow <? 0 then 0 else if L_ <? ilow then L_ else ilow in
  let ihigh := if ihigh <? ilow then ilow else if L_ <? ihigh then L_ else ihigh in
  let norig := ihigh - ilow in
  let d := n - norig in
  if L_ + d =? 0 then Ok (clear a)
  else
    a1 <- (if d <? 0 then
             let tail := L_ - ihigh in
             c <- memmove (cells a) (ihigh + d) (cells a) ihigh tail ;;
             resize (L c (len a)) (L_ + d)
           else if 0 <? d then
             a1 <- resize a (L_ + d) ;;
             c <- memmove (cells a1) (ihigh + d) (cells a1) ihigh (L_ - ihigh) ;;
             Ok (L c (len a1))
           else Ok a) ;;
    a2 <- loop (S (Z.to_nat n)) (assign_body v n) (a1, ilow, 0) ;;
    Ok (L (cells a2) (len a2 + d)).

(** list.codon:133-138, the loop of the extended assignment; state (l, cur, i) *)
Definition setslice_body (seq : lst) (length step : Z) (s : lst * Z * Z)
  : res (lst * Z * Z + lst) :=
  let '(l, cur, i) := s in
  if i <? length then
    x <- get_ seq i ;; l1 <- set_ l cur x ;; Ok (inl (l1, w64 (cur + step), i + 1))
  else Ok (inr l).

(** list.codon:102-138 [__setitem__(Slice, List)], [other] a different list *)
Definition setslice (l : lst) (s : slice) (other : lst) : res lst :=
  if full_slice s then
    (* for a in other: self.append(a) *)
    loop (S (Z.to_nat (len other))) (mul_inner other) (clear l, 0)
  else
    '(start, stop, step, length) <- adjust_indices s (len l) ;;
    if (match sl_step s with None => true | Some _ => step =? 1 end) then
      assign_slice l start stop (cells other) (len other)
    else if negb (len other =? length) then Raise ValueError
    else if length =? 0 then Ok l
    else loop (S (Z.to_nat length)) (setslice_body other length step) (l, start, 0).

(** list.codon:102-138 with [other] the list itself.  In the full-slice case [other] is
    cleared first, so the iterator (193-199) captures N = 0; otherwise [other] is
    replaced by a copy (line 112, 120). *)
Definition setslice_self (l : lst) (s : slice) : res lst :=
  if full_slice s then
    let l1 := clear l in loop (S (Z.to_nat (len l1))) (mul_inner l1) (l1, 0)
  else
    other <- copy l ;; setslice l s other.

(** list.codon:156-168, the loop of the extended deletion; state (l, cur, i) *)
Definition delslice_body (stop step : Z) (s : lst * Z * Z) : res (lst * Z * Z + lst) :=
  let '(l, cur, i) := s in
  if cur <? stop then
    let lim := if len l <? w64 (cur + step) then len l - cur - 1 else w64 (step - 1) in
    c <- memmove (cells l) (cur - i) (cells l) (cur + 1) lim ;;
    Ok (inl (L c (len l), w64 (cur + step), i + 1))
  else Ok (inr l).

(** list.codon:140-179 [__delitem__(Slice)] *)
Definition delslice (l : lst) (s : slice) : res lst :=
  if full_slice s then Ok (clear l)
  else
    '(start, stop, step, length) <- adjust_indices s (len l) ;;
    if (match sl_step s with None => true | Some _ => step =? 1 end) then
      assign_slice l start stop [] 0
    else if length <? 0 then Ok l
    else
      let '(start, stop, step) :=
        if step <? 0 then
          let stop := start + 1 in
          (w64 (w64 (stop + w64 (step * (length - 1))) - 1), stop, w64 (- step))
        else (start, stop, step) in
      l1 <- loop (S (Z.to_nat (len l))) (delslice_body stop step) (l, start, 0) ;;
      let cur := w64 (start + w64 (length * step)) in
      l2 <- (if cur <? len l1 then
               c <- memmove (cells l1) (cur - length) (cells l1) cur (len l1 - cur) ;;
               Ok (L c (len l1))
             else Ok l1) ;;
      Ok (L (cells l2) (len l2 - length)).

End Model.
Arguments lst : clear implicits.
