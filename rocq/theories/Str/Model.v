(** Strings: /repo/stdlib/internal/str.codon, /repo/stdlib/internal/types/str.codon and
    /repo/stdlib/algorithms/strings.codon.

    A [str] is a pointer and a length; here it is the list of its bytes.  A read or a slice
    outside the string is [Undef].  A buffer [Ptr[byte](n)] filled from the left is its size
    and the bytes written so far: writing past its end is [Undef], and so is using it before
    it is full.  Allocation succeeds for every size that is not negative.

    Positions inside strings are unbounded integers: the sum of two lengths of allocated
    strings is far below 2^63.  Arithmetic on numbers given by the caller wraps ([w64]).

    [isspace] is that of the C locale.  Not modelled: case mapping and character classes,
    conversions to and from other types, pickling. *)
From Coq Require Import List ZArith Bool.
From Verif.Common Require Import Result Int64.
From Verif.List Require Import SliceSpec SliceModel.
Import ListNotations.
Local Open Scope Z_scope.
Local Open Scope res_scope.

Definition str := list Z.
Definition len (s : str) : Z := Z.of_nat (length s).

(** internal/str.codon:3 [_MAX] *)
Definition MAX : Z := max64.

Fixpoint bytes_eqb (a b : list Z) : bool :=
  match a, b with
  | [], [] => true
  | x :: a, y :: b => (x =? y) && bytes_eqb a b
  | _, _ => false
  end.

(** [s.ptr[i]] *)
Definition get (s : str) (i : Z) : res Z :=
  if (0 <=? i) && (i <? len s) then Ok (nth (Z.to_nat i) s 0) else Undef.
(** internal/str.codon:162-163 [_slice], and [str(p + i, j - i)] *)
Definition slice_ (s : str) (i j : Z) : res str :=
  if (0 <=? i) && (i <=? j) && (j <=? len s) then
    Ok (firstn (Z.to_nat (j - i)) (skipn (Z.to_nat i) s)) else Undef.
(** [memcmp(s + i, t + j, n) == 0] *)
Definition memcmp_eq (s : str) (i : Z) (t : str) (j n : Z) : res bool :=
  a <- slice_ s i (i + n) ;; b <- slice_ t j (j + n) ;; Ok (bytes_eqb a b).
(** [memchr(s, c, n)] relative to [s] *)
Fixpoint memchr (c : Z) (s : str) : option Z :=
  match s with
  | [] => None
  | x :: s => if x =? c then Some 0 else match memchr c s with Some i => Some (i + 1) | None => None end
  end.

(** Buffers *)
Definition alloc (n : Z) : res unit := if n <? 0 then Undef else Ok tt.
Definition put (cap : Z) (out src : list Z) : res (list Z) :=
  if len out + len src <=? cap then Ok (out ++ src) else Undef.
Definition full (cap : Z) (out : list Z) : res str := if len out =? cap then Ok out else Undef.

(** ** Comparison and concatenation *)

(** types/str.codon:98-106 [__eq__] *)
Definition str_eq (s t : str) : bool := if negb (len s =? len t) then false else bytes_eqb s t.

(** internal/str.codon:118-127 [_cmp]: the loop walks both strings together *)
Fixpoint cmp_loop (n : nat) (s t : str) : option Z :=
  match n, s, t with
  | S n, x :: s, y :: t => if negb (x =? y) then Some (x - y) else cmp_loop n s t
  | _, _, _ => None
  end.
Definition cmp (s t : str) : Z :=
  match cmp_loop (Nat.min (length s) (length t)) s t with
  | Some d => d
  | None => len s - len t
  end.
(** internal/str.codon:18-28 *)
Definition str_lt (s t : str) : bool := cmp s t <? 0.
Definition str_le (s t : str) : bool := cmp s t <=? 0.
Definition str_gt (s t : str) : bool := 0 <? cmp s t.
Definition str_ge (s t : str) : bool := 0 <=? cmp s t.

(** types/str.codon:76-83 [__add__] *)
Definition str_add (s t : str) : res str :=
  let len3 := len s + len t in
  _ <- alloc len3 ;;
  p <- put len3 [] s ;;
  p <- put len3 p t ;;
  full len3 p.

(** internal/str.codon:109-116 [__mul__]: [range(x)] is empty when [x <= 0] *)
Fixpoint put_times (n : nat) (cap : Z) (out s : str) : res str :=
  match n with O => Ok out | S n => out <- put cap out s ;; put_times n cap out s end.
Definition str_mul (s : str) (x : Z) : res str :=
  let total := w64 (x * len s) in
  _ <- alloc total ;;
  p <- put_times (Z.to_nat x) total [] s ;;
  full total p.

(** internal/str.codon:71-76 [__getitem__] with an index *)
Definition str_getitem (s : str) (idx : Z) : res str :=
  let idx := if idx <? 0 then w64 (idx + len s) else idx in
  if negb ((0 <=? idx) && (idx <? len s)) then Raise IndexError else slice_ s idx (idx + 1).

(** internal/str.codon:78-95 [__getitem__] with a slice, [_make_from_range]; the [range] has
    [length] elements *)
Fixpoint put_range (n : nat) (s : str) (i step cap : Z) (out : str) : res str :=
  match n with
  | O => Ok out
  | S n => c <- get s i ;; out <- put cap out [c] ;; put_range n s (i + step) step cap out
  end.
Definition str_slice (s : str) (sl : slice) : res str :=
  match sl_start sl, sl_stop sl, sl_step sl with
  | None, None, None => Ok s
  | _, _, None =>
      ' (start, _, _, length) <- adjust_indices sl (len s) ;; slice_ s start (start + length)
  | _, _, _ =>
      ' (start, stop, step, length) <- adjust_indices sl (len s) ;;
      _ <- alloc length ;;
      p <- put_range (Z.to_nat length) s start step length [] ;;
      full length p
  end.

(** ** Substring search *)

(** A [<16 x i1>] vector cast to [i16]: element 0 is the lowest bit *)
Fixpoint of_bits (l : list bool) : Z :=
  match l with [] => 0 | b :: l => Z.b2z b + 2 * of_bits l end.
Fixpoint zip_mask (first last : Z) (a b : list Z) : list bool :=
  match a, b with
  | x :: a, y :: b => ((first =? x) && (last =? y)) :: zip_mask first last a b
  | _, _ => []
  end.
(** algorithms/strings.codon:8-20 [cttz], [ctlz]: trailing and leading zeros of a 16-bit number other than 0 *)
Fixpoint cttz_from (n : nat) (b m : Z) : Z :=
  match n with O => b | S n => if Z.testbit m b then b else cttz_from n (b + 1) m end.
Definition cttz (m : Z) : Z := cttz_from 16 0 m.
Fixpoint ctlz_from (n : nat) (b m : Z) : Z :=
  match n with O => b | S n => if Z.testbit m (15 - b) then b else ctlz_from n (b + 1) m end.
Definition ctlz (m : Z) : Z := ctlz_from 16 0 m.

(** algorithms/strings.codon:22-39 [forward_mask] *)
Definition forward_mask (s : str) (k i firstb lastb : Z) : res Z :=
  let offset := i + k - 1 in
  block_first <- slice_ s i (i + 16) ;;
  block_last <- slice_ s offset (offset + 16) ;;
  Ok (of_bits (zip_mask firstb lastb block_first block_last)).

(** algorithms/strings.codon:41-60 [backward_mask] *)
Definition backward_mask (s : str) (k i firstb lastb : Z) : res Z :=
  let j := i - 16 + 1 in
  let offset := j - k + 1 in
  block_first <- slice_ s offset (offset + 16) ;;
  block_last <- slice_ s j (j + 16) ;;
  Ok (of_bits (zip_mask firstb lastb block_first block_last)).

(** algorithms/strings.codon:82-87: candidates of one block, from the left *)
Definition forward_block (s needle : str) (k i mask : Z) : res (option Z) :=
  loop 17 (fun mask =>
    if mask =? 0 then Ok (inr None)
    else
      let bitpos := cttz mask in
      e <- memcmp_eq s (i + bitpos + 1) needle 1 (k - 2) ;;
      if (e : bool) then Ok (inr (Some (i + bitpos))) else Ok (inl (Z.land mask (mask - 1)))) mask.

(** algorithms/strings.codon:90-200: the unrolled rest; [offs] are the offsets of the copies *)
Fixpoint forward_tail (offs : list Z) (s needle : str) (n k i firstb lastb : Z) : res Z :=
  match offs with
  | [] => Ok (-1)
  | o :: offs =>
      let j := i + o in
      if j + k <=? n then
        c <- get s j ;;
        hit <- (if firstb =? c then
                  d <- get s (j + k - 1) ;;
                  if lastb =? d then memcmp_eq s (j + 1) needle 1 (k - 2) else Ok false
                else Ok false) ;;
        if (hit : bool) then Ok j else forward_tail offs s needle n k i firstb lastb
      else Ok (-1)
  end.
Definition forward_offsets : list Z := [0; 1; 2; 3; 4; 5; 6; 7; 8; 9; 10; 11; 12; 13; 14; 15].

(** algorithms/strings.codon:62-202 [forward_find] *)
Definition forward_find (s needle : str) : res Z :=
  let n := len s in
  let k := len needle in
  if k =? 0 then Ok 0
  else if n <? k then Ok (-1)
  else if k =? 1 then
    c <- get needle 0 ;;
    Ok (match memchr c s with Some p => p | None => -1 end)
  else
    firstb <- get needle 0 ;;
    lastb <- get needle (k - 1) ;;
    r <- loop (S (length s)) (fun i =>
           if i + k + 16 - 1 <=? n then
             mask <- forward_mask s k i firstb lastb ;;
             r <- forward_block s needle k i mask ;;
             match r with Some p => Ok (inr (inl p)) | None => Ok (inl (i + 16)) end
           else Ok (inr (inr i))) 0 ;;
    match r with
    | inl p => Ok p
    | inr i => forward_tail forward_offsets s needle n k i firstb lastb
    end.

(** algorithms/strings.codon:225-231: candidates of one block, from the right *)
Definition backward_block (s needle : str) (k i mask : Z) : res (option Z) :=
  loop 17 (fun mask =>
    if mask =? 0 then Ok (inr None)
    else
      let bitpos := ctlz mask in
      e <- memcmp_eq s (i - (k - 1) - bitpos + 1) needle 1 (k - 2) ;;
      if (e : bool) then Ok (inr (Some (i - (k - 1) - bitpos)))
      else Ok (inl (Z.land mask (Z.lxor 65535 (Z.shiftl 1 (16 - 1 - bitpos)))))) mask.

(** algorithms/strings.codon:234-346: the unrolled rest *)
Fixpoint backward_tail (offs : list Z) (s needle : str) (k i firstb lastb : Z) : res Z :=
  match offs with
  | [] => Ok (-1)
  | o :: offs =>
      let j := i + o in
      if 0 <=? j - k + 1 then
        c <- get s j ;;
        hit <- (if lastb =? c then
                  d <- get s (j - k + 1) ;;
                  if firstb =? d then memcmp_eq s (j - k + 2) needle 1 (k - 2) else Ok false
                else Ok false) ;;
        if (hit : bool) then Ok (j - k + 1) else backward_tail offs s needle k i firstb lastb
      else Ok (-1)
  end.
(** The eleventh copy says [j = i + 10] (line 304) *)
Definition backward_offsets : list Z :=
  [0; -1; -2; -3; -4; -5; -6; -7; -8; -9; 10; -11; -12; -13; -14; -15].

(** algorithms/strings.codon:211-217: the last position of a byte *)
Fixpoint last_byte (n : nat) (s : str) (c i : Z) : res Z :=
  match n with
  | O => Ok (-1)
  | S n => if 0 <=? i then x <- get s i ;; if x =? c then Ok i else last_byte n s c (i - 1) else Ok (-1)
  end.

(** algorithms/strings.codon:204-348 [backward_find] *)
Definition backward_find (s needle : str) : res Z :=
  let n := len s in
  let k := len needle in
  if k =? 0 then Ok n
  else if n <? k then Ok (-1)
  else if k =? 1 then
    c <- get needle 0 ;; last_byte (length s) s c (n - 1)
  else
    firstb <- get needle 0 ;;
    lastb <- get needle (k - 1) ;;
    r <- loop (S (length s)) (fun i =>
           if 0 <=? i - (k - 1) - (16 - 1) then
             mask <- backward_mask s k i firstb lastb ;;
             r <- backward_block s needle k i mask ;;
             match r with Some p => Ok (inr (inl p)) | None => Ok (inl (i - 16)) end
           else Ok (inr (inr i))) (n - 1) ;;
    match r with
    | inl p => Ok p
    | inr i => backward_tail backward_offsets s needle k i firstb lastb
    end.

(** algorithms/strings.codon:356-371 [count] *)
Definition count_all (haystack needle : str) : res Z :=
  let n := len haystack in
  let k := len needle in
  if k =? 0 then Ok (n + 1)
  else
    loop (S (length haystack)) (fun '(tmp, occ) =>
      sl <- slice_ haystack tmp n ;;
      pos <- forward_find sl needle ;;
      if pos =? -1 then Ok (inr occ) else Ok (inl (tmp + (pos + k), occ + 1))) (0, 0).

(** algorithms/strings.codon:373-393 [count_with_max] *)
Definition count_with_max (haystack needle : str) (maxcount : Z) : res Z :=
  let n := len haystack in
  let k := len needle in
  if maxcount =? 0 then Ok 0
  else if k =? 0 then Ok (if n + 1 <? maxcount then n + 1 else maxcount)
  else
    loop (S (length haystack)) (fun '(tmp, occ) =>
      sl <- slice_ haystack tmp n ;;
      pos <- forward_find sl needle ;;
      if pos =? -1 then Ok (inr occ)
      else
        let occ := occ + 1 in
        if occ =? maxcount then Ok (inr occ) else Ok (inl (tmp + (pos + k), occ))) (0, 0).

(** internal/str.codon:824-839 [_correct_indices] *)
Definition correct_indices (n start end_ : Z) : Z * Z :=
  let end_ := if n <? end_ then n
              else if end_ <? 0 then
                let end_ := w64 (end_ + n) in if end_ <? 0 then 0 else end_
              else end_ in
  let start := if start <? 0 then
                 let start := w64 (start + n) in if start <? 0 then 0 else start
               else start in
  (start, end_).

Definition end_or (end_ : option Z) (n : Z) : Z := match end_ with Some e => e | None => n end.

(** internal/str.codon:473-495 [count], [find], [rfind] *)
Definition str_count (s sub : str) (start : Z) (end_ : option Z) : res Z :=
  let '(start, end_) := correct_indices (len s) start (end_or end_ (len s)) in
  if w64 (end_ - start) <? len sub then Ok 0
  else sl <- slice_ s start end_ ;; count_all sl sub.
Definition str_find (s sub : str) (start : Z) (end_ : option Z) : res Z :=
  let '(start, end_) := correct_indices (len s) start (end_or end_ (len s)) in
  if w64 (end_ - start) <? len sub then Ok (-1)
  else
    sl <- slice_ s start end_ ;;
    pos <- forward_find sl sub ;;
    Ok (if pos <? 0 then pos else pos + start).
Definition str_rfind (s sub : str) (start : Z) (end_ : option Z) : res Z :=
  let '(start, end_) := correct_indices (len s) start (end_or end_ (len s)) in
  if w64 (end_ - start) <? len sub then Ok (-1)
  else
    sl <- slice_ s start end_ ;;
    pos <- backward_find sl sub ;;
    Ok (if pos <? 0 then pos else pos + start).

(** internal/str.codon:133-134 [__contains__] *)
Definition str_contains (s pattern : str) : res bool :=
  p <- str_find s pattern 0 None ;; Ok (0 <=? p).

(** internal/str.codon:712-724 [index], [rindex] *)
Definition str_index (s sub : str) (start : Z) (end_ : option Z) : res Z :=
  i <- str_find s sub start end_ ;; if i =? -1 then Raise ValueError else Ok i.
Definition str_rindex (s sub : str) (start : Z) (end_ : option Z) : res Z :=
  i <- str_rfind s sub start end_ ;; if i =? -1 then Raise ValueError else Ok i.

(** internal/str.codon:663-684 [startswith] *)
Definition str_startswith (s prefix : str) (start : Z) (end_ : option Z) : res bool :=
  let end_ := end_or end_ (len s) in
  let '(start, end_) :=
    if end_ <? 0 then (start, w64 (end_ + len s))
    else if start <? 0 then (w64 (start + len s), end_) else (start, end_) in
  if len s <? w64 (start + len prefix) then Ok false
  else if w64 (end_ - start) <? len prefix then Ok false
  else if len prefix =? 0 then Ok true
  else sl <- slice_ s start (w64 (start + len prefix)) ;; Ok (str_eq prefix sl).

(** internal/str.codon:686-710 [endswith] *)
Definition str_endswith (s suffix : str) (start : Z) (end_ : option Z) : res bool :=
  let end_ := end_or end_ (len s) in
  let '(start, end_) :=
    if end_ <? 0 then (start, w64 (end_ + len s))
    else if start <? 0 then (w64 (start + len s), end_) else (start, end_) in
  let end_ := if len s <? end_ then len s else end_ in
  if (w64 (end_ - start) <? len suffix) || (len s <? start) then Ok false
  else
    let start := if start <? w64 (end_ - len suffix) then w64 (end_ - len suffix) else start in
    if w64 (end_ - start) <? len suffix then Ok false
    else if len suffix =? 0 then Ok true
    else sl <- slice_ s start (w64 (start + len suffix)) ;; Ok (str_eq suffix sl).

(** ** Splitting and joining *)

(** internal/str.codon:548-554 [partition]; 556-562 [rpartition] *)
Definition str_partition (s sep : str) : res (str * str * str) :=
  if len sep =? 0 then Raise ValueError
  else
    pos <- forward_find s sep ;;
    if pos <? 0 then Ok (s, [], [])
    else a <- slice_ s 0 pos ;; b <- slice_ s (pos + len sep) (len s) ;; Ok (a, sep, b).
Definition str_rpartition (s sep : str) : res (str * str * str) :=
  if len sep =? 0 then Raise ValueError
  else
    pos <- backward_find s sep ;;
    if pos <? 0 then Ok ([], [], s)
    else a <- slice_ s 0 pos ;; b <- slice_ s (pos + len sep) (len s) ;; Ok (a, sep, b).

(** isspace in the C locale *)
Definition isspace (c : Z) : bool := (c =? 32) || ((9 <=? c) && (c <=? 13)).

(** Scans to the right from [i] while [p] holds; stops at the end *)
Fixpoint scan (n : nat) (p : Z -> bool) (s : str) (i : Z) : res Z :=
  match n with
  | O => NoFuel
  | S n => if i <? len s then c <- get s i ;; if p c then scan n p s (i + 1) else Ok i else Ok i
  end.
(** Scans to the left from [i] while [p] holds; stops at -1 *)
Fixpoint rscan (n : nat) (p : Z -> bool) (s : str) (i : Z) : res Z :=
  match n with
  | O => NoFuel
  | S n => if 0 <=? i then c <- get s i ;; if p c then rscan n p s (i - 1) else Ok i else Ok i
  end.
Definition fuel (s : str) : nat := S (S (length s)).

(** internal/str.codon:841-865 [_split_whitespace] *)
Definition split_whitespace (s : str) (maxcount : Z) : res (list str) :=
  let n := len s in
  ' (i, l) <- loop (fuel s) (fun '(maxcount, i, l) =>
      if 0 <? maxcount then
        i <- scan (fuel s) isspace s i ;;
        if i =? n then Ok (inr (i, l))
        else
          let j := i in
          i <- scan (fuel s) (fun c => negb (isspace c)) s (i + 1) ;;
          w <- slice_ s j i ;;
          Ok (inl (maxcount - 1, i, l ++ [w]))
      else Ok (inr (i, l))) (maxcount, 0, []) ;;
  if i <? n then
    i <- scan (fuel s) isspace s i ;;
    if negb (i =? n) then w <- slice_ s i n ;; Ok (l ++ [w]) else Ok l
  else Ok l.

(** internal/str.codon:867-893 [_rsplit_whitespace] *)
Definition rsplit_whitespace (s : str) (maxcount : Z) : res (list str) :=
  let n := len s in
  ' (i, l) <- loop (fuel s) (fun '(maxcount, i, l) =>
      if 0 <? maxcount then
        i <- rscan (fuel s) isspace s i ;;
        if i <? 0 then Ok (inr (i, l))
        else
          let j := i in
          i <- rscan (fuel s) (fun c => negb (isspace c)) s (i - 1) ;;
          w <- slice_ s (i + 1) (j + 1) ;;
          Ok (inl (maxcount - 1, i, l ++ [w]))
      else Ok (inr (i, l))) (maxcount, n - 1, []) ;;
  l <- (if 0 <=? i then
          i <- rscan (fuel s) isspace s i ;;
          if 0 <=? i then w <- slice_ s 0 (i + 1) ;; Ok (l ++ [w]) else Ok l
        else Ok l) ;;
  Ok (rev l).

(** internal/str.codon:895-911 [_split_char] *)
Definition split_char (s : str) (char maxcount : Z) : res (list str) :=
  let n := len s in
  ' (j, l) <- loop (fuel s) (fun '(maxcount, i, j, l) =>
      if (i <? n) && (0 <? maxcount) then
        c <- get s i ;;
        if c =? char then
          w <- slice_ s j i ;; Ok (inl (maxcount - 1, i + 1, i + 1, l ++ [w]))
        else Ok (inl (maxcount, i + 1, j, l))
      else Ok (inr (j, l))) (maxcount, 0, 0, []) ;;
  w <- slice_ s j n ;;
  Ok (l ++ [w]).

(** internal/str.codon:913-931 [_rsplit_char] *)
Definition rsplit_char (s : str) (char maxcount : Z) : res (list str) :=
  let n := len s in
  ' (j, l) <- loop (fuel s) (fun '(maxcount, i, j, l) =>
      if (0 <=? i) && (0 <? maxcount) then
        c <- get s i ;;
        if c =? char then
          w <- slice_ s (i + 1) (j + 1) ;; Ok (inl (maxcount - 1, i - 1, i - 1, l ++ [w]))
        else Ok (inl (maxcount, i - 1, j, l))
      else Ok (inr (j, l))) (maxcount, n - 1, n - 1, []) ;;
  w <- slice_ s 0 (j + 1) ;;
  Ok (rev (l ++ [w])).

Definition max_or (maxsplit : Z) : Z := if 0 <=? maxsplit then maxsplit else MAX.

(** internal/str.codon:564-596 [split] *)
Definition str_split (s : str) (sep : option str) (maxsplit : Z) : res (list str) :=
  match sep with
  | None => split_whitespace s (max_or maxsplit)
  | Some sep =>
      if len sep =? 0 then Raise ValueError
      else if len sep =? 1 then c <- get sep 0 ;; split_char s c (max_or maxsplit)
      else
        let n := len s in
        ' (i, v) <- loop (fuel s) (fun '(maxsplit, i, v) =>
            if 0 <? maxsplit then
              sl <- slice_ s i n ;;
              pos <- forward_find sl sep ;;
              if pos <? 0 then Ok (inr (i, v))
              else
                let j := i + pos in
                w <- slice_ s i j ;;
                Ok (inl (maxsplit - 1, j + len sep, v ++ [w]))
            else Ok (inr (i, v))) (max_or maxsplit, 0, []) ;;
        w <- slice_ s i n ;;
        Ok (v ++ [w])
  end.

(** internal/str.codon:598-630 [rsplit] *)
Definition str_rsplit (s : str) (sep : option str) (maxsplit : Z) : res (list str) :=
  match sep with
  | None => rsplit_whitespace s (max_or maxsplit)
  | Some sep =>
      if len sep =? 0 then Raise ValueError
      else if len sep =? 1 then c <- get sep 0 ;; rsplit_char s c (max_or maxsplit)
      else
        ' (j, v) <- loop (fuel s) (fun '(maxsplit, j, v) =>
            if 0 <? maxsplit then
              sl <- slice_ s 0 j ;;
              pos <- backward_find sl sep ;;
              if pos <? 0 then Ok (inr (j, v))
              else
                w <- slice_ s (pos + len sep) j ;;
                Ok (inl (maxsplit - 1, pos, v ++ [w]))
            else Ok (inr (j, v))) (max_or maxsplit, len s, []) ;;
        w <- slice_ s 0 j ;;
        Ok (rev (v ++ [w]))
  end.

(** internal/str.codon:632-661 [splitlines] *)
Definition is_break (c : Z) : bool := (c =? 13) || (c =? 10).
Definition str_splitlines (s : str) (keepends : bool) : res (list str) :=
  let n := len s in
  loop (fuel s) (fun '(i, j, v) =>
    if i <? n then
      i <- scan (fuel s) (fun c => negb (is_break c)) s i ;;
      ' (i, eol) <-
        (if i <? n then
           c <- get s i ;;
           i' <- (if (c =? 13) && (i + 1 <? n) then
                    d <- get s (i + 1) ;; Ok (if d =? 10 then i + 2 else i + 1)
                  else Ok (i + 1)) ;;
           Ok (i', if keepends then i' else i)
         else Ok (i, i)) ;;
      if (j =? 0) && (eol =? n) then Ok (inr (v ++ [s]))
      else w <- slice_ s j eol ;; Ok (inl (i, i, v ++ [w]))
    else Ok (inr v)) (0, 0, []).

(** types/str.codon:114-130 [cat] of a list *)
Fixpoint put_list (cap : Z) (out : str) (l : list str) : res str :=
  match l with [] => Ok out | s :: l => out <- put cap out s ;; put_list cap out l end.
Definition total (l : list str) : Z := fold_right (fun s n => len s + n) 0 l.
Definition str_cat (l : list str) : res str :=
  _ <- alloc (total l) ;; out <- put_list (total l) [] l ;; full (total l) out.

(** internal/str.codon:183-210 [join] of a list: two passes over the list *)
Fixpoint join_len (sep : str) (l : list str) : Z :=
  match l with
  | [] => 0
  | s :: l => len s + (match l with [] => 0 | _ => len sep end) + join_len sep l
  end.
Fixpoint put_join (cap : Z) (sep out : str) (l : list str) : res str :=
  match l with
  | [] => Ok out
  | s :: l =>
      out <- put cap out s ;;
      out <- (match l with [] => Ok out | _ => put cap out sep end) ;;
      put_join cap sep out l
  end.
Definition str_join (sep : str) (l : list str) : res str :=
  match l with
  | [] => Ok []
  | [s] => Ok s
  | _ =>
      if len sep =? 0 then str_cat l
      else
        let n := join_len sep l in
        _ <- alloc n ;;
        out <- put_join n sep [] l ;;
        full n out
  end.

(** types/strbuf.codon:8-25 [strbuf]: bytes, and the capacity [m]; doubling takes at most 64
    steps *)
Record strbuf := SB { sb_data : str; sb_m : Z }.
Fixpoint grow (n : nat) (m needed : Z) : res Z :=
  match n with O => NoFuel | S n => if m <? needed then grow n (m * 2) needed else Ok m end.
Definition sb_append (b : strbuf) (s : str) : res strbuf :=
  let needed := len (sb_data b) + len s in
  m <- (if sb_m b <? needed then grow 64 (sb_m b) needed else Ok (sb_m b)) ;;
  data <- put m (sb_data b) s ;;
  Ok (SB data m).

(** internal/str.codon:168-181 [join] of a generator *)
Fixpoint sb_join (b : strbuf) (sep : option str) (first : bool) (l : list str) : res strbuf :=
  match l with
  | [] => Ok b
  | a :: l =>
      b <- (match sep with Some sep => if first then Ok b else sb_append b sep | None => Ok b end) ;;
      b <- sb_append b a ;;
      sb_join b sep false l
  end.
Definition str_join_gen (sep : str) (l : list str) : res str :=
  b <- sb_join (SB [] 16) (if len sep =? 0 then None else Some sep) true l ;; Ok (sb_data b).

(** ** Stripping and padding *)

(** internal/str.codon:523-531 [_has_char] of a one-byte string *)
Definition has_char (chars : str) (c : Z) : bool :=
  match chars with [] => isspace c | _ => existsb (fun d => c =? d) chars end.
(** internal/str.codon:533-546 [lstrip], [rstrip], [strip] *)
Definition str_lstrip (s chars : str) : res str :=
  i <- scan (fuel s) (has_char chars) s 0 ;; slice_ s i (len s).
Definition str_rstrip (s chars : str) : res str :=
  i <- rscan (fuel s) (has_char chars) s (len s - 1) ;; slice_ s 0 (i + 1).
Definition str_strip (s chars : str) : res str :=
  t <- str_lstrip s chars ;; str_rstrip t chars.

(** internal/str.codon:408-428 [_build] of a padding, a text and a padding *)
Definition build (left : Z) (fillchar s : str) (right : Z) : res str :=
  let total := w64 (w64 (len fillchar * left + len s) + len fillchar * right) in
  _ <- alloc total ;;
  p <- put_times (Z.to_nat left) total [] fillchar ;;
  p <- put total p s ;;
  p <- put_times (Z.to_nat right) total p fillchar ;;
  full total p.
(** internal/str.codon:430-453 [ljust], [rjust], [center] *)
Definition str_ljust (s : str) (width : Z) (fillchar : str) : res str :=
  if negb (len fillchar =? 1) then Raise ValueError
  else if width <=? len s then Ok s else build 0 fillchar s (width - len s).
Definition str_rjust (s : str) (width : Z) (fillchar : str) : res str :=
  if negb (len fillchar =? 1) then Raise ValueError
  else if width <=? len s then Ok s else build (width - len s) fillchar s 0.
Definition str_center (s : str) (width : Z) (fillchar : str) : res str :=
  if negb (len fillchar =? 1) then Raise ValueError
  else if width <=? len s then Ok s
  else
    let pad := width - len s in
    let left_pad := Z.quot pad 2 in
    let right_pad := width - len s - left_pad in
    build left_pad fillchar s right_pad.

(** [p[i] = c] *)
Definition set (s : str) (i c : Z) : res str :=
  if (0 <=? i) && (i <? len s) then
    Ok (firstn (Z.to_nat i) s ++ c :: skipn (S (Z.to_nat i)) s) else Undef.
(** internal/str.codon:455-471 [zfill] *)
Definition str_zfill (s : str) (width : Z) : res str :=
  if width <=? len s then Ok s
  else
    zf <- str_rjust s width [48] ;;
    let fill := width - len s in
    if 0 <? len s then
      c <- get zf fill ;;
      if (c =? 43) || (c =? 45) then zf <- set zf 0 c ;; set zf fill 48 else Ok zf
    else Ok zf.

(** internal/str.codon:729-790 [expandtabs]: the first pass computes the length, the second
    one writes *)
Fixpoint tab_len (s : str) (tabsize i j : Z) : res Z :=
  match s with
  | [] => if MAX - j <? i then Raise OverflowError else Ok (i + j)
  | c :: s =>
      if c =? 9 then
        if 0 <? tabsize then
          let incr := tabsize - Z.rem j tabsize in
          if MAX - incr <? j then Raise OverflowError else tab_len s tabsize i (j + incr)
        else tab_len s tabsize i j
      else if MAX - 1 <? j then Raise OverflowError
      else
        let j := j + 1 in
        if is_break c then
          if MAX - j <? i then Raise OverflowError else tab_len s tabsize (i + j) 0
        else tab_len s tabsize i j
  end.
Fixpoint tab_put (s : str) (tabsize j cap : Z) (out : str) : res str :=
  match s with
  | [] => Ok out
  | c :: s =>
      if c =? 9 then
        if 0 <? tabsize then
          let i := tabsize - Z.rem j tabsize in
          out <- put_times (Z.to_nat i) cap out [32] ;; tab_put s tabsize (j + i) cap out
        else tab_put s tabsize j cap out
      else
        out <- put cap out [c] ;;
        tab_put s tabsize (if is_break c then 0 else j + 1) cap out
  end.
Definition str_expandtabs (s : str) (tabsize : Z) : res str :=
  n <- tab_len s tabsize 0 0 ;;
  _ <- alloc n ;;
  out <- tab_put s tabsize 0 n [] ;;
  full n out.

(** internal/str.codon:792-819 [translate]: [map c] is [None] for a byte that is not a key,
    [Some None] for one that is deleted *)
Fixpoint translate_len (map : Z -> option (option str)) (s : str) : Z :=
  match s with
  | [] => 0
  | c :: s => (match map c with Some (Some v) => len v | Some None => 0 | None => 1 end)
              + translate_len map s
  end.
Fixpoint translate_put (map : Z -> option (option str)) (s : str) (cap : Z) (out : str) : res str :=
  match s with
  | [] => Ok out
  | c :: s =>
      out <- (match map c with Some (Some v) => put cap out v | Some None => Ok out
              | None => put cap out [c] end) ;;
      translate_put map s cap out
  end.
Definition str_translate (s : str) (map : Z -> option (option str)) : res str :=
  let m := translate_len map s in
  _ <- alloc m ;; out <- translate_put map s m [] ;; full m out.

(** ** Replacing *)

(** internal/str.codon:933-949 [_findchar], [_countchar] *)
Definition countchar (s : str) (c maxcount : Z) : res Z :=
  let n := len s in
  loop (fuel s) (fun '(start, count) =>
    sl <- slice_ s start n ;;
    match memchr c sl with
    | None => Ok (inr count)
    | Some p =>
        let count := count + 1 in
        if maxcount <=? count then Ok (inr count) else Ok (inl (start + p + 1, count))
    end) (0, 0).

(** internal/str.codon:951-998 [_replace_interleave]; the two copies of the loop differ in how
    they copy [to] *)
Fixpoint interleave (n : nat) (s to : str) (i cap : Z) (out : str) : res (Z * str) :=
  match n with
  | O => Ok (i, out)
  | S n =>
      c <- get s i ;;
      out <- put cap out [c] ;;
      out <- put cap out to ;;
      interleave n s to (i + 1) cap out
  end.
Definition replace_interleave (s to : str) (maxcount : Z) : res str :=
  let count := if maxcount <=? len s then maxcount else len s + 1 in
  q <- sdiv (MAX - len s) count ;;
  if q <? len to then Raise OverflowError
  else
    let result_len := w64 (w64 (count * len to) + len s) in
    _ <- alloc result_len ;;
    out <- put result_len [] to ;;
    ' (i, out) <- interleave (Z.to_nat (count - 1)) s to 0 result_len out ;;
    rest <- slice_ s i (len s) ;;
    out <- put result_len out rest ;;
    full result_len out.

(** internal/str.codon:1000-1025 [_replace_delete_single_character] *)
Definition replace_delete_char (s : str) (from_c maxcount : Z) : res str :=
  count <- countchar s from_c maxcount ;;
  if count =? 0 then Ok s
  else
    let n := len s in
    let result_len := n - count in
    _ <- alloc result_len ;;
    ' (start, out) <- loop (fuel s) (fun '(count, start, out) =>
        if 0 <? count then
          sl <- slice_ s start n ;;
          match memchr from_c sl with
          | None => Ok (inr (start, out))
          | Some p =>
              w <- slice_ s start (start + p) ;;
              out <- put result_len out w ;;
              Ok (inl (count - 1, start + p + 1, out))
          end
        else Ok (inr (start, out))) (count, 0, []) ;;
    rest <- slice_ s start n ;;
    out <- put result_len out rest ;;
    full result_len out.

(** internal/str.codon:1027-1054 [_replace_delete_substring] *)
Definition replace_delete_substring (s from_s : str) (maxcount : Z) : res str :=
  count <- count_with_max s from_s maxcount ;;
  if count =? 0 then Ok s
  else
    let n := len s in
    let result_len := n - count * len from_s in
    _ <- alloc result_len ;;
    ' (start, out) <- loop (fuel s) (fun '(count, start, out) =>
        if 0 <? count then
          sl <- slice_ s start n ;;
          offset <- forward_find sl from_s ;;
          if offset =? -1 then Ok (inr (start, out))
          else
            w <- slice_ s start (start + offset) ;;
            out <- put result_len out w ;;
            Ok (inl (count - 1, start + offset + len from_s, out))
        else Ok (inr (start, out))) (count, 0, []) ;;
    rest <- slice_ s start n ;;
    out <- put result_len out rest ;;
    full result_len out.

(** [str.memcpy(buf + i, src, len(src))] into an existing string *)
Definition overwrite (buf : str) (i : Z) (src : str) : res str :=
  if (0 <=? i) && (i + len src <=? len buf) then
    Ok (firstn (Z.to_nat i) buf ++ src ++ skipn (Z.to_nat i + length src) buf)
  else Undef.

(** internal/str.codon:1056-1081 [_replace_single_character_in_place]: [start] is an offset in
    the copy *)
Definition replace_char_in_place (s : str) (from_c to_c maxcount : Z) : res str :=
  match memchr from_c s with
  | None => Ok s
  | Some p =>
      let n := len s in
      buf <- overwrite s p [to_c] ;;
      loop (fuel s) (fun '(maxcount, start, buf) =>
        if 0 <? maxcount then
          sl <- slice_ buf start n ;;
          match memchr from_c sl with
          | None => Ok (inr buf)
          | Some p =>
              buf <- overwrite buf (start + p) [to_c] ;;
              Ok (inl (maxcount - 1, start + p + 1, buf))
          end
        else Ok (inr buf)) (maxcount - 1, p + 1, buf)
  end.

(** internal/str.codon:1083-1110 [_replace_substring_in_place]; [memcpy(start, to_s, from_len)]
    copies [from_len] bytes, and both texts have this length *)
Definition replace_substring_in_place (s from_s to : str) (maxcount : Z) : res str :=
  offset <- forward_find s from_s ;;
  if offset =? -1 then Ok s
  else
    let n := len s in
    src <- slice_ to 0 (len from_s) ;;
    buf <- overwrite s offset src ;;
    loop (fuel s) (fun '(maxcount, start, buf) =>
      if 0 <? maxcount then
        sl <- slice_ buf start n ;;
        offset <- forward_find sl from_s ;;
        if offset =? -1 then Ok (inr buf)
        else
          buf <- overwrite buf (start + offset) src ;;
          Ok (inl (maxcount - 1, start + (offset + len from_s), buf))
      else Ok (inr buf)) (maxcount - 1, offset + len from_s, buf).

(** internal/str.codon:1112-1149 [_replace_single_character] *)
Definition replace_char (s : str) (from_c : Z) (to_s : str) (maxcount : Z) : res str :=
  count <- countchar s from_c maxcount ;;
  if count =? 0 then Ok s
  else
    let n := len s in
    q <- sdiv (MAX - n) count ;;
    if q <? len to_s - 1 then Raise OverflowError
    else
      let result_len := n + count * (len to_s - 1) in
      _ <- alloc result_len ;;
      ' (start, out) <- loop (fuel s) (fun '(count, start, out) =>
          if 0 <? count then
            sl <- slice_ s start n ;;
            match memchr from_c sl with
            | None => Ok (inr (start, out))
            | Some p =>
                if p =? 0 then
                  out <- put result_len out to_s ;; Ok (inl (count - 1, start + 1, out))
                else
                  w <- slice_ s start (start + p) ;;
                  out <- put result_len out w ;;
                  out <- put result_len out to_s ;;
                  Ok (inl (count - 1, start + p + 1, out))
            end
          else Ok (inr (start, out))) (count, 0, []) ;;
      rest <- slice_ s start n ;;
      out <- put result_len out rest ;;
      full result_len out.

(** internal/str.codon:1151-1190 [_replace_substring] *)
Definition replace_substring (s from_s to_s : str) (maxcount : Z) : res str :=
  count <- count_with_max s from_s maxcount ;;
  if count =? 0 then Ok s
  else
    let n := len s in
    q <- sdiv (MAX - n) count ;;
    if q <? len to_s - len from_s then Raise OverflowError
    else
      let result_len := n + count * (len to_s - len from_s) in
      _ <- alloc result_len ;;
      ' (start, out) <- loop (fuel s) (fun '(count, start, out) =>
          if 0 <? count then
            sl <- slice_ s start n ;;
            offset <- forward_find sl from_s ;;
            if offset =? -1 then Ok (inr (start, out))
            else if offset =? 0 then
              out <- put result_len out to_s ;; Ok (inl (count - 1, start + len from_s, out))
            else
              w <- slice_ s start (start + offset) ;;
              out <- put result_len out w ;;
              out <- put result_len out to_s ;;
              Ok (inl (count - 1, start + offset + len from_s, out))
          else Ok (inr (start, out))) (count, 0, []) ;;
      rest <- slice_ s start n ;;
      out <- put result_len out rest ;;
      full result_len out.

(** internal/str.codon:726-727, 1192-1223 [replace], [_replace] *)
Definition str_replace (s from_s to_s : str) (maxcount : Z) : res str :=
  if len s <? len from_s then Ok s
  else if maxcount =? 0 then Ok s
  else
    let maxcount := if maxcount <? 0 then MAX else maxcount in
    if len from_s =? 0 then
      if len to_s =? 0 then Ok s else replace_interleave s to_s maxcount
    else if len to_s =? 0 then
      if len from_s =? 1 then c <- get from_s 0 ;; replace_delete_char s c maxcount
      else replace_delete_substring s from_s maxcount
    else if len from_s =? len to_s then
      if len from_s =? 1 then
        c <- get from_s 0 ;; d <- get to_s 0 ;; replace_char_in_place s c d maxcount
      else replace_substring_in_place s from_s to_s maxcount
    else if len from_s =? 1 then c <- get from_s 0 ;; replace_char s c to_s maxcount
    else replace_substring s from_s to_s maxcount.

(** ** [repr] *)

(** internal/str.codon:30-69 [__repr__]: the text inside the quotes, and the quotes *)
Definition hexdigit (d : Z) : Z := if d <? 10 then 48 + d else 87 + d.
Definition repr_byte (q c : Z) : str :=
  if c =? 10 then [92; 110]
  else if c =? 13 then [92; 114]
  else if c =? 9 then [92; 116]
  else if c =? 92 then [92; 92]
  else if c =? q then [92; q]
  else if negb ((32 <=? c) && (c <=? 126)) then [92; 120; hexdigit (c / 16); hexdigit (c mod 16)]
  else [c].
Definition quote_of (s : str) : Z :=
  if existsb (fun c => c =? 39) s && negb (existsb (fun c => c =? 34) s) then 34 else 39.
Definition str_repr (s : str) : str :=
  let q := quote_of s in [q] ++ flat_map (repr_byte q) s ++ [q].
