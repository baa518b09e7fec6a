(** Model of stdlib/heapq.codon and stdlib/bisect.codon.

    Lists are sequences with element access; [aget]/[aset] outside the list are [Undef], so
    the theorems also say that every index used is in range (the code would raise
    IndexError there).  [append], [pop] and [insert] on the underlying list are their
    sequence meaning, which C05 proves of the list implementation. *)
From Coq Require Import List ZArith Bool.
From Verif.Common Require Import Result Int64 Arr.
From Verif.Sort Require Import Model QModel TModel Dispatch.
Import ListNotations.
Local Open Scope Z_scope.
Local Open Scope res_scope.

Section Heap.
Context {A : Type} (lt : A -> A -> bool).

(** heapq.codon:10-17, the loop of [_siftdown]; state (heap, pos) *)
Definition siftdown_body (startpos : Z) (newitem : A) (s : list A * Z) : res (list A * Z + list A * Z) :=
  let '(h, pos) := s in
  if startpos <? pos then
    let parentpos := Z.shiftr (pos - 1) 1 in
    parent <- aget h parentpos ;;
    if lt newitem parent then h <- aset h pos parent ;; Ok (inl (h, parentpos))
    else Ok (inr (h, pos))
  else Ok (inr (h, pos)).
(** heapq.codon:6-18 [_siftdown] *)
Definition siftdown (h : list A) (startpos pos : Z) : res (list A) :=
  newitem <- aget h pos ;;
  '(h, pos) <- loop (S (Z.to_nat pos)) (siftdown_body startpos newitem) (h, pos) ;;
  aset h pos newitem.

(** heapq.codon:26-34, the loop of [_siftup]; state (heap, pos, childpos) *)
Definition siftup_body (endpos : Z) (s : list A * Z * Z) : res (list A * Z * Z + list A * Z) :=
  let '(h, pos, childpos) := s in
  if childpos <? endpos then
    let rightpos := childpos + 1 in
    right <- (if rightpos <? endpos then
                l <- aget h childpos ;; r <- aget h rightpos ;; Ok (negb (lt l r))
              else Ok false) ;;
    let childpos := if right : bool then rightpos else childpos in
    c <- aget h childpos ;;
    h <- aset h pos c ;;
    Ok (inl (h, childpos, 2 * childpos + 1))
  else Ok (inr (h, pos)).
(** heapq.codon:20-38 [_siftup] *)
Definition siftup (h : list A) (pos : Z) : res (list A) :=
  let endpos := zlen h in
  newitem <- aget h pos ;;
  '(h, leaf) <- loop (S (Z.to_nat endpos)) (siftup_body endpos) (h, pos, 2 * pos + 1) ;;
  h <- aset h leaf newitem ;;
  siftdown h pos leaf.

(** heapq.codon:76-78 [heappush] *)
Definition heappush (h : list A) (x : A) : res (list A) :=
  let h := h ++ [x] in siftdown h 0 (zlen h - 1).

(** heapq.codon:80-87 [heappop] *)
Definition heappop (h : list A) : res (A * list A) :=
  if zlen h =? 0 then Raise IndexError
  else
    lastelt <- aget h (zlen h - 1) ;;
    let h := removelast h in
    if negb (zlen h =? 0) then
      returnitem <- aget h 0 ;;
      h <- aset h 0 lastelt ;;
      h <- siftup h 0 ;;
      Ok (returnitem, h)
    else Ok (lastelt, h).

(** heapq.codon:89-93 [heapreplace] *)
Definition heapreplace (h : list A) (x : A) : res (A * list A) :=
  if zlen h =? 0 then Raise IndexError
  else
    returnitem <- aget h 0 ;;
    h <- aset h 0 x ;;
    h <- siftup h 0 ;;
    Ok (returnitem, h).

(** heapq.codon:95-99 [heappushpop] *)
Definition heappushpop (h : list A) (x : A) : res (A * list A) :=
  if negb (zlen h =? 0) then
    r <- aget h 0 ;;
    if lt r x then
      h <- aset h 0 x ;; h <- siftup h 0 ;; Ok (r, h)
    else Ok (x, h)
  else Ok (x, h).

(** heapq.codon:108-109: the loop of [heapify], over [reversed(range(n // 2))] *)
Fixpoint heapify_loop (n : nat) (h : list A) : res (list A) :=
  match n with
  | O => Ok h
  | S n => h <- siftup h (Z.of_nat n) ;; heapify_loop n h
  end.
(** heapq.codon:101-109 [heapify] *)
Definition heapify (h : list A) : res (list A) := heapify_loop (Z.to_nat (zlen h / 2)) h.

End Heap.

(** heapq.codon:40-53, 55-74, 111-118, 120-124, 126-129: the [_max] variants are the same
    text with the arguments of each comparison exchanged. *)
Section Max.
Context {A : Type} (lt : A -> A -> bool).
Definition flip : A -> A -> bool := fun x y => lt y x.
Definition siftdown_max := siftdown flip.
Definition siftup_max := siftup flip.
Definition heappop_max := heappop flip.
Definition heapreplace_max := heapreplace flip.
Definition heapify_max := heapify flip.
End Max.

(** ** nsmallest and nlargest *)

(** internal/internal.codon:109-116, [<] on the pairs (a, i) and the triples (k, i, a) *)
Definition lt2 {K} (lt eq : K -> K -> bool) (a b : K * Z) : bool :=
  if lt (fst a) (fst b) then true
  else if negb (eq (fst a) (fst b)) then false
  else if snd a <? snd b then true
  else if negb (snd a =? snd b) then false
  else false.
(** internal/internal.codon:139-146, [>=] on pairs *)
Definition ge2 {K} (lt eq : K -> K -> bool) (a b : K * Z) : bool :=
  if lt (fst b) (fst a) then true
  else if negb (eq (fst a) (fst b)) then false
  else if snd b <? snd a then true
  else if negb (snd a =? snd b) then false
  else true.
Definition lt3 {K T} (lt eq : K -> K -> bool) (ltT eqT : T -> T -> bool) (a b : K * Z * T) : bool :=
  let '(ka, ia, xa) := a in let '(kb, ib, xb) := b in
  if lt ka kb then true
  else if negb (eq ka kb) then false
  else if ia <? ib then true
  else if negb (ia =? ib) then false
  else if ltT xa xb then true
  else if negb (eqT xa xb) then false
  else false.
Definition ge3 {K T} (lt eq : K -> K -> bool) (ltT eqT : T -> T -> bool) (a b : K * Z * T) : bool :=
  let '(ka, ia, xa) := a in let '(kb, ib, xb) := b in
  if lt kb ka then true
  else if negb (eq ka kb) then false
  else if ib <? ia then true
  else if negb (ia =? ib) then false
  else if ltT xb xa then true
  else if negb (eqT xa xb) then false
  else true.

Section NBest.
(** Entries [E] built from an item and its order; the key of an item and of an entry. *)
Context {T K E : Type} (mk : T -> Z -> E) (key : T -> K) (ekey : E -> K) (elem : E -> T).
Context (better : K -> K -> bool).           (* [elem < top] or [top < elem] *)
Context (hlt : E -> E -> bool).              (* the order of the heap *)
Context (srt : list E -> res (list E)).      (* the final sort *)

(** heapq.codon:152-156 / 178-183: at most [n] items into [result]; returns the rest *)
Fixpoint fill (n : nat) (i step : Z) (it : list T) : list E * list T :=
  match n, it with
  | S n, x :: it => let '(r, rest) := fill n (i + step) step it in (mk x i :: r, rest)
  | _, _ => ([], it)
  end.
(** heapq.codon:164-168 / 191-196: the remaining items *)
Fixpoint drain (h : list E) (top : K) (order step : Z) (it : list T) : res (list E) :=
  match it with
  | [] => Ok h
  | x :: it =>
      if better (key x) top then
        '(_, h) <- heapreplace hlt h (mk x order) ;;
        e <- aget h 0 ;;
        drain h (ekey e) (order + step) step it
      else drain h top order step it
  end.
(** heapq.codon:146-172, 173-200 (and 217-241, 242-268): both branches of nsmallest/nlargest;
    [step] is 1 or -1 *)
Definition nbest (n step : Z) (it : list T) : res (list E) :=
  let '(result, rest) := fill (Z.to_nat n) 0 step it in
  match result with
  | [] => Ok []
  | _ =>
      h <- heapify hlt result ;;
      e <- aget h 0 ;;
      h <- drain h (ekey e) (n * step) step rest ;;
      srt h
  end.
End NBest.

(** heapq.codon:132-143 and 203-214: [n == 1] *)
Fixpoint first_best {T} (better : T -> T -> bool) (v : list T) (it : list T) : list T :=
  match it with
  | [] => v
  | a :: it => first_best better (match v with [] => [a] | b :: _ => if better a b then [a] else v end) it
  end.

Section NSmallest.
Context {T : Type} (lt eq : T -> T -> bool).
Notation E := (T * Z)%type.
Definition eq2 (a b : E) : bool := eq (fst a) (fst b) && (snd a =? snd b).

(** [result.sort()] (sort.codon:60-85); tuples are not pdq compatible unless their elements are *)
Definition sort2e (compat : bool) (l : list E) : res (list E) :=
  list_sort (lt2 lt eq) (ge2 lt eq) eq2 Auto false compat false l (zlen l).

(** heapq.codon:131-172 [nsmallest] without key *)
Definition nsmallest (compat : bool) (n : Z) (it : list T) : res (list T) :=
  if n =? 1 then Ok (first_best lt [] it)
  else
    r <- nbest pair (fun x => x) fst lt (flip (lt2 lt eq)) (sort2e compat) n 1 it ;;
    Ok (map fst r).
(** heapq.codon:202-241 [nlargest] without key *)
Definition nlargest (compat : bool) (n : Z) (it : list T) : res (list T) :=
  if n =? 1 then Ok (first_best (fun a b => lt b a) [] it)
  else
    r <- nbest pair (fun x => x) fst (fun k top => lt top k) (lt2 lt eq) (sort2e compat) n (-1) it ;;
    Ok (map fst (rev r)).
End NSmallest.

Section NSmallestKey.
Context {T K : Type} (key : T -> K) (lt eq : K -> K -> bool) (ltT eqT : T -> T -> bool).
Notation E := (K * Z * T)%type.
Definition mk3 (x : T) (i : Z) : E := (key x, i, x).
Definition ekey3 (e : E) : K := fst (fst e).
Definition eq3 (a b : E) : bool := eq (fst (fst a)) (fst (fst b)) && (snd (fst a) =? snd (fst b)) && eqT (snd a) (snd b).
Definition sort3e (compat : bool) (l : list E) : res (list E) :=
  list_sort (lt3 lt eq ltT eqT) (ge3 lt eq ltT eqT) eq3 Auto false compat false l (zlen l).

(** heapq.codon:131-143, 173-200 [nsmallest] with a key *)
Definition nsmallest_key (compat : bool) (n : Z) (it : list T) : res (list T) :=
  if n =? 1 then Ok (first_best (fun a b => lt (key a) (key b)) [] it)
  else
    r <- nbest mk3 key ekey3 lt (flip (lt3 lt eq ltT eqT)) (sort3e compat) n 1 it ;;
    Ok (map snd r).
(** heapq.codon:202-214, 242-268 [nlargest] with a key *)
Definition nlargest_key (compat : bool) (n : Z) (it : list T) : res (list T) :=
  if n =? 1 then Ok (first_best (fun a b => lt (key b) (key a)) [] it)
  else
    r <- nbest mk3 key ekey3 (fun k top => lt top k) (lt3 lt eq ltT eqT) (sort3e compat) n (-1) it ;;
    Ok (map snd (rev r)).
End NSmallestKey.

(** ** merge *)
Section Merge.
Context {T : Type} (lt eq : T -> T -> bool).

(** heapq.codon:270-287 [_MergeItem]: the current value, its order and what the generator
    still has to give; the comparison of lines 291-300.  With a key the triples
    (key(value), order, value) are compared; orders are distinct, so value never decides and
    [lt]/[eq] stand for the comparison of keys. *)
Record item := MI { value : T; order : Z; gen : list T }.
Definition lt_item (a b : item) : bool := lt2 lt eq (value a, order a) (value b, order b).

(** heapq.codon:304-309; [dir] is [direction] *)
Fixpoint start (dir order : Z) (its : list (list T)) : list item :=
  match its with
  | [] => []
  | [] :: its => start dir (order + 1) its
  | (x :: g) :: its => MI x (order * dir) g :: start dir (order + 1) its
  end.

(** heapq.codon:311-319: each step yields one value; [hlt] is the order of the heap functions
    picked by [reverse] *)
Fixpoint merge_loop (hlt : item -> item -> bool) (fuel : nat) (items : list item) : res (list T) :=
  match fuel with
  | O => NoFuel
  | S fuel =>
      if 1 <? zlen items then
        it <- aget items 0 ;;
        items <- match gen it with
                 | [] => '(_, h) <- heappop hlt items ;; Ok h
                 | x :: g => '(_, h) <- heapreplace hlt items (MI x (order it) g) ;; Ok h
                 end ;;
        out <- merge_loop hlt fuel items ;;
        Ok (value it :: out)
      else match items with
           | [] => Ok []
           | it :: _ => Ok (value it :: gen it)
           end
  end.
(** heapq.codon:289-324 [merge], run to the end *)
Definition merge (reverse : bool) (its : list (list T)) : res (list T) :=
  let dir := if reverse then -1 else 1 in
  let hlt := if reverse then flip lt_item else lt_item in
  items <- heapify hlt (start dir 0 its) ;;
  merge_loop hlt (S (length (concat its))) items.
End Merge.

(** ** bisect.codon *)
Section Bisect.
Context {A X : Type}.

(** The loops of bisect.codon:8-14 and 22-28; [mid + 1] of a right step, [mid] of a left step.
    [lo + hi] is taken modulo 2^64; [//] floors (int.codon:153-163). *)
Definition bisect_body (go_right : A -> bool) (a : list A) (s : Z * Z) : res (Z * Z + Z) :=
  let '(lo, hi) := s in
  if lo <? hi then
    let mid := w64 (lo + hi) / 2 in
    y <- (if (mid <? - zlen a) || (zlen a <=? mid) then Raise IndexError
          else aget a (if mid <? 0 then mid + zlen a else mid)) ;;
    if go_right y then Ok (inl (mid + 1, hi)) else Ok (inl (lo, mid))
  else Ok (inr lo).
Definition bisect_by (go_right : A -> bool) (a : list A) (lo : Z) (hi : option Z) : res Z :=
  if lo <? 0 then Raise ValueError
  else
    let hi := match hi with None => zlen a | Some h => h end in
    loop (S (Z.to_nat (hi - lo))) (bisect_body go_right a) (lo, hi).

(** [lt_ax y x] is [a[mid] < x], [lt_xa x y] is [x < a[mid]] *)
Context (lt_ax : A -> X -> bool) (lt_xa : X -> A -> bool) (conv : X -> A).
(** bisect.codon:3-15 [bisect_left] *)
Definition bisect_left (a : list A) (x : X) (lo : Z) (hi : option Z) : res Z :=
  bisect_by (fun y => lt_ax y x) a lo hi.
(** bisect.codon:17-29 [bisect_right] *)
Definition bisect_right (a : list A) (x : X) (lo : Z) (hi : option Z) : res Z :=
  bisect_by (fun y => negb (lt_xa x y)) a lo hi.
(** list.codon:302-316 [insert] on sequences (C05) *)
Definition insert_at (a : list A) (i : Z) (x : A) : list A :=
  let n := zlen a in
  let i := if i <? 0 then (if i + n <? 0 then 0 else i + n) else i in
  let i := if n <? i then n else i in
  firstn (Z.to_nat i) a ++ x :: skipn (Z.to_nat i) a.
(** bisect.codon:31-35 [insort_left] *)
Definition insort_left (a : list A) (x : X) (lo : Z) (hi : option Z) : res (list A) :=
  lo <- bisect_left a x lo hi ;; Ok (insert_at a lo (conv x)).
(** bisect.codon:37-45 [insort_right] *)
Definition insort_right (a : list A) (x : X) (lo : Z) (hi : option Z) : res (list A) :=
  lo <- bisect_right a x lo hi ;;
  if lo =? zlen a then Ok (a ++ [conv x]) else Ok (insert_at a lo (conv x)).
End Bisect.
