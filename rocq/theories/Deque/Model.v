(** Model of [deque] in stdlib/collections.codon:5-147.

    The array is a list of cells, [None] for a cell never written; an access outside it, or
    reading a cell never written, is [Undef].  Simplification: capacities and positions are
    unbounded integers (they stay far below 2^63 for any array that fits in memory). *)
From Coq Require Import List ZArith Bool.
From Verif.Common Require Import Result Int64 Arr.
Import ListNotations.
Local Open Scope Z_scope.
Local Open Scope res_scope.

Section Deque.
Context {T : Type}.

(** collections.codon:6-10 *)
Record dq := D { arr : list (option T); head : Z; tail : Z; maxlen : Z }.

Definition cap (d : dq) : Z := zlen (arr d).
Definition mask (d : dq) : Z := cap d - 1.
Definition cells (n : Z) : list (option T) := repeat None (Z.to_nat n).
Definition rd (a : list (option T)) (i : Z) : res T :=
  o <- aget a i ;; match o with Some x => Ok x | None => Undef end.

(** collections.codon:18-22 *)
Definition new : dq := D (cells 16) 0 0 (-1).

(** collections.codon:24-31: the smallest power of two from [maxlen] on *)
Fixpoint cap_loop (fuel : nat) (c m : Z) : res Z :=
  match fuel with
  | O => NoFuel
  | S fuel => if c <? m then cap_loop fuel (w64 (c * 2)) m else Ok c
  end.
Definition new_maxlen (m : Z) : res dq := c <- cap_loop 64 1 m ;; Ok (D (cells c) 0 0 m).

(** collections.codon:45-58 [_double_cap]; the loops copy [n] cells from [src] to [dst] *)
Fixpoint copy_loop (n : nat) (new old : list (option T)) (dst src : Z) : res (list (option T)) :=
  match n with
  | O => Ok new
  | S n => o <- aget old src ;; new <- aset new dst o ;; copy_loop n new old (dst + 1) (src + 1)
  end.
Definition double_cap (d : dq) : res dq :=
  let p := head d in
  let n := cap d in
  let r := n - p in
  a <- copy_loop (Z.to_nat r) (cells (n * 2)) (arr d) 0 p ;;
  a <- copy_loop (Z.to_nat p) a (arr d) r 0 ;;
  Ok (D a 0 n (maxlen d)).

(** collections.codon:64-65 [__bool__] *)
Definition nonempty (d : dq) : bool := negb (head d =? tail d).
(** collections.codon:67-68 [__len__] *)
Definition len (d : dq) : Z := Z.land (tail d - head d) (mask d).

(** collections.codon:86-90 [popleft], with 60-62 *)
Definition popleft (d : dq) : res (T * dq) :=
  if negb (nonempty d) then Raise IndexError
  else
    x <- rd (arr d) (head d) ;;
    Ok (x, D (arr d) (Z.land (head d + 1) (mask d)) (tail d) (maxlen d)).

(** collections.codon:92-95 [pop] *)
Definition pop (d : dq) : res (T * dq) :=
  if negb (nonempty d) then Raise IndexError
  else
    let tl := Z.land (tail d - 1) (mask d) in
    x <- rd (arr d) tl ;; Ok (x, D (arr d) (head d) tl (maxlen d)).

(** collections.codon:70-76 [appendleft] *)
Definition appendleft (d : dq) (x : T) : res dq :=
  let h := Z.land (head d - 1) (mask d) in
  a <- aset (arr d) h (Some x) ;;
  let d := D a h (tail d) (maxlen d) in
  d <- (if (0 <=? maxlen d) && (maxlen d <? len d) then '(_, d) <- pop d ;; Ok d else Ok d) ;;
  if head d =? tail d then double_cap d else Ok d.

(** collections.codon:78-84 [append] *)
Definition append (d : dq) (x : T) : res dq :=
  a <- aset (arr d) (tail d) (Some x) ;;
  let d := D a (head d) (Z.land (tail d + 1) (mask d)) (maxlen d) in
  d <- (if (0 <=? maxlen d) && (maxlen d <? len d) then '(_, d) <- popleft d ;; Ok d else Ok d) ;;
  if head d =? tail d then double_cap d else Ok d.

(** collections.codon:33-39 [__init__] from an iterable *)
Fixpoint append_all (d : dq) (l : list T) : res dq :=
  match l with [] => Ok d | x :: l => d <- append d x ;; append_all d l end.
Definition of_iter (l : list T) : res dq := append_all new l.

(** collections.codon:97-99 [clear] *)
Definition clear (d : dq) : dq := D (arr d) 0 0 (maxlen d).

(** collections.codon:101-105 [__iter__], run to the end *)
Fixpoint iter_from (fuel : nat) (d : dq) (i : Z) : res (list T) :=
  match fuel with
  | O => NoFuel
  | S fuel =>
      if i =? tail d then Ok []
      else x <- rd (arr d) i ;; l <- iter_from fuel d (Z.land (i + 1) (mask d)) ;; Ok (x :: l)
  end.
Definition items (d : dq) : res (list T) := iter_from (S (Z.to_nat (cap d))) d (head d).

(** collections.codon:116-120 [__copy__]; the copied array is a new block *)
Definition copy (d : dq) : dq := D (arr d) (head d) (tail d) (maxlen d).

(** collections.codon:125-127 [_idx_check] *)
Definition idx_bad (d : dq) (i : Z) : bool := (head d =? tail d) || (len d <=? i) || (i <? 0).

(** collections.codon:129-132 [left] *)
Definition left (d : dq) : res T :=
  if idx_bad d 0 then Raise IndexError else rd (arr d) (head d).

(** collections.codon:134-147 [__getitem__] *)
Definition getitem (d : dq) (i : Z) : res T :=
  let i := if i <? 0 then i + len d else i in
  if idx_bad d i then Raise IndexError
  else if head d <=? tail d then rd (arr d) (head d + i)
  else if head d + i <? cap d then rd (arr d) (head d + i)
  else
    let i := i - (cap d - head d) in
    if (0 <=? i) && (i <? tail d) then rd (arr d) i else Raise OtherError.

End Deque.
Arguments dq : clear implicits.
