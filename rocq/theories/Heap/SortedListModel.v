(** Model of stdlib/sortedlist.codon.

    The sublists and the list of their maxima are sequences: [append], [insert], [extend], [del],
    slicing and indexing are their sequence meaning with Python's index rules, which C05 proves
    of the list implementation.  Sublists are never shared ([half] is a fresh slice), so a
    sequence of sequences is enough.  [_len] is unbounded (it counts elements in memory).
    [_offset] is never read and is left out. *)
From Coq Require Import List ZArith Bool.
From Verif.Common Require Import Result Int64 Arr.
From Verif.Heap Require Import Model.
Import ListNotations.
Local Open Scope Z_scope.
Local Open Scope res_scope.

Section SortedList.
Context {A : Type} (lt : A -> A -> bool).

(** sortedlist.codon:8-14, the fields of [SortedList] *)
Record slist : Type := mk_slist {
  sl_len : Z;
  sl_load : Z;
  sl_lists : list (list A);
  sl_maxes : list A }.

(** list.codon:54-58 [__getitem__], 60-64 [__setitem__], 66-73 [__delitem__] on sequences *)
Definition lget {B} (l : list B) (i : Z) : res B :=
  let i := if i <? 0 then i + zlen l else i in
  if (i <? 0) || (zlen l <=? i) then Raise IndexError else aget l i.
Definition lset {B} (l : list B) (i : Z) (x : B) : res (list B) :=
  let i := if i <? 0 then i + zlen l else i in
  if (i <? 0) || (zlen l <=? i) then Raise IndexError else aset l i x.
Definition ldel {B} (l : list B) (i : Z) : res (list B) :=
  let i := if i <? 0 then i + zlen l else i in
  if (i <? 0) || (zlen l <=? i) then Raise IndexError
  else Ok (firstn (Z.to_nat i) l ++ skipn (S (Z.to_nat i)) l).
(** [l[k:]] and what [del l[k:]] leaves, for a load factor [k] (not negative) *)
Definition slice_from {B} (l : list B) (k : Z) : list B := skipn (Z.to_nat k) l.
Definition del_from {B} (l : list B) (k : Z) : list B := firstn (Z.to_nat k) l.

(** sortedlist.codon:16-21 [__init__] (the load factor is DEFAULT_LOAD_FACTOR = 1000 there) *)
Definition sl_new (load : Z) : slist := mk_slist 0 load [] [].
(** sortedlist.codon:23-31 [clear] *)
Definition sl_clear (s : slist) : slist := mk_slist 0 (sl_load s) [] [].
(** sortedlist.codon:33-37 [left] *)
Definition sl_left (s : slist) : res A :=
  match sl_lists s with
  | [] => Raise IndexError
  | _ => l <- lget (sl_lists s) 0 ;; lget l 0
  end.

(** sortedlist.codon:67-84 [_expand] *)
Definition sl_expand (s : slist) (pos : Z) : res slist :=
  l <- lget (sl_lists s) pos ;;
  if zlen l >? 2 * sl_load s then
    let half := slice_from l (sl_load s) in
    let l := del_from l (sl_load s) in
    lists <- lset (sl_lists s) pos l ;;
    m <- lget l (-1) ;;
    maxes <- lset (sl_maxes s) pos m ;;
    let lists := insert_at lists (pos + 1) half in
    m2 <- lget half (-1) ;;
    let maxes := insert_at maxes (pos + 1) m2 in
    Ok (mk_slist (sl_len s) (sl_load s) lists maxes)
  else Ok s.

(** sortedlist.codon:39-63 [add]; the insertion into the sublist is [insort_right] (bisect.codon:37-45) *)
Definition sl_add (s : slist) (v : A) : res slist :=
  match sl_maxes s with
  | [] => Ok (mk_slist (sl_len s + 1) (sl_load s) (sl_lists s ++ [[v]]) (sl_maxes s ++ [v]))
  | _ =>
    pos <- bisect_right lt (sl_maxes s) v 0 None ;;
    ' (pos, s) <-
      (if pos =? zlen (sl_maxes s) then
         let pos := pos - 1 in
         l <- lget (sl_lists s) pos ;;
         lists <- lset (sl_lists s) pos (l ++ [v]) ;;
         maxes <- lset (sl_maxes s) pos v ;;
         Ok (pos, mk_slist (sl_len s) (sl_load s) lists maxes)
       else
         l <- lget (sl_lists s) pos ;;
         l <- insort_right lt (fun x => x) l v 0 None ;;
         lists <- lset (sl_lists s) pos l ;;
         Ok (pos, mk_slist (sl_len s) (sl_load s) lists (sl_maxes s))) ;;
    s <- sl_expand s pos ;;
    Ok (mk_slist (sl_len s + 1) (sl_load s) (sl_lists s) (sl_maxes s))
  end.

(** sortedlist.codon:86-119 [_delete] *)
Definition sl_delete (s : slist) (pos idx : Z) : res slist :=
  l <- lget (sl_lists s) pos ;;
  l <- ldel l idx ;;
  lists <- lset (sl_lists s) pos l ;;
  let len := sl_len s - 1 in
  if zlen l >? sl_load s / 2 then
    m <- lget l (-1) ;;
    maxes <- lset (sl_maxes s) pos m ;;
    Ok (mk_slist len (sl_load s) lists maxes)
  else if zlen lists >? 1 then
    let pos := if pos =? 0 then pos + 1 else pos in
    let prev := pos - 1 in
    lp <- lget lists prev ;;
    lq <- lget lists pos ;;
    lists <- lset lists prev (lp ++ lq) ;;
    m <- lget (lp ++ lq) (-1) ;;
    maxes <- lset (sl_maxes s) prev m ;;
    lists <- ldel lists pos ;;
    maxes <- ldel maxes pos ;;
    sl_expand (mk_slist len (sl_load s) lists maxes) prev
  else if negb (zlen l =? 0) then
    m <- lget l (-1) ;;
    maxes <- lset (sl_maxes s) pos m ;;
    Ok (mk_slist len (sl_load s) lists maxes)
  else
    lists <- ldel lists pos ;;
    maxes <- ldel (sl_maxes s) pos ;;
    Ok (mk_slist len (sl_load s) lists maxes).

(** sortedlist.codon:121-123 [__iter__], 125-126 [__len__], 128-129 [__bool__] *)
Definition sl_iter (s : slist) : list A := concat (sl_lists s).
Definition sl_size (s : slist) : Z := sl_len s.
Definition sl_bool (s : slist) : bool := sl_len s >? 0.

(** The operations a program performs on one sorted list. *)
Inductive slop : Type :=
| SAdd (v : A)
| SClear
| SDelete (pos idx : Z).
Definition sl_do (s : slist) (o : slop) : res slist :=
  match o with
  | SAdd v => sl_add s v
  | SClear => Ok (sl_clear s)
  | SDelete pos idx => sl_delete s pos idx
  end.
Fixpoint sl_run (s : slist) (h : list slop) : res slist :=
  match h with
  | [] => Ok s
  | o :: h => s <- sl_do s o ;; sl_run s h
  end.
End SortedList.
Arguments slist : clear implicits.
Arguments slop : clear implicits.
