(** Model of [Counter] and [defaultdict] in /repo/stdlib/collections.codon:146-430, on top of
    the hash tables of Model.v.

    Simplifications: a loop over another dict is run over the list of its items; a loop that
    changes the dict it iterates over is modelled bucket by bucket ([for_items]). The list
    operations of [most_common] are their sequence meaning (C05); [List(capacity=n)] succeeds. *)
From Coq Require Import List ZArith Bool.
From Verif.Common Require Import Result Int64 Arr.
From Verif.Dict Require Import Model.
From Verif.Sort Require Import Dispatch.
From Verif.Heap Require Model.
Import ListNotations.
Local Open Scope Z_scope.
Local Open Scope res_scope.

Section Counter.
Context {K : Type} (eqb : K -> K -> bool) (hash : K -> Z).
Notation tbl := (tbl K Z).

(** dict.codon:182-187 [increment] at [int] *)
Definition incr (t : tbl) (k : K) (by_ : Z) : res tbl := increment eqb hash (fun a b => w64 (a + b)) t k by_.

Fixpoint each {A} (body : tbl -> A -> res tbl) (l : list A) (t : tbl) : res tbl :=
  match l with
  | [] => Ok t
  | a :: l => t <- body t a ;; each body l t
  end.

(** [for k, v in self.items(): body], where the body may change [self] (dict.codon:228-233) *)
Fixpoint for_items (fuel : nat) (body : tbl -> K -> Z -> res tbl) (t : tbl) (i : Z) : res tbl :=
  match fuel with
  | O => NoFuel
  | S fuel =>
      if i <? nb t then
        e <- iseither (flags t) i ;;
        t <- (if e =? 0 then k <- rd (keys t) i ;; v <- rd (vals t) i ;; body t k v else Ok t) ;;
        for_items fuel body t (i + 1)
      else Ok t
  end.

(** collections.codon:240-242 [update] from a generator *)
Definition update_seq (t : tbl) (l : list K) : res tbl := each (fun t a => incr t a 1) l t.
(** 174-176 [__init__] from a generator *)
Definition counter_of (l : list K) : res tbl := update_seq new l.
(** 244-250 [update] from another counter or dict *)
Definition update_from (t o : tbl) : res tbl :=
  l <- items o ;; each (fun t e => incr t (fst e) (snd e)) l t.
(** 228-230 [subtract] of a generator *)
Definition subtract_seq (t : tbl) (l : list K) : res tbl := each (fun t a => incr t a (-1)) l t.
(** 232-238 [subtract] of another counter or dict *)
Definition subtract_from (t o : tbl) : res tbl :=
  l <- items o ;; each (fun t e => incr t (fst e) (w64 (- snd e))) l t.

(** 261-262 [__getitem__] *)
Definition cget (t : tbl) (k : K) : res Z := o <- get eqb hash t k ;; Ok (match o with Some v => v | None => 0 end).
(** 264-267 [__delitem__] *)
Definition cdel (t : tbl) (k : K) : res tbl :=
  x <- kh_get eqb hash t k ;; if negb (x =? nb t) then kh_del t x else Ok t.
(** 350-353 [_del_non_positives] *)
Definition del_non_positives (t : tbl) : res tbl :=
  for_items (S (Z.to_nat (nb t))) (fun t k v => if v <=? 0 then cdel t k else Ok t) t 0.

(** 283-287 [__iadd__], 289-293 [__isub__] with another counter *)
Definition iadd (t o : tbl) : res tbl := t <- update_from t o ;; del_non_positives t.
Definition isub (t o : tbl) : res tbl := t <- subtract_from t o ;; del_non_positives t.
(** 283-287 with the counter itself; the table grows at most once, to twice its size *)
Definition iadd_self (t : tbl) : res tbl :=
  t <- for_items (S (Z.to_nat (2 * nb t))) (fun t k v => incr t k v) t 0 ;; del_non_positives t.
(** 295-299 [__iand__] *)
Definition iand (t o : tbl) : res tbl :=
  l <- items o ;;
  t <- each (fun t e => c <- cget t (fst e) ;; setitem eqb hash t (fst e) (Z.min c (snd e))) l t ;;
  del_non_positives t.
(** 301-306 [__ior__] *)
Definition ior (t o : tbl) : res tbl :=
  t <- del_non_positives t ;;
  l <- items o ;;
  t <- each (fun t e => c <- cget t (fst e) ;; setitem eqb hash t (fst e) (Z.max c (snd e))) l t ;;
  del_non_positives t.

(** 324-342 [__add__], [__sub__], [__and__], [__or__]; the copy is 280-281, 178-179 *)
Definition cadd (t o : tbl) : res tbl := r <- init_from t ;; iadd r o.
Definition csub (t o : tbl) : res tbl := r <- init_from t ;; isub r o.
Definition cand (t o : tbl) : res tbl := r <- init_from t ;; iand r o.
Definition cor (t o : tbl) : res tbl := r <- init_from t ;; ior r o.

(** 308-314 [__pos__], 316-322 [__neg__] *)
Definition cpos (t : tbl) : res tbl :=
  r <- kh_resize hash new (nb t) ;; l <- items t ;;
  each (fun r e => if 0 <? snd e then setitem eqb hash r (fst e) (snd e) else Ok r) l r.
Definition cneg (t : tbl) : res tbl :=
  r <- kh_resize hash new (nb t) ;; l <- items t ;;
  each (fun r e => if snd e <? 0 then setitem eqb hash r (fst e) (w64 (- snd e)) else Ok r) l r.

(** 255-259 [total] *)
Definition total (t : tbl) : res Z := l <- items t ;; Ok (fold_left (fun m e => w64 (m + snd e)) l 0).
(** 184-187 [elements], run to the end *)
Definition elements (t : tbl) : res (list K) :=
  l <- items t ;; Ok (flat_map (fun e => repeat (fst e) (Z.to_nat (snd e))) l).

(** 269-275 [__eq__] *)
Fixpoint ceq_loop (o : tbl) (l : list (K * Z)) : res bool :=
  match l with
  | [] => Ok true
  | (k, v) :: l =>
      c <- contains eqb hash o k ;;
      if negb c then Ok false
      else w <- cget o k ;; if negb (w =? v) then Ok false else ceq_loop o l
  end.
Definition ceq (t o : tbl) : res bool :=
  if negb (sz t =? sz o) then Ok false else l <- items t ;; ceq_loop o l.

(** 153-169: the comparisons of [_CounterItem]; 197: the key of the sort is the count *)
Notation item := (K * Z)%type.
Definition item_lt (a b : item) : bool := snd a <? snd b.
Definition item_ge (a b : item) : bool := snd b <=? snd a.
Definition item_eq (a b : item) : bool := snd a =? snd b.

(** 207-210: the first item with the largest count *)
Fixpoint top_of (top : option item) (l : list item) : option item :=
  match l with
  | [] => top
  | t :: l => top_of (match top with None => Some t | Some p => if snd p <? snd t then Some t else top end) l
  end.
(** 217-225: the [n] largest items in a heap *)
Fixpoint collect (n : Z) (l : list item) (r : list item) : res (list item) :=
  match l with
  | [] => Ok r
  | ct :: l =>
      r <- (if zlen r <? n then
              let r := r ++ [ct] in
              if zlen r =? n then Heap.Model.heapify item_lt r else Ok r
            else
              r0 <- aget r 0 ;;
              if item_lt r0 ct then '(_, r) <- Heap.Model.heapreplace item_lt r ct ;; Ok r else Ok r) ;;
      collect n l r
  end.
(** 189-226 [most_common]; [compat]: the items satisfy [_is_pdq_compatible] *)
Definition most_common (compat : bool) (t : tbl) (n : option Z) : res (list item) :=
  if sz t =? 0 then Ok []
  else
    l <- items t ;;
    match n with
    | None => list_sort item_lt item_ge item_eq Auto true compat true l (zlen l)
    | Some n =>
        if n =? 1 then match top_of None l with Some t => Ok [t] | None => Undef end
        else if n <=? 0 then Ok []
        else r <- collect n l [] ;; list_sort item_lt item_ge item_eq Auto false compat true r (zlen r)
    end.
End Counter.

Section Defaultdict.
Context {K V : Type} (eqb : K -> K -> bool) (hash : K -> Z).
Notation tbl := (tbl K V).
(** collections.codon:382-390 [__missing__], [__getitem__]; [default] is what the factory
    returns, without touching the dict *)
Definition dd_getitem (default : V) (t : tbl) (k : K) : res (tbl * V) :=
  c <- contains eqb hash t k ;;
  if negb c then t <- setitem eqb hash t k default ;; Ok (t, default)
  else v <- getitem eqb hash t k ;; Ok (t, v).
(** 392-397 [__dict_do_op_throws__]: [d\[k\] = d\[k\] op x] as rewritten by pythonic/dict.cpp *)
Definition dd_do_op (default : V) (t : tbl) (k : K) (op : V -> V) : res tbl :=
  x <- kh_get eqb hash t k ;;
  '(t, x) <- (if x =? nb t then
                t <- setitem eqb hash t k default ;; x <- kh_get eqb hash t k ;; Ok (t, x)
              else Ok (t, x)) ;;
  v <- rd (vals t) x ;; set_val t x (op v).
End Defaultdict.
