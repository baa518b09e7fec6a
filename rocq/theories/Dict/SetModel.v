(** Model of stdlib/internal/types/collections/set.codon.

    The [_kh_*] functions of Set (set.codon:257-413) are those of Dict (dict.codon:251-432)
    with the lines about [_vals] left out, and [_set_hash] (8-10) is [_dict_hash]. A set is
    modelled as the Dict table of Model.v with values [tt]; storing [tt] stands for the
    missing store.

    Simplification: a loop [for a in s] over a set that the loop does not change is run
    over the list of elements; a loop that changes the set it iterates over is modelled
    bucket by bucket ([for_self]). *)
From Coq Require Import List ZArith Bool.
From Verif.Common Require Import Result Arr.
From Verif.Dict Require Import Model.
Import ListNotations.
Local Open Scope Z_scope.
Local Open Scope res_scope.

Section SetModel.
Context {K : Type} (eqb : K -> K -> bool) (hash : K -> Z).
Notation tbl := (tbl K unit).

(** set.codon:152-153 [add] *)
Definition add (t : tbl) (k : K) : res tbl := setitem eqb hash t k tt.
(** set.codon:159-164 [remove] *)
Definition remove (t : tbl) (k : K) : res tbl := delitem eqb hash t k.
(** set.codon:173-176 [discard] *)
Definition discard (t : tbl) (k : K) : res tbl :=
  x <- kh_get eqb hash t k ;; if negb (x =? nb t) then kh_del t x else Ok t.
(** set.codon:101-106 [__iter__], run to the end *)
Definition elems (t : tbl) : res (list K) := l <- items t ;; Ok (map fst l).
(** set.codon:166-171 [pop]: removes the first element of the iteration *)
Definition set_pop (t : tbl) : res (tbl * K) :=
  if sz t =? 0 then Raise ValueError
  else
    l <- elems t ;;
    match l with
    | [] => Undef
    | a :: _ => t <- remove t a ;; Ok (t, a)
    end.

Fixpoint for_in (body : tbl -> K -> res tbl) (l : list K) (s : tbl) : res tbl :=
  match l with
  | [] => Ok s
  | a :: l => s <- body s a ;; for_in body l s
  end.

(** [for a in self: body], where the body may change [self] (set.codon:101-106) *)
Fixpoint for_self (fuel : nat) (body : tbl -> K -> res tbl) (t : tbl) (i : Z) : res tbl :=
  match fuel with
  | O => NoFuel
  | S fuel =>
      if i <? nb t then
        e <- iseither (flags t) i ;;
        t <- (if e =? 0 then a <- rd (keys t) i ;; body t a else Ok t) ;;
        for_self fuel body t (i + 1)
      else Ok t
  end.

(** set.codon:155-157 [update], 60-63 [__ior__], with another set *)
Definition set_update (t o : tbl) : res tbl := l <- elems o ;; for_in add l t.
(** set.codon:34-37 [__init__] from a generator, 155-157 [update] from one *)
Definition set_of (l : list K) : res tbl := for_in add l new.

(** set.codon:178-183 [difference] *)
Definition difference (t o : tbl) : res tbl :=
  l <- elems t ;;
  for_in (fun s a => c <- contains eqb hash o a ;; if negb c then add s a else Ok s) l new.

(** set.codon:185-187 [difference_update] *)
Definition difference_update (t o : tbl) : res tbl := l <- elems o ;; for_in discard l t.
(** the same with [other] being [self] *)
Definition difference_update_self (t : tbl) : res tbl :=
  for_self (S (Z.to_nat (nb t))) discard t 0.

(** set.codon:189-196 [intersection] *)
Definition intersection (t o : tbl) : res tbl :=
  let '(t, o) := if sz o <? sz t then (o, t) else (t, o) in
  l <- elems t ;;
  for_in (fun s a => c <- contains eqb hash o a ;; if (c : bool) then add s a else Ok s) l new.

(** set.codon:198-201 [intersection_update] *)
Definition intersection_update (t o : tbl) : res tbl :=
  for_self (S (Z.to_nat (nb t)))
    (fun s a => c <- contains eqb hash o a ;; if negb c then discard s a else Ok s) t 0.
(** the same with [other] being [self] *)
Definition intersection_update_self (t : tbl) : res tbl :=
  for_self (S (Z.to_nat (nb t)))
    (fun s a => c <- contains eqb hash s a ;; if negb c then discard s a else Ok s) t 0.

(** set.codon:203-211 [symmetric_difference] *)
Definition symmetric_difference (t o : tbl) : res tbl :=
  l <- elems t ;;
  s <- for_in (fun s a => c <- contains eqb hash o a ;; if negb c then add s a else Ok s) l new ;;
  l <- elems o ;;
  for_in (fun s a => c <- contains eqb hash t a ;; if negb c then add s a else Ok s) l s.

(** set.codon:213-219 [symmetric_difference_update] *)
Definition symmetric_difference_update (t o : tbl) : res tbl :=
  l <- elems o ;;
  t <- for_in (fun s a => c <- contains eqb hash s a ;; if (c : bool) then discard s a else Ok s) l t ;;
  for_self (S (Z.to_nat (nb t)))
    (fun s a => c <- contains eqb hash o a ;; if (c : bool) then discard s a else Ok s) t 0.

(** set.codon:221-230 [union] *)
Definition union (t o : tbl) : res tbl :=
  s <- kh_resize hash (@new K unit) (if nb o <=? nb t then nb t else nb o) ;;
  l <- elems t ;; s <- for_in add l s ;;
  l <- elems o ;; for_in add l s.

(** first element of [l] whose membership in [o] is [want] ends the loop with [false] *)
Fixpoint scan (o : tbl) (want : bool) (l : list K) : res bool :=
  match l with
  | [] => Ok true
  | a :: l => c <- contains eqb hash o a ;; if Bool.eqb c want then Ok false else scan o want l
  end.

(** set.codon:232-238 [isdisjoint] *)
Definition isdisjoint (t o : tbl) : res bool :=
  let '(t, o) := if sz o <? sz t then (o, t) else (t, o) in
  l <- elems t ;; scan o true l.

(** set.codon:240-246 [issubset], 89-90 [__le__] *)
Definition issubset (t o : tbl) : res bool :=
  if sz o <? sz t then Ok false else l <- elems t ;; scan o false l.
(** set.codon:248-249 [issuperset], 92-93 [__ge__] *)
Definition issuperset (t o : tbl) : res bool := issubset o t.
(** set.codon:78-84 [__eq__] *)
Definition set_eq (t o : tbl) : res bool :=
  if negb (sz t =? sz o) then Ok false else l <- elems t ;; scan o false l.
(** set.codon:95-96 [__lt__] *)
Definition set_lt (t o : tbl) : res bool :=
  c <- set_eq t o ;; if negb c then issubset t o else Ok false.
(** set.codon:98-99 [__gt__] *)
Definition set_gt (t o : tbl) : res bool :=
  c <- set_eq t o ;; if negb c then issuperset t o else Ok false.
End SetModel.
