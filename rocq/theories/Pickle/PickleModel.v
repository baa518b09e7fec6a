(** Model of stdlib/pickle.codon for int, bool, byte, floats, str, List, tuples, Dict and Set.

    A value of a Codon type is a value of [den t].  The compressed stream ([Jar]) is the list of
    bytes it holds: [gzwrite] appends everything it is given, [gzread] returns what is left when
    fewer bytes remain; zlib itself and write errors are not modelled.

    Simplifications: tuples have two fields (longer ones are the same loop); numbers other than
    [int] and [bool] are their bit patterns ([TBits w], [w] bytes: byte, float, float32, UInt);
    lists and strings are sequences; padding between fields is written as zero (it is never
    looked at); uninitialised slots of a hash table hold arbitrary bytes ([junk]).  Classes are
    pickled field by field exactly like tuples (internal.codon:156-168). *)
From Coq Require Import List ZArith Bool.
From Verif.Common Require Import Result Int64 Arr.
From Verif.Dict Require Import Model SetModel.
Import ListNotations.
Local Open Scope Z_scope.
Local Open Scope res_scope.

(** ** Types and values *)
Inductive ty : Type :=
| TInt | TBool | TBits (w : nat) | TStr
| TList (t : ty) | TPair (a b : ty) | TDict (k v : ty) | TSet (k : ty).

Fixpoint den (t : ty) : Type :=
  match t with
  | TInt => Z
  | TBool => bool
  | TBits _ => Z
  | TStr => list Z
  | TList t => list (den t)
  | TPair a b => (den a * den b)%type
  | TDict k v => tbl (den k) (den v)
  | TSet k => tbl (den k) unit
  end.

(** types.h:142 (primitive types), 317-320 (records), 372 (references), 423 (pointers):
    [atomic(T)], gc.codon:62-63; a str holds a pointer *)
Fixpoint atomic (t : ty) : bool :=
  match t with
  | TInt | TBool | TBits _ => true
  | TPair a b => atomic a && atomic b
  | TStr | TList _ | TDict _ _ | TSet _ => false
  end.

(** [sizeof(T)] (gc.codon:59-60, llvisitor.cpp:3266-3269) and the alignment, for atomic types *)
Fixpoint align (t : ty) : nat :=
  match t with
  | TBool => 1
  | TBits w => w
  | TPair a b => Nat.max (align a) (align b)
  | _ => 8
  end.
(** bytes to skip after [n] bytes so that the next offset is a multiple of [a] *)
Definition padding (n a : nat) : nat := Nat.modulo (a - Nat.modulo n a) a.
Fixpoint sizeof (t : ty) : nat :=
  match t with
  | TBool => 1
  | TBits w => w
  | TPair a b =>
      let n := (sizeof a + padding (sizeof a) (align b) + sizeof b)%nat in
      (n + padding n (Nat.max (align a) (align b)))%nat
  | _ => 8
  end.

(** ** Memory images of atomic values *)
Fixpoint le_bytes (n : nat) (z : Z) : list Z :=
  match n with
  | O => []
  | S n => z mod 256 :: le_bytes n (z / 256)
  end.
Fixpoint le_value (bs : list Z) : Z :=
  match bs with
  | [] => 0
  | b :: bs => b + 256 * le_value bs
  end.

(** a value that nothing is read from (the result for a type that is not atomic) *)
Fixpoint dummy (t : ty) : den t :=
  match t with
  | TInt => 0
  | TBool => false
  | TBits _ => 0
  | TStr => []
  | TList _ => []
  | TPair a b => (dummy a, dummy b)
  | TDict _ _ => new
  | TSet _ => new
  end.

Fixpoint image (t : ty) : den t -> list Z :=
  match t with
  | TInt => fun z => le_bytes 8 z
  | TBool => fun b : bool => [if b then 1 else 0]
  | TBits w => fun z => le_bytes w z
  | TPair a b => fun x =>
      let p1 := padding (sizeof a) (align b) in
      let n := (sizeof a + p1 + sizeof b)%nat in
      image a (fst x) ++ repeat 0 p1 ++ image b (snd x) ++ repeat 0 (padding n (Nat.max (align a) (align b)))
  | _ => fun _ => []
  end.
Fixpoint of_image (t : ty) : list Z -> den t :=
  match t with
  | TInt => fun bs => w64 (le_value bs)
  | TBool => fun bs => negb (le_value bs =? 0)
  | TBits _ => fun bs => le_value bs
  | TPair a b => fun bs =>
      (of_image a (firstn (sizeof a) bs),
       of_image b (firstn (sizeof b) (skipn (sizeof a + padding (sizeof a) (align b)) bs)))
  | t => fun _ => dummy t
  end.

(** ** The stream *)
Definition LIMIT : Z := 2147483647.

(** pickle.codon:18-27 [_write_raw]: the bytes appended when [n] bytes starting at the buffer
    [p] are written in pieces of at most [LIMIT]; reading past the buffer is undefined *)
Definition write_body (s : list Z * list Z * Z) : res (list Z * list Z * Z + list Z) :=
  let '(out, p, n) := s in
  if n >? 0 then
    let b := if n <? LIMIT then n else LIMIT in
    if zlen p <? b then Undef
    else Ok (inl (out ++ firstn (Z.to_nat b) p, skipn (Z.to_nat b) p, n - b))
  else Ok (inr out).
Definition write_raw (p : list Z) (n : Z) : res (list Z) :=
  loop (S (Z.to_nat n)) write_body ([], p, n).

(** pickle.codon:29-38 [_read_raw]: the [n] bytes read and the rest of the stream; a short
    read raises IOError *)
Definition read_body (s : list Z * list Z * Z) : res (list Z * list Z * Z + list Z * list Z) :=
  let '(got, inp, n) := s in
  if n >? 0 then
    let b := if n <? LIMIT then n else LIMIT in
    let piece := firstn (Z.to_nat b) inp in
    if negb (zlen piece =? b) then Raise OtherError
    else Ok (inl (got ++ piece, skipn (Z.to_nat b) inp, n - b))
  else Ok (inr (got, inp)).
Definition read_raw (inp : list Z) (n : Z) : res (list Z * list Z) :=
  loop (S (Z.to_nat n)) read_body ([], inp, n).

(** pickle.codon:40-42 [_write], 44-48 [_read] *)
Definition write (t : ty) (x : den t) : res (list Z) := write_raw (image t x) (Z.of_nat (sizeof t)).
Definition read (t : ty) (inp : list Z) : res (den t * list Z) :=
  ' (bs, inp) <- read_raw inp (Z.of_nat (sizeof t)) ;; Ok (of_image t bs, inp).

(** ** Containers *)
Section Codec.
(** [==] and [hash] of keys; the bytes an uninitialised slot holds *)
Context (eqb : forall t, den t -> den t -> bool) (hash : forall t, den t -> Z).
Context (junk : nat -> list Z).

(** memory image of an array of [n] slots *)
Definition slot_image (t : ty) (i : nat) (c : option (den t)) : list Z :=
  match c with
  | Some x => image t x
  | None => firstn (sizeof t) (junk i ++ repeat 0 (sizeof t))
  end.
Fixpoint slots_image (t : ty) (i : nat) (cs : list (option (den t))) : list Z :=
  match cs with
  | [] => []
  | c :: cs => slot_image t i c ++ slots_image t (S i) cs
  end.
(** [n] elements of type [t] found in a buffer *)
Fixpoint cut (t : ty) (n : nat) (bs : list Z) : list (den t) :=
  match n with
  | O => []
  | S n => of_image t (firstn (sizeof t) bs) :: cut t n (skipn (sizeof t) bs)
  end.
Definition words_image (fl : list Z) : list Z := concat (map (le_bytes 4) fl).
Fixpoint cut_words (n : nat) (bs : list Z) : list Z :=
  match n with
  | O => []
  | S n => le_value (firstn 4 bs) :: cut_words n (skipn 4 bs)
  end.

Fixpoint pickle_all {A} (f : A -> res (list Z)) (l : list A) : res (list Z) :=
  match l with
  | [] => Ok []
  | x :: l => a <- f x ;; b <- pickle_all f l ;; Ok (a ++ b)
  end.
Fixpoint unpickle_all {A} (f : list Z -> res (A * list Z)) (n : nat) (inp : list Z) : res (list A * list Z) :=
  match n with
  | O => Ok ([], inp)
  | S n => ' (x, inp) <- f inp ;; ' (l, inp) <- unpickle_all f n inp ;; Ok (x :: l, inp)
  end.

(** the [while i < size] loops of pickle.codon:214-218 and 268-271 *)
Fixpoint unpickle_into {A X} (f : list Z -> res (A * list Z)) (put : X -> A -> res X) (n : nat) (d : X) (inp : list Z)
  : res (X * list Z) :=
  match n with
  | O => Ok (d, inp)
  | S n => ' (x, inp) <- f inp ;; d <- put d x ;; unpickle_into f put n d inp
  end.

(** pickle.codon:53-106 (numbers), 110-112 [str.__pickle__], 122-129 [List.__pickle__] (143-150
    DynamicTuple is the same), 164-183 [Dict.__pickle__], 223-240 [Set.__pickle__];
    internal.codon:156-158 (tuples) *)
Fixpoint pickle (t : ty) : den t -> res (list Z) :=
  match t with
  | TInt => write TInt
  | TBool => write TBool
  | TBits w => write (TBits w)
  | TStr => fun s : list Z => a <- write TInt (zlen s) ;; b <- write_raw s (zlen s) ;; Ok (a ++ b)
  | TList e => fun l : list (den e) =>
      a <- write TInt (zlen l) ;;
      b <- (if atomic e then write_raw (concat (map (image e) l)) (w64 (zlen l * Z.of_nat (sizeof e)))
            else pickle_all (pickle e) l) ;;
      Ok (a ++ b)
  | TPair x y => fun p => a <- pickle x (fst p) ;; b <- pickle y (snd p) ;; Ok (a ++ b)
  | TDict k v => fun d : tbl (den k) (den v) =>
      if atomic k && atomic v then
        a <- write TInt (nb d) ;; b <- write TInt (sz d) ;; c <- write TInt (nocc d) ;; u <- write TInt (ub d) ;;
        let fs := if nb d >? 0 then fsize (nb d) else 0 in
        fl <- write_raw (words_image (flags d)) (w64 (fs * 4)) ;;
        ks <- write_raw (slots_image k 0 (keys d)) (w64 (nb d * Z.of_nat (sizeof k))) ;;
        vs <- write_raw (slots_image v 0 (vals d)) (w64 (nb d * Z.of_nat (sizeof v))) ;;
        Ok (a ++ b ++ c ++ u ++ fl ++ ks ++ vs)
      else
        a <- write TInt (nb d) ;; b <- write TInt (sz d) ;;
        its <- items d ;;
        c <- pickle_all (fun e => x <- pickle k (fst e) ;; y <- pickle v (snd e) ;; Ok (x ++ y)) its ;;
        Ok (a ++ b ++ c)
  | TSet k => fun d : tbl (den k) unit =>
      if atomic k then
        a <- write TInt (nb d) ;; b <- write TInt (sz d) ;; c <- write TInt (nocc d) ;; u <- write TInt (ub d) ;;
        let fs := if nb d >? 0 then fsize (nb d) else 0 in
        fl <- write_raw (words_image (flags d)) (w64 (fs * 4)) ;;
        ks <- write_raw (slots_image k 0 (keys d)) (w64 (nb d * Z.of_nat (sizeof k))) ;;
        Ok (a ++ b ++ c ++ u ++ fl ++ ks)
      else
        a <- write TInt (nb d) ;; b <- write TInt (sz d) ;;
        its <- elems d ;;
        c <- pickle_all (pickle k) its ;;
        Ok (a ++ b ++ c)
  end.

(** pickle.codon:114-118 [str.__unpickle__], 131-139 [List.__unpickle__] (152-160 DynamicTuple),
    185-219 [Dict.__unpickle__], 242-272 [Set.__unpickle__]; internal.codon:161-168 (tuples) *)
Fixpoint unpickle (t : ty) : list Z -> res (den t * list Z) :=
  match t with
  | TInt => read TInt
  | TBool => read TBool
  | TBits w => read (TBits w)
  | TStr => fun inp => ' (n, inp) <- read TInt inp ;; read_raw inp n
  | TList e => fun inp =>
      ' (n, inp) <- read TInt inp ;;
      if atomic e then
        ' (bs, inp) <- read_raw inp (w64 (n * Z.of_nat (sizeof e))) ;; Ok (cut e (Z.to_nat n) bs, inp)
      else unpickle_all (unpickle e) (Z.to_nat n) inp
  | TPair x y => fun inp =>
      ' (a, inp) <- unpickle x inp ;; ' (b, inp) <- unpickle y inp ;; Ok ((a, b), inp)
  | TDict k v => fun inp =>
      if atomic k && atomic v then
        ' (n, inp) <- read TInt inp ;; ' (s, inp) <- read TInt inp ;;
        ' (o, inp) <- read TInt inp ;; ' (u, inp) <- read TInt inp ;;
        let fs := if n >? 0 then fsize n else 0 in
        ' (fl, inp) <- read_raw inp (w64 (fs * 4)) ;;
        ' (ks, inp) <- read_raw inp (w64 (n * Z.of_nat (sizeof k))) ;;
        ' (vs, inp) <- read_raw inp (w64 (n * Z.of_nat (sizeof v))) ;;
        Ok (T n s o u (cut_words (Z.to_nat fs) fl) (map Some (cut k (Z.to_nat n) ks)) (map Some (cut v (Z.to_nat n) vs)), inp)
      else
        ' (n, inp) <- read TInt inp ;; ' (s, inp) <- read TInt inp ;;
        d <- kh_resize (hash k) new n ;;
        unpickle_into (fun inp => ' (x, inp) <- unpickle k inp ;; ' (y, inp) <- unpickle v inp ;; Ok ((x, y), inp))
          (fun d e => setitem (eqb k) (hash k) d (fst e) (snd e)) (Z.to_nat s) d inp
  | TSet k => fun inp =>
      if atomic k then
        ' (n, inp) <- read TInt inp ;; ' (s, inp) <- read TInt inp ;;
        ' (o, inp) <- read TInt inp ;; ' (u, inp) <- read TInt inp ;;
        let fs := if n >? 0 then fsize n else 0 in
        ' (fl, inp) <- read_raw inp (w64 (fs * 4)) ;;
        ' (ks, inp) <- read_raw inp (w64 (n * Z.of_nat (sizeof k))) ;;
        Ok (T n s o u (cut_words (Z.to_nat fs) fl) (map Some (cut k (Z.to_nat n) ks)) (repeat (Some tt) (Z.to_nat n)), inp)
      else
        ' (n, inp) <- read TInt inp ;; ' (s, inp) <- read TInt inp ;;
        d <- kh_resize (hash k) new n ;;
        unpickle_into (unpickle k) (fun d x => add (eqb k) (hash k) d x) (Z.to_nat s) d inp
  end.
End Codec.
