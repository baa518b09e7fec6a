(** Model of the conversions between integers and texts in
    /repo/stdlib/internal/builtin.codon: [bin], [oct], [hex] and [int(text, base)].

    A text is the list of its bytes (Str/Model.v). The buffer of [_int_format] is a list of
    bytes, [None] for one not yet written; a write outside it, or returning it before all of it
    is written, is [Undef]. [fuel] bounds the division loops.

    [seq_int_from_str] (/repo/codon/runtime/lib.cpp:280-285) calls [fast_float::from_chars],
    which is not part of the repository: it is taken to follow [std::from_chars], that is an
    optional '-', then the longest run of digits of the base, an error if there is none or if the
    value does not fit. *)
From Coq Require Import List ZArith Bool.
From Verif.Common Require Import Result Int64 Arr.
From Verif.Str Require Import Model.
From Verif.Num Require Import ArithModel.
Import ListNotations.
Local Open Scope Z_scope.
Local Open Scope res_scope.

(** "0123456789abcdef-" (builtin.codon:310) *)
Definition chars : list Z := [48; 49; 50; 51; 52; 53; 54; 55; 56; 57; 97; 98; 99; 100; 101; 102; 45].

(** builtin.codon:312-316 *)
Fixpoint count_digits (py : bool) (fuel : nat) (base b digits : Z) : res Z :=
  match fuel with
  | O => NoFuel
  | S fuel => if b =? 0 then Ok digits else b <- idiv py b base ;; count_digits py fuel base b (digits + 1)
  end.
(** builtin.codon:334-338 *)
Fixpoint put_digits (py : bool) (fuel : nat) (base b q : Z) (p : list (option Z)) : res (list (option Z)) :=
  match fuel with
  | O => NoFuel
  | S fuel =>
      if b =? 0 then Ok p
      else
        r <- imod py b base ;; c <- aget chars (iabs r) ;; p <- aset p q (Some c) ;;
        b <- idiv py b base ;; put_digits py fuel base b (q - 1) p
  end.
(** [str.memcpy(q, prefix.ptr, len(prefix))] *)
Fixpoint copy (p : list (option Z)) (q : Z) (l : str) : res (list (option Z)) :=
  match l with [] => Ok p | c :: l => p <- aset p q (Some c) ;; copy p (q + 1) l end.
Fixpoint written (p : list (option Z)) : res str :=
  match p with [] => Ok [] | Some c :: p => s <- written p ;; Ok (c :: s) | None :: _ => Undef end.
(** builtin.codon:308-342 [_int_format] *)
Definition int_format (py : bool) (fuel : nat) (a base : Z) (prefix : str) : res str :=
  digits <- count_digits py fuel base a 0 ;;
  let sz := digits + (if a <=? 0 then 1 else 0) + len prefix in
  let p := repeat None (Z.to_nat sz) in
  '(p, q) <- (if a <? 0 then c <- aget chars 16 ;; p <- aset p 0 (Some c) ;; Ok (p, 1) else Ok (p, 0)) ;;
  p <- copy p q prefix ;;
  let q := q + len prefix in
  p <- (if negb (digits =? 0) then put_digits py fuel base a (q + digits - 1) p
        else c <- aget chars 0 ;; aset p q (Some c)) ;;
  written p.
(** builtin.codon:344-351 [bin], [oct], [hex] *)
Definition bin (py : bool) (fuel : nat) (n : Z) : res str := int_format py fuel n 2 [48; 98].
Definition oct (py : bool) (fuel : nat) (n : Z) : res str := int_format py fuel n 8 [48; 111].
Definition hex (py : bool) (fuel : nat) (n : Z) : res str := int_format py fuel n 16 [48; 120].

(** [std::from_chars]: the value of a digit, the longest run of digits *)
Definition digit_value (c : Z) : Z :=
  if (48 <=? c) && (c <=? 57) then c - 48
  else if (97 <=? c) && (c <=? 122) then c - 87
  else if (65 <=? c) && (c <=? 90) then c - 55 else 99.
Fixpoint run_digits (base : Z) (s : str) (v n : Z) : Z * Z :=
  match s with
  | c :: s' => if digit_value c <? base then run_digits base s' (v * base + digit_value c) (n + 1) else (v, n)
  | [] => (v, n)
  end.
(** The value and the length of the text read. *)
Definition from_chars (s : str) (base : Z) : option (Z * Z) :=
  let '(neg, t) := match s with c :: r => if c =? 45 then (true, r) else (false, s) | [] => (false, s) end in
  let '(m, n) := run_digits base t 0 0 in
  if n =? 0 then None
  else
    let v := if neg then - m else m in
    if (min64 <=? v) && (v <=? max64) then Some (v, n + (if neg then 1 else 0)) else None.

(** builtin.codon:392-413: the base of a text *)
Definition detect (t : str) : res Z :=
  let n := len t in
  o <- (if 1 <=? n then c <- get t 0 ;; Ok (if (c =? 43) || (c =? 45) then 1 else 0) else Ok 0) ;;
  if o + 1 <=? n then
    c <- get t o ;;
    if c =? 48 then
      if n <? o + 2 then Raise ValueError
      else
        d <- get t (o + 1) ;;
        if (d =? 98) || (d =? 66) then Ok 2
        else if (d =? 111) || (d =? 79) then Ok 8
        else if (d =? 120) || (d =? 88) then Ok 16
        else Raise ValueError
    else Ok 10
  else Ok 10.
(** builtin.codon:416-424: [C_LOWER], [C_UPPER] *)
Definition lower (base : Z) : Z := if base =? 2 then 98 else if base =? 8 then 111 else 120.
Definition upper (base : Z) : Z := if base =? 2 then 66 else if base =? 8 then 79 else 88.
(** builtin.codon:426-435 [check_digit] *)
Definition check_digit (d base : Z) : bool :=
  if base =? 2 then (d =? 48) || (d =? 49)
  else if base =? 8 then (48 <=? d) && (d <=? 55)
  else if base =? 16 then ((48 <=? d) && (d <=? 57)) || ((97 <=? d) && (d <=? 102)) || ((65 <=? d) && (d <=? 70))
  else false.
(** builtin.codon:437-440: a sign and a prefix *)
Definition signed_prefix (t : str) (base : Z) : res bool :=
  if 4 <=? len t then
    a <- get t 0 ;;
    if (a =? 43) || (a =? 45) then
      b <- get t 1 ;;
      if b =? 48 then c <- get t 2 ;; Ok ((c =? lower base) || (c =? upper base)) else Ok false
    else Ok false
  else Ok false.
(** builtin.codon:445-447: a prefix *)
Definition plain_prefix (t : str) (base : Z) : res bool :=
  if 3 <=? len t then
    a <- get t 0 ;;
    if a =? 48 then b <- get t 1 ;; Ok ((b =? lower base) || (b =? upper base)) else Ok false
  else Ok false.
(** builtin.codon:437-450: whether to negate, and the text without sign and prefix *)
Definition drop_prefix (t : str) (base : Z) : res (bool * str) :=
  x <- signed_prefix t base ;;
  if x then
    d <- get t 3 ;;
    if negb (check_digit d base) then Raise ValueError
    else a <- get t 0 ;; u <- slice_ t 3 (len t) ;; Ok (a =? 45, u)
  else
    y <- plain_prefix t base ;;
    if y then
      d <- get t 3 ;;
      if negb (check_digit d base) then Raise ValueError
      else u <- slice_ t 2 (len t) ;; Ok (false, u)
    else Ok (false, t).
(** builtin.codon:452-462 *)
Definition finish (u : str) (base : Z) (negate : bool) : res Z :=
  match from_chars u base with
  | Some (v, e) => if negb (e =? len u) then Raise ValueError else Ok (if negate then w64 (- v) else v)
  | None => Raise ValueError
  end.
(** builtin.codon:378-462 [int._from_str] *)
Definition from_str (s : str) (base : Z) : res Z :=
  if (base <? 0) || (36 <? base) || (base =? 1) then Raise ValueError
  else
    t <- str_strip s [] ;;
    base <- (if base =? 0 then detect t else Ok base) ;;
    '(negate, u) <- (if (base =? 2) || (base =? 8) || (base =? 16) then drop_prefix t base else Ok (false, t)) ;;
    finish u base negate.
