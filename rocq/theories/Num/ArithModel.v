(** Model of the integer functions of /repo/stdlib/math.codon and of [pow], [sum], [min] and
    [max] of /repo/stdlib/internal/builtin.codon.

    [py] selects Python's division ([-numerics=py]) as in Ir/Num.v. The loops that end when a
    number reaches 0 carry a bound ([NoFuel] when it is reached; the properties show that it is
    not). Simplifications: arguments of variadic functions and the items of an iterable are a
    list; [None] keys and keys are one function [key] (the identity for [None]). Not modelled:
    these functions on floats and other types of numbers. *)
From Coq Require Import List ZArith Bool.
From Verif.Common Require Import Result Int64.
From Verif.Ir Require Import Num.
Import ListNotations.
Local Open Scope Z_scope.
Local Open Scope res_scope.

(** [a % b] and [a // b] on [int]: int.codon:148-153, 178-183; pynumerics.codon:94-100, 117-120 *)
Definition imod (py : bool) (a b : Z) : res Z :=
  if py then (if b =? 0 then Raise ZeroDivisionError else '(_, r) <- divmod_int_int a b ;; Ok r) else srem a b.
Definition idiv (py : bool) (a b : Z) : res Z :=
  if py then (if b =? 0 then Raise ZeroDivisionError else '(d, _) <- divmod_int_int a b ;; Ok d) else sdiv a b.
(** [abs(x)]: int.codon:61-66, [llvm.abs] leaves the smallest [int] as it is *)
Definition iabs (x : Z) : Z := w64 (Z.abs x).

(** math.codon:21-47 [factorial] *)
Definition factorials : list Z :=
  [1; 1; 2; 6; 24; 120; 720; 5040; 40320; 362880; 3628800; 39916800; 479001600; 6227020800; 87178291200;
   1307674368000; 20922789888000; 355687428096000; 6402373705728000; 121645100408832000; 2432902008176640000].
Definition factorial (x : Z) : res Z :=
  if negb ((0 <=? x) && (x <=? 20)) then Raise ValueError
  else match nth_error factorials (Z.to_nat x) with Some v => Ok v | None => Raise IndexError end.

(** math.codon:310-315 [_gcd2] *)
Fixpoint gcd_loop (py : bool) (fuel : nat) (a b : Z) : res Z :=
  match fuel with
  | O => NoFuel
  | S fuel => if a =? 0 then Ok b else r <- imod py b a ;; gcd_loop py fuel r a
  end.
Definition gcd2 (py : bool) (a b : Z) : res Z := gcd_loop py 130 (iabs a) (iabs b).
(** math.codon:326-329 *)
Fixpoint gcd_rest (py : bool) (acc : Z) (l : list Z) : res Z :=
  match l with
  | [] => Ok acc
  | x :: l => if acc =? 1 then Ok acc else r <- gcd2 py acc x ;; gcd_rest py r l
  end.
(** math.codon:317-331 [gcd] *)
Definition gcd (py : bool) (args : list Z) : res Z :=
  match args with
  | [] => Ok 0
  | [a] => Ok (iabs a)
  | a :: l => gcd_rest py a l
  end.
(** math.codon:335-336 [lcm2] *)
Definition lcm2 (py : bool) (a b : Z) : res Z :=
  g <- gcd2 py a b ;; q <- idiv py a g ;; Ok (iabs (w64 (q * b))).
(** math.codon:347-350 *)
Fixpoint lcm_rest (py : bool) (acc : Z) (l : list Z) : res Z :=
  match l with
  | [] => Ok acc
  | x :: l => if acc =? 0 then Ok acc else r <- lcm2 py acc x ;; lcm_rest py r l
  end.
(** math.codon:334-352 [lcm] *)
Definition lcm (py : bool) (args : list Z) : res Z :=
  match args with
  | [] => Ok 1
  | [a] => Ok (iabs a)
  | a :: l => lcm_rest py a l
  end.

(** math.codon:484-503 [prod] of integers *)
Definition prod (l : list Z) (start : Z) : Z := fold_left (fun r a => w64 (r * a)) l start.
(** builtin.codon:252-259 [sum] of a list of integers *)
Definition sum (l : list Z) (start : Z) : Z := fold_left (fun r a => w64 (r + a)) l start.

(** [x % mod if mod is not None else x] *)
Definition reduce (py : bool) (m : option Z) (x : Z) : res Z := match m with Some m => imod py x m | None => Ok x end.
(** builtin.codon:366-373 *)
Fixpoint pow_loop (py : bool) (m : option Z) (fuel : nat) (base exp result : Z) : res Z :=
  match fuel with
  | O => NoFuel
  | S fuel =>
      if 0 <? exp then
        result <- (if negb (Z.land exp 1 =? 0) then reduce py m (w64 (result * base)) else Ok result) ;;
        base <- reduce py m (w64 (base * base)) ;;
        pow_loop py m fuel base (Z.shiftr exp 1) result
      else Ok result
  end.
(** builtin.codon:356-374 [pow] of integers *)
Definition pow (py : bool) (base exp : Z) (m : option Z) : res Z :=
  if exp <? 0 then Raise ValueError
  else
    base <- (match m with Some m => if m =? 0 then Raise ValueError else imod py base m | None => Ok base end) ;;
    result <- pow_loop py m 65 base exp 1 ;;
    reduce py m result.

Section Order.
(** The comparisons [<], [>], [<=], [>=] of the keys. *)
Context {A K : Type} (lt gt le ge : K -> K -> bool) (key : A -> K).

(** builtin.codon:68-76, 96-101: [if i < s: s = i] *)
Definition keep_less (s : A) (l : list A) : A := fold_left (fun s i => if lt (key i) (key s) then i else s) l s.
(** builtin.codon:110-118, 138-143: [if i > s: s = i] *)
Definition keep_greater (s : A) (l : list A) : A := fold_left (fun s i => if gt (key i) (key s) then i else s) l s.
(** builtin.codon:66-84: [min] of an iterable *)
Definition min_of (l : list A) (default : option A) : res A :=
  match l with
  | s :: l => Ok (keep_less s l)
  | [] => match default with Some d => Ok d | None => Raise ValueError end
  end.
(** builtin.codon:108-126: [max] of an iterable *)
Definition max_of (l : list A) (default : option A) : res A :=
  match l with
  | s :: l => Ok (keep_greater s l)
  | [] => match default with Some d => Ok d | None => Raise ValueError end
  end.
(** builtin.codon:85-101: [min] of two or more arguments *)
Definition min_args (a b : A) (l : list A) : A :=
  match l with [] => if le (key a) (key b) then a else b | _ => keep_less a (b :: l) end.
(** builtin.codon:127-143: [max] of two or more arguments *)
Definition max_args (a b : A) (l : list A) : A :=
  match l with [] => if ge (key a) (key b) then a else b | _ => keep_greater a (b :: l) end.
End Order.
