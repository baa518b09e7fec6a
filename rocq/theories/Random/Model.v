(** Model of the pseudo-random generator in /repo/stdlib/random.codon.

    Simplifications: the state block of 625 words is a counter and a list of 624 words, with
    the accesses checked against the list's bounds; [u32] and [u64] values are integers reduced
    modulo 2^32 and 2^64. A non-negative [float] that is an integer is that integer, rounded to
    53 bits where the code rounds ([round53]); [random()] is its numerator over 2^53. The loops
    that end at random carry a bound ([NoFuel] when it is reached). The consumers of random
    words are modelled for any source [draw] of 32-bit words. Not modelled: the continuous
    distributions, [choices] with weights, seeding from the clock. *)
From Coq Require Import List ZArith Bool.
From Verif.Common Require Import Result Int64 Arr.
Import ListNotations.
Local Open Scope Z_scope.
Local Open Scope res_scope.

(** random.codon:9-10, 16-18 *)
Definition N : Z := 624.
Definition M : Z := 397.
Definition MATRIX_A : Z := 2567483615.
Definition UPPER_MASK : Z := 2147483648.
Definition LOWER_MASK : Z := 2147483647.

Definition u32 (x : Z) : Z := x mod 2^32.
Definition u64 (x : Z) : Z := x mod 2^64.

(** 20-33: [data\[0\]] and [data + 1] *)
Record gen := { index : Z; state : list Z }.

(** 46, 53-54: the new word from [y] and the word [c] *)
Definition mag01 (i : Z) : res Z := aget [0; MATRIX_A] i.
Definition mixed (a b c : Z) : res Z :=
  let y := Z.lor (Z.land a UPPER_MASK) (Z.land b LOWER_MASK) in
  g <- mag01 (Z.land y 1) ;; Ok (Z.lxor (Z.lxor c (Z.shiftr y 1)) g).
(** 52-55 and 57-60: [while kk < hi], reading the word at [kk + off] *)
Fixpoint refill (fuel : nat) (hi off kk : Z) (mt : list Z) : res (Z * list Z) :=
  match fuel with
  | O => NoFuel
  | S fuel =>
      if kk <? hi then
        a <- aget mt kk ;; b <- aget mt (kk + 1) ;; c <- aget mt (kk + off) ;;
        w <- mixed a b c ;; mt <- aset mt kk w ;; refill fuel hi off (kk + 1) mt
      else Ok (kk, mt)
  end.
(** 50-64 *)
Definition regenerate (mt : list Z) : res (list Z) :=
  '(kk, mt) <- refill (S (Z.to_nat N)) (N - M) M 0 mt ;;
  '(kk, mt) <- refill (S (Z.to_nat N)) (N - 1) (M - N) kk mt ;;
  a <- aget mt (N - 1) ;; b <- aget mt 0 ;; c <- aget mt (M - 1) ;;
  w <- mixed a b c ;; aset mt (N - 1) w.
(** 69-72 *)
Definition tempered (y : Z) : Z :=
  let y := Z.lxor y (Z.shiftr y 11) in
  let y := Z.lxor y (Z.land (u32 (Z.shiftl y 7)) 2636928640) in
  let y := Z.lxor y (Z.land (u32 (Z.shiftl y 15)) 4022730752) in
  Z.lxor y (Z.shiftr y 18).
(** 45-73 [genrand_int32] *)
Definition genrand_int32 (g : gen) : res (Z * gen) :=
  g <- (if N <=? index g then mt <- regenerate (state g) ;; Ok {| index := 0; state := mt |} else Ok g) ;;
  y <- aget (state g) (index g) ;;
  Ok (tempered y, {| index := u32 (index g + 1); state := state g |}).

(** 83-88 [init_u32] *)
Fixpoint init_loop (fuel : nat) (i : Z) (mt : list Z) : res (list Z) :=
  match fuel with
  | O => NoFuel
  | S fuel =>
      if i <? N then
        p <- aget mt (i - 1) ;;
        mt <- aset mt i (u32 (u32 (1812433253 * Z.lxor p (Z.shiftr p 30)) + u32 i)) ;;
        init_loop fuel (i + 1) mt
      else Ok mt
  end.
Definition init_u32 (mt : list Z) (s : Z) : res gen :=
  mt <- aset mt 0 s ;; mt <- init_loop (S (Z.to_nat N)) 1 mt ;; Ok {| index := N; state := mt |}.
(** 98-107 *)
Fixpoint key_loop (k : nat) (key : list Z) (i j : Z) (mt : list Z) : res (Z * list Z) :=
  match k with
  | O => Ok (i, mt)
  | S k =>
      p <- aget mt (i - 1) ;; x <- aget mt i ;; kj <- aget key j ;;
      mt <- aset mt i (u32 (u32 (Z.lxor x (u32 (Z.lxor p (Z.shiftr p 30) * 1664525)) + kj) + u32 j)) ;;
      let i := i + 1 in let j := j + 1 in
      '(i, mt) <- (if N <=? i then l <- aget mt (N - 1) ;; mt <- aset mt 0 l ;; Ok (1, mt) else Ok (i, mt)) ;;
      let j := if zlen key <=? j then 0 else j in
      key_loop k key i j mt
  end.
(** 109-116 *)
Fixpoint stir_loop (k : nat) (i : Z) (mt : list Z) : res (list Z) :=
  match k with
  | O => Ok mt
  | S k =>
      p <- aget mt (i - 1) ;; x <- aget mt i ;;
      mt <- aset mt i (u32 (Z.lxor x (u32 (Z.lxor p (Z.shiftr p 30) * 1566083941)) - u32 i)) ;;
      let i := i + 1 in
      '(i, mt) <- (if N <=? i then l <- aget mt (N - 1) ;; mt <- aset mt 0 l ;; Ok (1, mt) else Ok (i, mt)) ;;
      stir_loop k i mt
  end.
(** 90-118 [init_array] *)
Definition init_array (mt : list Z) (key : list Z) : res gen :=
  g <- init_u32 mt 19650218 ;;
  '(i, mt) <- key_loop (Z.to_nat (if zlen key <? N then N else zlen key)) key 1 0 (state g) ;;
  mt <- stir_loop (Z.to_nat (N - 1)) i mt ;;
  mt <- aset mt 0 2147483648 ;;
  Ok {| index := index g; state := mt |}.
(** 120-122 [init_int] *)
Definition init_int (mt : list Z) (s : Z) : res gen :=
  let lo := u32 (Z.land s (2^32 - 1)) in let hi := u32 (Z.shiftr s 32) in
  init_array mt (if hi =? 0 then [lo] else [lo; hi]).
(** 149-154 [Random.seed] with a number *)
Definition seed (g : gen) (a : Z) : res gen := init_int (state g) (w64 (Z.abs a)).

(** The float nearest to the integer [x >= 0], ties to even. *)
Definition round53 (x : Z) : Z :=
  let e := Z.log2 x - 52 in
  if e <=? 0 then x
  else
    let q := x / 2^e in let r := x mod 2^e in let h := 2^(e - 1) in
    (if (h <? r) || ((r =? h) && Z.odd q) then q + 1 else q) * 2^e.
(** [float(x)] *)
Definition f64 (x : Z) : Z := if x <? 0 then - round53 (- x) else round53 x.
(** [int(x)] of a float that is an integer *)
Definition int_of (x : Z) : res Z := if (min64 <=? x) && (x <=? max64) then Ok x else Undef.
(** [a // b] for [b <> 0]: /repo/stdlib/internal/types/int.codon:148-153 (C numerics, the
    default) or, with [-numerics=py], rounded down (C32) *)
Definition floordiv (py : bool) (a b : Z) : res Z :=
  if (a =? min64) && (b =? -1) then Undef else Ok (if py then a / b else Z.quot a b).

Section Source.
Context {G : Type} (draw : G -> res (Z * G)).

(** 75-78 [genrand_res53]: the numerator over 2^53 *)
Definition random_num (g : G) : res (Z * G) :=
  '(a, g) <- draw g ;; '(b, g) <- draw g ;;
  Ok (Z.shiftr a 5 * 67108864 + Z.shiftr b 6, g).

(** 165-185 [getrandbits] *)
Definition getrandbits (k : Z) (g : G) : res (Z * G) :=
  if k =? 0 then Ok (0, g)
  else if k <? 0 then Raise ValueError
  else if 64 <? k then Raise ValueError
  else if k <=? 32 then '(r, g) <- draw g ;; Ok (Z.shiftr r (32 - k), g)
  else
    '(lo, g) <- draw g ;; '(hi, g) <- draw g ;;
    let mask := Z.ldiff (2^64 - 1) (u64 (u64 (Z.shiftl 1 (64 - k)) - 1)) in
    let hi := Z.land hi mask in
    let hi := Z.shiftr hi (64 - k) in
    Ok (w64 (Z.lor (u64 (Z.shiftl hi 32)) lo), g).
(** 187-192 [bit_length] *)
Fixpoint bit_length (fuel : nat) (n : Z) : Z :=
  match fuel with
  | O => 0
  | S fuel => if n =? 0 then 0 else 1 + bit_length fuel (w64 (Z.shiftr (u64 n) 1))
  end.
(** 194-200 [_randbelow_with_getrandbits] *)
Fixpoint redraw (fuel : nat) (n k : Z) (g : G) : res (Z * G) :=
  match fuel with
  | O => NoFuel
  | S fuel => '(r, g) <- getrandbits k g ;; if n <=? r then redraw fuel n k g else Ok (r, g)
  end.
Definition randbelow (fuel : nat) (n : Z) (g : G) : res (Z * G) := redraw fuel n (bit_length 65 n) g.

(** 202-229 [randrange] *)
Definition randrange (py : bool) (fuel : nat) (start stop step : Z) (g : G) : res (Z * G) :=
  if stop =? 0 then
    if 0 <? start then randbelow fuel start g else Raise ValueError
  else
    let width := w64 (stop - start) in
    if (step =? 1) && (0 <? width) then '(r, g) <- randbelow fuel width g ;; Ok (w64 (start + r), g)
    else if step =? 1 then Raise ValueError
    else
      n <- (if 0 <? step then q <- floordiv py (w64 (w64 (width + step) - 1)) step ;; Ok (f64 q)
            else if step <? 0 then q <- floordiv py (w64 (w64 (width + step) + 1)) step ;; Ok (f64 q)
            else Raise ValueError) ;;
      if n <=? 0 then Raise ValueError
      else
        n <- int_of n ;;
        '(r, g) <- randbelow fuel n g ;; Ok (w64 (start + w64 (step * r)), g).
(** 231-232 [randint] *)
Definition randint (py : bool) (fuel : nat) (a b : Z) (g : G) : res (Z * G) := randrange py fuel a (w64 (b + 1)) 1 g.

(** Draws below each of [ns], in order: what the loops below ask for (197 for each [n]). *)
Fixpoint draw_below (fuel : nat) (ns : list Z) (g : G) : res (list Z * G) :=
  match ns with
  | [] => Ok ([], g)
  | n :: ns => '(j, g) <- randbelow fuel n g ;; '(l, g) <- draw_below fuel ns g ;; Ok (j :: l, g)
  end.

Context {A : Type}.
(** 240-245 [choice] *)
Definition choice (fuel : nat) (l : list A) (g : G) : res (A * G) :=
  if zlen l =? 0 then Raise IndexError
  else '(i, g) <- randbelow fuel (zlen l) g ;; x <- aget l i ;; Ok (x, g).

(** 247-254 [shuffle]: positions [i], ..., 1 *)
Fixpoint shuffle_loop (fuel : nat) (i : nat) (x : list A) (g : G) : res (list A * G) :=
  match i with
  | O => Ok (x, g)
  | S i' =>
      '(j, g) <- randbelow fuel (Z.of_nat i + 1) g ;;
      x <- aswap x (Z.of_nat i) j ;;
      shuffle_loop fuel i' x g
  end.
Definition shuffle (fuel : nat) (x : list A) (g : G) : res (list A * G) := shuffle_loop fuel (length x - 1) x g.

(** 439-442: [k] items left to choose, [i] chosen *)
Fixpoint from_pool (fuel : nat) (k : nat) (n i : Z) (pool result : list A) (g : G) : res (list A * G) :=
  match k with
  | O => Ok (result, g)
  | S k =>
      '(j, g) <- randbelow fuel (n - i) g ;;
      x <- aget pool j ;; result <- aset result i x ;;
      y <- aget pool (n - i - 1) ;; pool <- aset pool j y ;;
      from_pool fuel k n (i + 1) pool result g
  end.
(** 447-449 *)
Fixpoint fresh (tries fuel : nat) (n : Z) (selected : list Z) (g : G) : res (Z * G) :=
  match tries with
  | O => NoFuel
  | S tries =>
      '(j, g) <- randbelow fuel n g ;;
      if existsb (Z.eqb j) selected then fresh tries fuel n selected g else Ok (j, g)
  end.
(** 446-451; the set of chosen positions is a list of them (C03) *)
Fixpoint by_set (fuel : nat) (k : nat) (n i : Z) (pop result : list A) (selected : list Z) (g : G) : res (list A * G) :=
  match k with
  | O => Ok (result, g)
  | S k =>
      '(j, g) <- fresh fuel fuel n selected g ;;
      x <- aget pop j ;; result <- aset result i x ;;
      by_set fuel k n (i + 1) pop result (j :: selected) g
  end.
(** 426-452 [sample]; [small]: the population is below the size computed in 432-436 *)
Definition sample (fuel : nat) (small : bool) (pop : list A) (k : Z) (g : G) : res (list A * G) :=
  let n := zlen pop in
  if negb ((0 <=? k) && (k <=? n)) then Raise ValueError
  else
    result <- (if k =? 0 then Ok [] else x <- aget pop 0 ;; Ok (repeat x (Z.to_nat k))) ;;
    if small then from_pool fuel (Z.to_nat k) n 0 pop result g
    else by_set fuel (Z.to_nat k) n 0 pop result [] g.

(** 477 [choices] without weights: [int(self.random() * n)], the product rounded to a float *)
Definition choice_index (n : Z) (g : G) : res (Z * G) :=
  '(r, g) <- random_num g ;; Ok (round53 (r * n) / 2^53, g).
Fixpoint choices (pop : list A) (k : nat) (g : G) : res (list A * G) :=
  match k with
  | O => Ok ([], g)
  | S k => '(i, g) <- choice_index (zlen pop) g ;; x <- aget pop i ;; '(l, g) <- choices pop k g ;; Ok (x :: l, g)
  end.
End Source.
