(** What the generator and its consumers promise, independent of the code. *)
From Coq Require Import List ZArith Bool Permutation.
From Verif.Common Require Import Result Int64 Arr.
Import ListNotations.
Local Open Scope Z_scope.
Local Open Scope res_scope.

Definition word (x : Z) : Prop := 0 <= x < 2^32.

(** The Mersenne twister MT19937 of Matsumoto and Nishimura: an infinite sequence of words in
    which, with [n = 624], [m = 397], [r = 31],
      [x (k + n) = x (k + m) xor (upper bit of x k, lower 31 bits of x (k + 1)) A]. *)
Definition times_A (y : Z) : Z := if Z.odd y then Z.lxor (y / 2) 0x9908b0df else y / 2.
Definition next_word (xm x0 x1 : Z) : Z := Z.lxor xm (times_A (x0 / 2^31 * 2^31 + x1 mod 2^31)).
Definition mt_sequence (x : Z -> Z) : Prop :=
  forall k, 0 <= k -> x (k + 624) = next_word (x (k + 397)) (x k) (x (k + 1)).
(** The tempering, with the parameters u, s, b, t, c, l of the paper. *)
Definition temper (x : Z) : Z :=
  let y := Z.lxor x (x / 2^11) in
  let y := Z.lxor y (Z.land (y * 2^7) 0x9d2c5680) in
  let y := Z.lxor y (Z.land (y * 2^15) 0xefc60000) in
  Z.lxor y (y / 2^18).
(** The sequence that starts with the 624 words [l]: a window moved one word at a time. *)
Definition slide (l : list Z) : list Z :=
  match l with
  | [] => []
  | a :: l' => l' ++ [next_word (nth 397 l 0) a (nth 1 l 0)]
  end.
Definition mt_from (l : list Z) (k : Z) : Z := hd 0 (Nat.iter (Z.to_nat k) slide l).

(** [r] is one of the values [range(start, stop, step)]. *)
Definition in_range (start stop step r : Z) : Prop :=
  exists i, 0 <= i /\ r = start + step * i /\ (0 < step -> r < stop) /\ (step < 0 -> stop < r).
Definition empty_range (start stop step : Z) : Prop := forall r, ~ in_range start stop step r.

(** [r] is a choice of [k] of the items of [pop], at different positions. *)
Definition sample_of {A} (pop r : list A) (k : Z) : Prop :=
  Z.of_nat (length r) = k /\ exists rest, Permutation pop (r ++ rest).

(** [m] gives a result in [Q] or reaches its bound: no exception and no undefined behaviour. *)
Definition may {A} (m : res A) (Q : A -> Prop) : Prop := match m with Ok a => Q a | NoFuel => True | _ => False end.

(** A source of random words: in a state satisfying [I] it gives a word and stays in [I]. *)
Definition source {G} (draw : G -> res (Z * G)) (I : G -> Prop) : Prop :=
  forall g, I g -> exists w g', draw g = Ok (w, g') /\ word w /\ I g'.

(** The exchanges of a shuffle: position [length js] with the first of [js], and so on down to 1. *)
Fixpoint exchange {A} (js : list Z) (x : list A) : res (list A) :=
  match js with
  | [] => Ok x
  | j :: js' => x <- aswap x (Z.of_nat (length js)) j ;; exchange js' x
  end.
Fixpoint fitting (js : list Z) : Prop := match js with [] => True | j :: js' => 0 <= j <= Z.of_nat (length js) /\ fitting js' end.
(** [i + 1], [i], ..., 2 *)
Fixpoint down (i : nat) : list Z := match i with O => [] | S i' => (Z.of_nat i + 1) :: down i' end.
