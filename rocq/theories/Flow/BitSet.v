(** Bit sets: codon/cir/analyze/dataflow/reaching.cpp:66-120, as 64-bit words. *)
From Coq Require Import List Bool ZArith.
Import ListNotations.
Local Open Scope Z_scope.

(** lines 67-68 *)
Definition B : nat := 64.
Definition allocSize (size : nat) : nat := Nat.div (size + 63) 64.
Definition bits := list Z.
Definition at_ (w : bits) (i : nat) : Z := nth i w 0.
Fixpoint wset (w : bits) (i : nat) (x : Z) : bits :=
  match w, i with
  | [], _ => []
  | _ :: w, O => x :: w
  | y :: w, S i => y :: wset w i x
  end.
(** line 72 *)
Definition empty (size : nat) : bits := repeat 0 (allocSize size).
(** line 80 *)
Definition set (w : bits) (bit : nat) : bits :=
  wset w (Nat.div bit 64) (Z.lor (at_ w (Nat.div bit 64)) (Z.shiftl 1 (Z.of_nat (Nat.modulo bit 64)))).
(** lines 82-84 *)
Definition get (w : bits) (bit : nat) : bool :=
  negb (Z.land (at_ w (Nat.div bit 64)) (Z.shiftl 1 (Z.of_nat (Nat.modulo bit 64))) =? 0).
(** lines 86-89 (memcmp) *)
Fixpoint equals (v w : bits) : bool :=
  match v, w with
  | [], [] => true
  | a :: v, b :: w => (a =? b) && equals v w
  | _, _ => false
  end.
Fixpoint map2 (f : Z -> Z -> Z) (v w : bits) : bits :=
  match v, w with
  | a :: v, b :: w => f a b :: map2 f v w
  | _, _ => []
  end.
(** lines 101-108 *)
Definition update (v w : bits) : bits := map2 Z.lor v w.
(** lines 110-117; [~] is on 64-bit words *)
Definition subtract (v w : bits) : bits := map2 (fun p q => Z.land p (Z.lxor q (2 ^ 64 - 1))) v w.
