(** Model of stdlib/numpy/npio.codon:2459-2496: pickling of ndarrays.

    Arrays are those of Nd/Model.v, with elements of a type [t] of PickleModel.v; the cells of a
    block hold whole elements.  Sizes multiplied for raw reads and writes wrap at 64 bits. *)
From Coq Require Import List ZArith Bool.
From Verif.Common Require Import Result Int64 Arr.
From Verif.Nd Require Import Spec Model.
From Verif.Pickle Require Import PickleModel.
Import ListNotations.
Local Open Scope Z_scope.
Local Open Scope res_scope.

Section NdPickle.
Context (eqb : forall t, den t -> den t -> bool) (hash : forall t, den t -> Z).
Context (junk : nat -> list Z) (t : ty).
Notation heap := (@heap (den t)).

(** npio.codon:2461-2476 [ndarray.__pickle__] *)
Definition nd_pickle (h : heap) (a : nd) : res (list Z) :=
  let '(cc, fc) := contig a in
  let forder := fc && negb cc in
  f <- write TInt (if forder then 1 else 0) ;;
  s <- pickle_all (write TInt) (shape a) ;;
  d <- (if atomic t && (fc || cc) then
          write_raw (concat (map (fun i => image t (load h (blk a, base a + i * isz a))) (zrange (size a))))
            (w64 (size a * isz a))
        else pickle_all (fun c => pickle junk t (load h (ptr a c))) (multirange (shape a))) ;;
  Ok (f ++ s ++ d).

(** [p[i] = x] for i = i, i+1, ... in block [b] *)
Fixpoint fill (h : heap) (b : nat) (i : Z) (vs : list (den t)) : heap :=
  match vs with
  | [] => h
  | v :: vs => fill (store h (b, i * Z.of_nat (sizeof t)) v) b (i + 1) vs
  end.

(** npio.codon:2478-2492 [ndarray.__unpickle__] for an array of [ndim] axes *)
Definition nd_unpickle (h : heap) (ndim : nat) (inp : list Z) : res ((heap * nd) * list Z) :=
  ' (f, inp) <- read TInt inp ;;
  let forder := negb (f =? 0) in
  ' (sh, inp) <- unpickle_all (read TInt) ndim inp ;;
  let n := count sh in
  let '(h, b) := alloc (dummy t) h in
  ' (vs, inp) <- (if atomic t then
      ' (bs, inp) <- read_raw inp (w64 (n * Z.of_nat (sizeof t))) ;; Ok (cut t (Z.to_nat n) bs, inp)
    else unpickle_all (unpickle eqb hash t) (Z.to_nat n) inp) ;;
  Ok ((fill h b 0 vs, mk b 0 (Z.of_nat (sizeof t)) sh forder), inp).
End NdPickle.
