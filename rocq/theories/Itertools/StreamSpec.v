(** What the functions of itertools and zip must yield, said with positions. *)
From Coq Require Import List ZArith Bool Arith.
Import ListNotations.

(** The elements of [l] whose position satisfies [p], in order. *)
Definition at_indices {A} (p : Z -> bool) (l : list A) : list A :=
  map snd (filter (fun ix => p (fst ix)) (combine (map Z.of_nat (seq 0 (length l))) l)).

(** Position [i] belongs to the slice [start:stop:step]; no [stop], no end. *)
Definition in_slice (start : Z) (stop : option Z) (step : Z) (i : Z) : bool :=
  ((start <=? i) && (match stop with None => true | Some s => i <? s end)
   && ((i - start) mod step =? 0))%Z.

Definition longest {A} (ls : list (list A)) : nat := fold_right (fun l m => Nat.max (length l) m) 0 ls.

Fixpoint shortest {A} (ls : list (list A)) : nat :=
  match ls with
  | [] => 0
  | [l] => length l
  | l :: ls => Nat.min (length l) (shortest ls)
  end.

(** What a consumer of [tee] sees when it advances the copies in the order
    [sched]: the copy advanced for the [c]-th time (from 0) gets element [c], or
    is at its end. *)
Definition tee_trace {A} (l : list A) (sched : list nat) : list (nat * option A) :=
  map (fun p => let i := nth p sched 0 in
                (i, nth_error l (count_occ Nat.eq_dec (firstn p sched) i)))
      (seq 0 (length sched)).

(** [gs] splits [l] into non-empty runs of one key, each with the key of its first
    element; neighbouring runs have different keys ([ne]), and the first run's key
    differs from [p]. *)
Inductive runs {A K} (ne : K -> K -> bool) (key : A -> K) : option K -> list (K * list A) -> list A -> Prop :=
| runs_nil p : runs ne key p [] []
| runs_cons p k x g gs l :
    key x = k -> match p with None => True | Some k0 => ne k k0 = true end ->
    Forall (fun y => ne (key y) k = false) (x :: g) ->
    runs ne key (Some k) gs l ->
    runs ne key p ((k, x :: g) :: gs) (x :: g ++ l).
