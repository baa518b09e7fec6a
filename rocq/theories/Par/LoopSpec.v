(** Specification for parallel loops: what the OpenMP runtime promises about the
    parts of the iteration space it hands to threads, and what a sequential loop does.

    Iterations are numbered 0 .. n-1; iteration [m] of a range is its [m]-th element. *)
From Coq Require Import ZArith List Permutation Bool.
From Verif.List Require Import SliceSpec SliceModel.
Import ListNotations.
Local Open Scope Z_scope.

(** The [m]-th value of [range(start, stop, step)]. *)
Definition elem (r : range) (m : Z) : Z := r_start r + m * r_step r.

(** The iteration numbers a, a+1, ..., b-1. *)
Definition seg (a b : Z) : list Z := progression a 1 (b - a).

(** One answer of the runtime: iterations [p_lower .. p_upper], whether they include
    the sequentially last iteration, and (for static chunked schedules) the distance
    from one chunk of this thread to its next. *)
Record part := Part { p_last : bool; p_lower : Z; p_upper : Z; p_stride : Z }.

Definition part_indices (p : part) : list Z := seg (p_lower p) (p_upper p + 1).

(** [schedule(static)]: one interval per thread (possibly empty); together the
    intervals are 0 .. n-1, each number once. *)
Definition static_contract (n : Z) (ps : list part) : Prop :=
  Forall (fun p => 0 <= p_lower p <= p_upper p + 1 /\ p_upper p + 1 <= n /\
                   (p_last p = true <-> In (n - 1) (part_indices p))) ps /\
  Permutation (concat (map part_indices ps)) (seg 0 n).

(** [schedule(static, chunk)]: the first chunk of each thread and a stride; the
    thread's chunks are that one and all its translates by the stride. *)
Definition cyclic_indices (n : Z) (p : part) : list Z :=
  filter (fun x => (p_lower p <=? x) &&
                   ((x - p_lower p) mod p_stride p <=? p_upper p - p_lower p)) (seg 0 n).

Definition chunked_contract (n : Z) (ps : list part) : Prop :=
  Forall (fun p => 0 <= p_lower p <= p_upper p + 1 /\ p_lower p <= n /\
                   p_upper p - p_lower p < p_stride p /\ 0 < p_stride p /\
                   (p_last p = true <-> In (n - 1) (cyclic_indices n p))) ps /\
  Permutation (concat (map (cyclic_indices n) ps)) (seg 0 n).

(** [schedule(dynamic)], [guided], ...: a sequence of intervals per thread. *)
Definition dynamic_contract (n : Z) (pss : list (list part)) : Prop :=
  Forall (Forall (fun p => 0 <= p_lower p <= p_upper p /\ p_upper p < n /\
                   (p_last p = true <-> In (n - 1) (part_indices p)))) pss /\
  Permutation (concat (map (fun ps => concat (map part_indices ps)) pss)) (seg 0 n).

(** The sequential loop: the body, given the value of the loop variable and the
    variables it shares with the enclosing function, returns both. *)
Definition sequential {L} (body : Z -> L -> Z * L) (xs : list Z) (l : L) : L :=
  fold_left (fun l i => snd (body i l)) xs l.

(** The body does not assign the loop variable. *)
Definition keeps {L} (body : Z -> L -> Z * L) : Prop := forall i l, fst (body i l) = i.

(** A loop nest: each level has a constant step and bounds that may depend on the
    values of the enclosing loops' variables (outermost first). *)
Record level := Level { lv_start : list Z -> Z; lv_stop : list Z -> Z; lv_step : Z }.

Definition level_range (v : level) (outer : list Z) : range :=
  Range (lv_start v outer) (lv_stop v outer) (lv_step v).

(** The values of the loop variables with which the innermost body runs, in order. *)
Fixpoint nest (outer : list Z) (vs : list level) : list (list Z) :=
  match vs with
  | [] => [outer]
  | v :: vs =>
      let r := level_range v outer in
      flat_map (fun i => nest (outer ++ [i]) vs)
               (progression (r_start r) (r_step r)
                  (progression_count (r_start r) (r_stop r) (r_step r)))
  end.
