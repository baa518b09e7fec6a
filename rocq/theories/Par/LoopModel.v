(** Model of Codon's parallel loops: the loop templates of /repo/stdlib/openmp.codon
    as instantiated by /repo/codon/cir/transform/parallel/openmp.cpp.

    A thread runs its template with the runtime's answers as a parameter.  Not
    modelled here: reductions (ReductionModel.v), [ordered] regions, the task-based
    loops over generators, GPU loops, and effects of the body other than on the loop
    variable and on the variables shared with the enclosing function. *)
From Coq Require Import ZArith List Bool String.
From Verif.Common Require Import Result Int64.
From Verif.List Require Import SliceSpec SliceModel.
From Verif.Par Require Import LoopSpec.
Import ListNotations.
Local Open Scope Z_scope.
Local Open Scope res_scope.

(** What a thread did: the values of the loop variable with which the body was
    entered, its private copies of the shared variables at the end, and the values
    it stored back to the shared variables. *)
Record thread_out (L : Type) := Out { t_trace : list Z; t_local : L; t_stores : list L }.
Arguments Out {L}.
Arguments t_trace {L}.
Arguments t_local {L}.
Arguments t_stores {L}.

(** openmp.codon:217, 251: [range(loop._get(lower), loop._get(upper + 1), loop.step)] *)
Definition sub_range (loop : range) (lower upper : Z) : res range :=
  range_new (range_get_raw loop lower) (range_get_raw loop (w64 (upper + 1))) (r_step loop).

(** openmp.codon:198-217 [_static_init]; [rt] is __kmpc_for_static_init_8 for this
    thread, given the chunk size and the upper bound (the lower bound is 0). *)
Definition static_init (rt : Z -> Z -> part) (loop : range) (chunk : Z) :
    res (bool * range * Z) :=
  n <- range_len loop ;;
  let p := rt chunk (w64 (n - 1)) in
  s <- sub_range loop (p_lower p) (p_upper p) ;;
  Ok (p_last p, s, p_stride p).

(** The loop conditions of openmp.codon:378, 431, 433, 494. *)
Definition cont (step i stop : Z) : bool :=
  ((0 <=? step) && (i <? stop)) || ((step <? 0) && (stop <? i)).

(** openmp.codon:376, 429, 439. *)
Definition clamp (step a b : Z) : Z := if 0 <=? step then Z.min a b else Z.max a b.

Section Templates.
  Context {L : Type}.
  Context (body : Z -> L -> Z * L).

  (** The innermost loops, openmp.codon:378-380, 433-435, 494-496.  The body gets a
      pointer to the template's own loop variable if it assigns it
      (openmp.cpp:755-764), so it returns the variable's value. *)
  Fixpoint run (fuel : nat) (step stop i : Z) (l : L) : res (list Z * L) :=
    match fuel with
    | O => NoFuel
    | S fuel =>
        if cont step i stop then
          let '(i', l') := body i l in
          rest <- run fuel step stop (w64 (i' + step)) l' ;;
          Ok (i :: fst rest, snd rest)
        else Ok ([], l)
    end.

  (** openmp.codon:362-386 [_static_loop_outline_template]; [l] is the initial value
      of the private copies (openmp.cpp:729-747). *)
  Definition static_thread (fuel : nat) (rt : Z -> Z -> part) (start stop step : Z) (l : L) :
      res (thread_out L) :=
    loop <- range_new start stop step ;;
    '(last, sub, _) <- static_init rt loop 1 ;;
    '(tr, l') <- run fuel step (clamp step (r_stop sub) (r_stop loop)) (r_start sub) l ;;
    Ok (Out tr l' (if (last : bool) then [l'] else [])).

  (** openmp.codon:431-439: the outer loop of the chunked template. *)
  Fixpoint run_chunks (k fuel : nat) (step lstop stride start stop : Z) (l : L) :
      res (list Z * L) :=
    match k with
    | O => NoFuel
    | S k =>
        if cont step start lstop then
          '(tr, l') <- run fuel step stop start l ;;
          rest <- run_chunks k fuel step lstop stride
                    (w64 (start + w64 (stride * step)))
                    (clamp step (w64 (stop + w64 (stride * step))) lstop) l' ;;
          Ok (tr ++ fst rest, snd rest)
        else Ok ([], l)
    end.

  (** openmp.codon:415-445 [_static_chunked_loop_outline_template] *)
  Definition chunked_thread (fuel : nat) (rt : Z -> Z -> part) (chunk start stop step : Z)
      (l : L) : res (thread_out L) :=
    loop <- range_new start stop step ;;
    '(last, sub, stride) <- static_init rt loop chunk ;;
    '(tr, l') <- run_chunks fuel fuel step (r_stop loop) stride (r_start sub)
                   (clamp step (r_stop sub) (r_stop loop)) l ;;
    Ok (Out tr l' (if (last : bool) then [l'] else [])).

  (** openmp.codon:489-500: [ps] are the successive answers of
      __kmpc_dispatch_next_8 to this thread, before it answers "no more". *)
  Fixpoint run_dynamic (fuel : nat) (loop : range) (ps : list part) (l : L) :
      res (thread_out L) :=
    match ps with
    | [] => Ok (Out [] l [])
    | p :: ps =>
        sub <- sub_range loop (p_lower p) (p_upper p) ;;
        '(tr, l') <- run fuel (r_step loop) (r_stop sub) (r_start sub) l ;;
        o <- run_dynamic fuel loop ps l' ;;
        Ok (Out (tr ++ t_trace o) (t_local o) ((if p_last p then [l'] else []) ++ t_stores o))
    end.

  (** openmp.codon:478-502 [_dynamic_loop_outline_template] *)
  Definition dynamic_thread (fuel : nat) (rt : Z -> Z -> list part)
      (chunk start stop step : Z) (l : L) : res (thread_out L) :=
    loop <- range_new start stop step ;;
    n <- range_len loop ;;
    run_dynamic fuel loop (rt chunk (w64 (n - 1))) l.
End Templates.

(** schedule.cpp:16-44 [getScheduleCode] ([monotonic] is never set) *)
Definition schedule_code (schedule : string) (chunked ordered : bool) : Z :=
  (if schedule =? "static" then
     if chunked then if ordered then 65 else 33 else if ordered then 66 else 34
   else if schedule =? "dynamic" then Z.lor (if ordered then 67 else 35) (2 ^ 30)
   else if schedule =? "guided" then Z.lor (if ordered then 68 else 36) (2 ^ 30)
   else if schedule =? "runtime" then Z.lor (if ordered then 69 else 37) (2 ^ 30)
   else if schedule =? "auto" then Z.lor (if ordered then 70 else 38) (2 ^ 30)
   else 34)%string.

Inductive template := StaticTemplate | ChunkedTemplate | DynamicTemplate.

(** openmp.cpp:1550-1559 with schedule.cpp:60-65: [dynamic] is
    [(schedule != "static") || ordered] *)
Definition choose_template (schedule : string) (chunked ordered : bool) : template :=
  if negb (schedule =? "static")%string || ordered then DynamicTemplate
  else if chunked then ChunkedTemplate else StaticTemplate.

(** ** Collapsing loop nests *)

(** openmp.codon:880-886 [_range_len] *)
Definition omp_range_len (start stop step : Z) : res Z :=
  if (0 <? step) && (start <? stop) then
    q <- sdiv (w64 (w64 (stop - 1) - start)) step ;; Ok (w64 (1 + q))
  else if (step <? 0) && (stop <? start) then
    q <- sdiv (w64 (w64 (start - 1) - stop)) (w64 (0 - step)) ;; Ok (w64 (1 + q))
  else Ok 0.

(** openmp.cpp:1351-1362: every level's bounds and length are computed before the
    loop, when the loop variables still have the values [old] they had there. *)
Fixpoint collapse_setup (old : list Z) (outer : nat) (vs : list level) :
    res (list (Z * Z * Z)) :=
  match vs with
  | [] => Ok []
  | v :: vs =>
      let start := lv_start v (firstn outer old) in
      let stop := lv_stop v (firstn outer old) in
      len <- omp_range_len start stop (lv_step v) ;;
      rest <- collapse_setup old (S outer) vs ;;
      Ok ((start, lv_step v, len) :: rest)
  end.

(** openmp.cpp:1364-1367: the number of iterations of the collapsed loop *)
Definition collapse_count (rs : list (Z * Z * Z)) : Z :=
  fold_left (fun acc r => w64 (acc * snd r)) rs 1.

(** openmp.cpp:1377-1389: "reconstruct indices by successive divmods", innermost
    level first ([rs] is reversed); a division by zero is undefined.  The result is
    in the order of [rs]. *)
Fixpoint collapse_indices (rs : list (Z * Z * Z)) (k : Z) : res (list Z) :=
  match rs with
  | [] => Ok []
  | (start, step, len) :: rs =>
      div <- (if len =? 0 then Undef else Ok (w64 (k / len))) ;;
      m <- (if len =? 0 then Undef else Ok (k mod len)) ;;
      rest <- collapse_indices rs div ;;
      Ok (w64 (start + w64 (m * step)) :: rest)
  end.

(** The loop variables' values (outermost first) in iteration [k] of the collapsed loop. *)
Definition collapse_at (rs : list (Z * Z * Z)) (k : Z) : res (list Z) :=
  is <- collapse_indices (rev rs) k ;; Ok (rev is).

(** ** The OpenMP runtime's algorithms

    These are outside /repo (LLVM's kmp_sched.cpp); they are here only to show that
    the contracts of LoopSpec.v can be met, for every number of threads. *)

Definition kmp_static (nth : Z) (tid : Z) (chunk upper : Z) : part :=
  let n := upper + 1 in
  if n <=? 0 then Part false 0 upper 1
  else if n <? nth then
    if tid <? n then Part (tid =? n - 1) tid tid n else Part (tid =? n - 1) (upper + 1) upper n
  else
    let q := n / nth in let e := n mod nth in
    let lo := tid * q + (if tid <? e then tid else e) in
    Part (tid =? nth - 1) lo (lo + q - (if tid <? e then 0 else 1)) n.

Definition kmp_chunked (nth : Z) (tid : Z) (chunk upper : Z) : part :=
  let n := upper + 1 in
  if n <=? 0 then Part false 0 upper 1
  else
    let c := if chunk <? 1 then 1 else if n <? chunk then n else chunk in
    let nchunks := n / c + (if n mod c =? 0 then 0 else 1) in
    if nchunks <? nth then
      if tid <? nchunks then
        Part (tid =? (nchunks - 1) mod nth) (c * tid) (c * tid + c - 1) (c * nchunks)
      else Part (tid =? (nchunks - 1) mod nth) (upper + 1) upper (c * nchunks)
    else Part (tid =? (nchunks - 1) mod nth) (c * tid) (c * tid + c - 1) (c * nth).

(** Chunks of size [c] (at least 1) are given out in order; [who j] is the thread
    that happens to ask for the [j]-th. *)
Definition kmp_dynamic (who : nat -> Z) (tid : Z) (chunk upper : Z) : list part :=
  let n := upper + 1 in
  let c := Z.max 1 chunk in
  let nchunks := n / c + (if n mod c =? 0 then 0 else 1) in
  map (fun j => let lo := Z.of_nat j * c in let hi := Z.min (lo + c - 1) upper in
                Part (hi =? upper) lo hi 1)
      (filter (fun j => who j =? tid) (seq 0 (Z.to_nat nchunks))).

(** A team of threads: thread [t] runs with its own runtime answers and its own
    initial private copies.  The threads run independently of one another. *)
Fixpoint team {R L} (thread : R -> L -> res (thread_out L)) (rts : list R) (ls : list L) :
    res (list (thread_out L)) :=
  match rts, ls with
  | rt :: rts, l :: ls =>
      o <- thread rt l ;; os <- team thread rts ls ;; Ok (o :: os)
  | _, _ => Ok []
  end.

(** All values of the loop variable with which some thread ran the body, and all
    stores to the shared variables. *)
Definition team_trace {L} (os : list (thread_out L)) : list Z := List.concat (map t_trace os).
Definition team_stores {L} (os : list (thread_out L)) : list L := List.concat (map t_stores os).
