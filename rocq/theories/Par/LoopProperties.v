(** C62: a parallel loop runs every iteration exactly once, leaves the values of the
    last iteration, and a collapsed nest runs the iterations of the nest. *)
From Coq Require Import ZArith List Bool Lia Permutation String.
From Verif.Common Require Import Result Int64.
From Verif.List Require Import SliceSpec SliceModel SliceProofs.
From Verif.Par Require Import LoopSpec LoopModel Loop LoopTeam LoopRuntime LoopCollapse.
Import ListNotations.
Local Open Scope Z_scope.

(** What every schedule guarantees: [os] are the threads' results for the loop over [r].
    - the body runs exactly for the elements of the range, each once;
    - if each iteration determines [get] of the shared variables, then exactly one store to
      the shared variables happens (none if the range is empty), and what it stores agrees
      on [get] with the sequential loop, from whatever values the loop started. *)
Definition loop_correct {L} (body : Z -> L -> Z * L) (r : range) (os : list (thread_out L)) : Prop :=
  Permutation (team_trace os) (range_elems r) /\
  forall V (get : L -> V),
    (forall i l1 l2, get (snd (body i l1)) = get (snd (body i l2))) ->
    (range_elems r = [] -> team_stores os = []) /\
    (range_elems r <> [] -> forall l0, exists v, team_stores os = [v] /\
        get v = get (sequential body (range_elems r) l0)).

Lemma finish {L} (body : Z -> L -> Z * L) r os (items : list (@item L)) :
  range_ok r -> span_fits r ->
  Permutation (team_trace os) (range_elems r) ->
  Permutation (List.concat (map it_idx items)) (seg 0 (range_count_spec r)) ->
  Forall (item_ok (range_count_spec r)) items ->
  team_stores os = stored body r items -> loop_correct body r os.
Proof.
  intros Hr Hs HP HI HF HS. split; [exact HP|]. intros V get Hget.
  destruct (range_len_spec r Hr Hs) as [_ HN].
  assert (E : range_elems r = [] <-> range_count_spec r = 0).
  { unfold range_elems. pose proof (progression_length (r_start r) (r_step r) (range_count_spec r)) as PL.
    split; intros X.
    - rewrite X in PL. simpl in PL. lia.
    - rewrite X. apply progression_nil. lia. }
  split; intros X.
  - rewrite HS.
    apply (stored_none body r (range_count_spec r)); auto. intros HIn.
    apply (Permutation_in _ HI) in HIn. apply seg_in in HIn. apply E in X. lia.
  - intros l0. destruct (stored_spec body r get (range_count_spec r) items l0) as [_ S2]; auto; try lia.
    assert (range_count_spec r <> 0) by (intros Z0; apply X, E, Z0).
    destruct (S2 ltac:(lia)) as (v & E1 & E2). exists v. rewrite HS, range_elems_seg. auto.
Qed.

(** ** The schedules

    For every loop body that does not assign the loop variable, every range whose
    arithmetic stays inside int64 ([fits]), every number of threads, every division of
    the iterations the runtime may choose and every initial values of the private
    copies. *)

Theorem C62_static_partial :
  forall {L} (body : Z -> L -> Z * L), keeps body ->
  forall r, fits r ->
  forall rts : list (Z -> Z -> part),
  static_contract (range_count_spec r) (map (fun rt => rt 1 (range_count_spec r - 1)) rts) ->
  forall ls fuel, List.length ls = List.length rts -> (Z.to_nat (range_count_spec r) < fuel)%nat ->
  exists os,
    team (fun rt => static_thread body fuel rt (r_start r) (r_stop r) (r_step r)) rts ls = Ok os /\
    loop_correct body r os /\
    map t_trace os = map (fun rt => map (elem r) (part_indices (rt 1 (range_count_spec r - 1)))) rts.
Proof.
  intros L body Hk r F rts [C1 C2] ls fuel HL Hf.
  destruct (team_static body Hk r fuel rts ls F C1 HL Hf) as (os & items & E1 & E2 & E3 & E4 & E5).
  exists os. split; [exact E1|]. split; [|exact E2]. rewrite map_map in C2.
  destruct F as (Hr & Hs & _). apply finish with (items := items); auto.
  - unfold team_trace. rewrite E2, range_elems_seg.
    rewrite <- (map_map (fun rt => part_indices (rt 1 (range_count_spec r - 1))) (map (elem r))).
    rewrite map_concat_elem. now apply Permutation_map.
  - now rewrite E3.
Qed.

Theorem C62_chunked_partial :
  forall {L} (body : Z -> L -> Z * L), keeps body ->
  forall r, fits r ->
  forall chunk (rts : list (Z -> Z -> part)),
  let n := range_count_spec r in
  chunked_contract n (map (fun rt => rt chunk (n - 1)) rts) ->
  (* a thread looks one stride past the end *)
  Forall (fun p => n + p_stride p <= max64 /\ in64 (elem r (n + p_stride p)))
    (map (fun rt => rt chunk (n - 1)) rts) ->
  forall ls fuel, List.length ls = List.length rts -> (Z.to_nat n < fuel)%nat ->
  exists os,
    team (fun rt => chunked_thread body fuel rt chunk (r_start r) (r_stop r) (r_step r)) rts ls = Ok os /\
    loop_correct body r os /\
    map t_trace os = map (fun rt => map (elem r) (cyclic_indices n (rt chunk (n - 1)))) rts.
Proof.
  intros L body Hk r F chunk rts n [C1 C2] HG ls fuel HL Hf.
  destruct (team_chunked body Hk r fuel chunk rts ls F C1 HG HL Hf) as (os & items & E1 & E2 & E3 & E4 & E5).
  exists os. split; [exact E1|]. split; [|exact E2]. rewrite map_map in C2.
  destruct F as (Hr & Hs & _). apply finish with (items := items); auto.
  - unfold team_trace. rewrite E2, range_elems_seg.
    rewrite <- (map_map (fun rt => cyclic_indices (range_count_spec r) (rt chunk (range_count_spec r - 1)))
                        (map (elem r))).
    rewrite map_concat_elem. now apply Permutation_map.
  - now rewrite E3.
Qed.

Theorem C62_dynamic_partial :
  forall {L} (body : Z -> L -> Z * L), keeps body ->
  forall r, fits r ->
  forall chunk (rts : list (Z -> Z -> list part)),
  let n := range_count_spec r in
  dynamic_contract n (map (fun rt => rt chunk (n - 1)) rts) ->
  forall ls fuel, List.length ls = List.length rts -> (Z.to_nat n < fuel)%nat ->
  exists os,
    team (fun rt => dynamic_thread body fuel rt chunk (r_start r) (r_stop r) (r_step r)) rts ls = Ok os /\
    loop_correct body r os /\
    map t_trace os = map (fun rt => map (elem r) (List.concat (map part_indices (rt chunk (n - 1))))) rts.
Proof.
  intros L body Hk r F chunk rts n [C1 C2] ls fuel HL Hf.
  destruct (team_dynamic body Hk r fuel chunk rts ls F C1 HL Hf) as (os & items & E1 & E2 & E3 & E4 & E5).
  exists os. split; [exact E1|]. split; [|exact E2]. rewrite map_map in C2.
  destruct F as (Hr & Hs & _). apply finish with (items := items); auto.
  - unfold team_trace. rewrite E2, range_elems_seg.
    rewrite <- (map_map (fun rt => List.concat (map part_indices (rt chunk (range_count_spec r - 1))))
                        (map (elem r))).
    rewrite map_concat_elem. now apply Permutation_map.
  - now rewrite E3.
Qed.

(** The contracts are met by the runtime's algorithms for every number of threads. *)
Theorem C62_runtime :
  forall nth n chunk who, 0 < nth -> 0 <= n -> (forall j, 0 <= who j < nth) ->
  static_contract n (map (fun t => kmp_static nth t 1 (n - 1)) (seg 0 nth)) /\
  chunked_contract n (map (fun t => kmp_chunked nth t chunk (n - 1)) (seg 0 nth)) /\
  dynamic_contract n (map (fun t => kmp_dynamic who t chunk (n - 1)) (seg 0 nth)).
Proof.
  intros. split; [now apply kmp_static_contract|].
  split; [now apply kmp_chunked_contract|now apply kmp_dynamic_contract].
Qed.

(** The schedule code given to the runtime is one the chosen template can be used with:
    the static templates ask for the static (34) and static chunked (33) schedules; all
    other requests go through the dispatching template. *)
Theorem C62_schedule_codes :
  forall schedule chunked ordered,
  match choose_template schedule chunked ordered with
  | StaticTemplate => schedule_code schedule chunked ordered = 34
  | ChunkedTemplate => schedule_code schedule chunked ordered = 33
  | DynamicTemplate => (schedule <> "static" \/ ordered = true)%string
  end /\
  (choose_template schedule chunked ordered = DynamicTemplate <->
   (schedule <> "static" \/ ordered = true)%string) /\
  (ordered = true -> In schedule ["static"; "dynamic"; "guided"; "runtime"; "auto"]%string ->
   65 <= Z.land (schedule_code schedule chunked ordered) (2 ^ 30 - 1) <= 70).
Proof.
  intros s c o. unfold choose_template, schedule_code.
  destruct (String.eqb_spec s "static").
  - subst. destruct o, c; simpl; repeat split; intros; try discriminate; try tauto; try lia;
      destruct H; congruence.
  - simpl. split; [now left|]. split; [split; auto|]. intros -> HIn.
    simpl in HIn. destruct HIn as [<-|[<-|[<-|[<-|[<-|[]]]]]]; [congruence|simpl; lia..].
Qed.

(** ** Where the full statement fails *)

Definition plain (i : Z) (l : list Z) : Z * list Z := (i, l).

(** [@par(chunk_size=1) for i in range(2**63-4, 2**63-1)] on two threads: the thread that
    gets the first and third iteration adds its stride past the end of int64 and goes on
    with values that are not in the range. *)
Theorem C62_overflow_refuted :
  let r := Range (2 ^ 63 - 4) (2 ^ 63 - 1) 1 in
  range_ok r /\ span_fits r /\
  chunked_contract 3 (map (fun t => kmp_chunked 2 t 1 2) [0; 1]) /\
  range_elems r = [2 ^ 63 - 4; 2 ^ 63 - 3; 2 ^ 63 - 2] /\
  chunked_thread plain 100 (kmp_chunked 2 0) 1 (2 ^ 63 - 4) (2 ^ 63 - 1) 1 [] = NoFuel /\
  (* it enters the body with the value after 2^63-2 *)
  w64 (2 ^ 63 - 2 + w64 (2 * 1)) = - 2 ^ 63 /\ cont 1 (- 2 ^ 63) (2 ^ 63 - 1) = true /\
  ~ In (- 2 ^ 63) (range_elems r).
Proof.
  split. { unfold range_ok, in64, min64, max64. simpl. lia. }
  split. { unfold span_fits. vm_compute. repeat split; congruence. }
  split. { exact (kmp_chunked_contract 2 3 1 ltac:(lia) ltac:(lia)). }
  split; [reflexivity|]. split; [reflexivity|]. split; [reflexivity|]. split; [reflexivity|].
  intros H. vm_compute in H. intuition discriminate.
Qed.

(** A step that passes the end of int64 makes the static schedule drop iterations. *)
Theorem C62_overflow_step_refuted :
  let r := Range 0 (2 ^ 63 - 1) (2 ^ 62) in
  range_ok r /\ span_fits r /\ range_elems r = [0; 2 ^ 62] /\
  static_contract 2 (map (fun t => kmp_static 2 t 1 1) [0; 1]) /\
  exists os,
    team (fun rt => static_thread plain 5 rt 0 (2 ^ 63 - 1) (2 ^ 62))
      (map (kmp_static 2) [0; 1]) [[]; []] = Ok os /\
    team_trace os = [0].
Proof.
  split. { unfold range_ok, in64, min64, max64. simpl. lia. }
  split. { unfold span_fits. vm_compute. repeat split; congruence. }
  split; [reflexivity|].
  split. { exact (kmp_static_contract 2 2 ltac:(lia) ltac:(lia)). }
  eexists. split; [vm_compute; reflexivity|reflexivity].
Qed.

(** A body that assigns the loop variable changes which iterations run
    ([@par for i in range(4): i += 1] on one thread runs 0 and 2 only). *)
Theorem C62_loop_variable_refuted :
  exists os,
    team (fun rt => static_thread (fun i (l : list Z) => (i + 1, l)) 9 rt 0 4 1)
      [kmp_static 1 0] [[]] = Ok os /\
    team_trace os = [0; 2] /\ range_elems (Range 0 4 1) = [0; 1; 2; 3].
Proof. eexists. split; [vm_compute; reflexivity|]. split; reflexivity. Qed.

(** Without "each iteration determines the value", the last value can be lost:
    [found = -1; @par for i in range(4): if i == 0: found = i] on two threads leaves -1. *)
Theorem C62_conditional_refuted :
  let body := fun i found : Z => (i, if i =? 0 then i else found) in
  keeps body /\ sequential body (range_elems (Range 0 4 1)) (-1) = 0 /\
  exists os,
    team (fun rt => static_thread body 9 rt 0 4 1) (map (kmp_static 2) [0; 1]) [-1; -1] = Ok os /\
    team_stores os = [-1].
Proof.
  split; [easy|]. split; [reflexivity|]. eexists. split; [vm_compute; reflexivity|reflexivity].
Qed.

(** ** Collapse *)

(** If the bounds of no level depend on enclosing loop variables, iteration [k] of the
    collapsed loop runs the innermost body with the [k]-th combination of the nest, so any
    schedule that runs 0 .. N-1 once runs every combination once. *)
Theorem C62_collapse_partial :
  forall vs old, Forall rectangular vs -> Forall level_fits vs -> total vs <= max64 ->
  exists rs, collapse_setup old 0 vs = Ok rs /\
    collapse_count rs = Z.of_nat (List.length (nest [] vs)) /\
    map (collapse_at rs) (range_elems (Range 0 (collapse_count rs) 1)) = map Ok (nest [] vs) /\
    forall trace, Permutation trace (range_elems (Range 0 (collapse_count rs) 1)) ->
      Permutation (map (collapse_at rs) trace) (map Ok (nest [] vs)).
Proof.
  intros vs old HR HF HT. pose proof (total_nonneg vs HF) as HN.
  exists (map entry vs). split; [now apply setup_spec|].
  assert (E : collapse_count (map entry vs) = total vs).
  { unfold collapse_count. change 1 with (w64 1) at 1. rewrite count_spec.
    rewrite Z.mul_1_l. apply w64_id. unfold in64, min64, max64 in *. lia. }
  pose proof (collapse_nest vs HR HF HT) as HC.
  assert (EL : range_elems (Range 0 (total vs) 1) = seg 0 (total vs)).
  { rewrite range_elems_seg. unfold range_count_spec. simpl r_start. simpl r_stop. simpl r_step.
    replace (progression_count 0 (total vs) 1) with (total vs)
      by (unfold progression_count; rewrite Z.div_1_r; lia).
    rewrite <- (map_id (seg 0 (total vs))) at 2. apply map_ext. intros x. unfold elem. simpl. lia. }
  split.
  - rewrite E. apply (f_equal (@List.length _)) in HC. rewrite !map_length in HC.
    rewrite <- HC. unfold seg. rewrite progression_length. lia.
  - rewrite E, EL. split; [exact HC|]. intros tr HP. rewrite <- HC. now apply Permutation_map.
Qed.

(** The bounds of inner loops are evaluated before the loop, with whatever value the outer
    variable has there: [for i in range(3): for j in range(i)] has 3 combinations, the
    collapsed loop none if [i] was 0, and 21 if [i] was 7. *)
Theorem C62_collapse_refuted :
  let vs := [Level (fun _ => 0) (fun _ => 3) 1;
             Level (fun _ => 0) (fun outer => hd 0 outer) 1] in
  nest [] vs = [[1; 0]; [2; 0]; [2; 1]] /\
  (exists rs, collapse_setup [0] 0 vs = Ok rs /\ collapse_count rs = 0) /\
  (exists rs, collapse_setup [7] 0 vs = Ok rs /\ collapse_count rs = 21).
Proof.
  split; [reflexivity|]. split; eexists; split; reflexivity.
Qed.

(** ** Non-vacuity *)

Example loop_fits_ex : fits (Range 10 (-5) (-4)) /\ range_elems (Range 10 (-5) (-4)) = [10; 6; 2; -2].
Proof.
  split; [|reflexivity]. unfold fits, range_ok, in64, min64, max64. simpl.
  split; [lia|]. split; [vm_compute; repeat split; congruence|]. vm_compute. repeat split; congruence.
Qed.

(** Three threads, four iterations; the second variable records the last iteration. *)
Example loop_static_ex :
  exists os, team (fun rt => static_thread (fun i (l : list Z) => (i, [i])) 9 rt 10 (-5) (-4))
    (map (kmp_static 3) [0; 1; 2]) [[]; []; []] = Ok os /\
  map t_trace os = [[10; 6]; [2]; [-2]] /\ team_stores os = [[-2]].
Proof. eexists. split; [vm_compute; reflexivity|]. split; reflexivity. Qed.

Example loop_chunked_ex :
  exists os, team (fun rt => chunked_thread (fun i (l : list Z) => (i, [i])) 9 rt 2 0 7 1)
    (map (kmp_chunked 2) [0; 1]) [[]; []] = Ok os /\
  map t_trace os = [[0; 1; 4; 5]; [2; 3; 6]] /\ team_stores os = [[6]].
Proof. eexists. split; [vm_compute; reflexivity|]. split; reflexivity. Qed.

Example loop_dynamic_ex :
  exists os, team (fun rt => dynamic_thread (fun i (l : list Z) => (i, [i])) 9 rt 2 0 7 1)
    (map (kmp_dynamic (fun j => if Nat.even j then 1 else 0)) [0; 1]) [[]; []] = Ok os /\
  map t_trace os = [[2; 3; 6]; [0; 1; 4; 5]] /\ team_stores os = [[6]].
Proof. eexists. split; [vm_compute; reflexivity|]. split; reflexivity. Qed.

Example loop_collapse_ex :
  let vs := [Level (fun _ => 0) (fun _ => 2) 1; Level (fun _ => 5) (fun _ => 0) (-2)] in
  Forall rectangular vs /\ nest [] vs = [[0; 5]; [0; 3]; [0; 1]; [1; 5]; [1; 3]; [1; 1]].
Proof. split; [repeat constructor|reflexivity]. Qed.

Print Assumptions C62_static_partial.
Print Assumptions C62_chunked_partial.
Print Assumptions C62_dynamic_partial.
Print Assumptions C62_runtime.
Print Assumptions C62_schedule_codes.
Print Assumptions C62_overflow_refuted.
Print Assumptions C62_overflow_step_refuted.
Print Assumptions C62_loop_variable_refuted.
Print Assumptions C62_conditional_refuted.
Print Assumptions C62_collapse_partial.
Print Assumptions C62_collapse_refuted.
