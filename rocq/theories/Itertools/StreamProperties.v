(** C52, C53: the other iterators of itertools, and zip. *)
From Coq Require Import List ZArith Bool Arith Lia.
From Verif.Common Require Import Result Int64.
From Verif.Itertools Require Import CombModel StreamModel StreamSpec StreamProofs ZipProofs.
Import ListNotations.

(** ** C52: what the iterators yield *)

(** count(start, step): the sequence start, start + step, ... of 64-bit ints. *)
Theorem C52_count k start step i :
  in64 start -> i < k ->
  nth_error (count_take k start step) i = Some (w64 (start + Z.of_nat i * step)).
Proof.
  intros H Hi. rewrite count_take_ok by exact H.
  rewrite (map_nth_error _ _ _ (d := i)); [reflexivity|].
  rewrite (nth_error_nth' _ 0) by (now rewrite seq_length). now rewrite seq_nth.
Qed.

(** cycle(l): element i is element i modulo the length, forever. *)
Theorem C52_cycle A (l : list A) k i :
  l <> [] -> i < k -> nth_error (cycle_take k l []) i = nth_error l (i mod length l).
Proof.
  intros Hl Hi. rewrite cycle_take_ok by assumption. simpl.
  assert (0 < length l) by (destruct l; [congruence|simpl; lia]).
  destruct (Nat.ltb_spec i (length l)) as [L|L].
  - now rewrite Nat.mod_small.
  - replace i with ((i - length l) + 1 * length l) at 2 by lia. rewrite Nat.mod_add by lia. reflexivity.
Qed.

Theorem C52_cycle_empty A k : @cycle_take A k [] [] = [].
Proof. destruct k; reflexivity. Qed.

(** repeat(x, t) yields x exactly max(t, 0) times; without t forever. *)
Theorem C52_repeat A (x : A) k times :
  repeat_ k x times =
  repeat x (match times with None => k | Some t => Nat.min k (Z.to_nat t) end).
Proof. destruct times; apply repeat_take_ok. Qed.

(** accumulate: value i is the fold of the elements up to i. *)
Theorem C52_accumulate A (func : A -> A -> A) c l i :
  exists out, accumulate func (Sus c l) = Ok (out, Des) /\ length out = length l /\
    (i < length l -> nth_error out i =
       match firstn (S i) l with [] => None | x :: r => Some (fold_left func r x) end).
Proof.
  destruct l as [|x l].
  - exists []. repeat split; simpl; lia.
  - eexists. split; [apply accumulate_ok|]. rewrite map_length, seq_length. split; [reflexivity|].
    intros Hi. cbn [length] in Hi.
    rewrite (map_nth_error _ _ _ (d := i)); [reflexivity|].
    rewrite (nth_error_nth' _ 0) by (now rewrite seq_length). now rewrite seq_nth.
Qed.

Theorem C52_accumulate_initial A B (func : B -> A -> B) initial c l i :
  exists out, accumulate_init func initial (Sus c l) = Ok (out, Des) /\ length out = S (length l) /\
    (i <= length l -> nth_error out i = Some (fold_left func (firstn i l) initial)).
Proof.
  eexists. split; [apply accumulate_init_ok|]. rewrite map_length, seq_length. split; [reflexivity|].
  intros Hi. rewrite (map_nth_error _ _ _ (d := i)); [reflexivity|].
  rewrite (nth_error_nth' _ 0) by (rewrite seq_length; lia). rewrite seq_nth; [reflexivity|lia].
Qed.

(** chain: all the elements, iterable by iterable. *)
Theorem C52_chain A (ls : list (list A)) :
  exists rest, chain (map fresh ls) = Ok (concat ls, rest).
Proof.
  pose proof (chain_ok (map (fun l => (@None A, l)) ls)) as E. rewrite !map_map in E.
  rewrite map_id in E. eexists. exact E.
Qed.

(** compress: the elements whose selector is true. *)
Theorem C52_compress A ca (data : list A) cb selectors :
  compress (Sus ca data) (Sus cb selectors) =
  Ok (at_indices (fun i => nth (Z.to_nat i) selectors false) data, Des, Des).
Proof.
  unfold compress. simpl. f_equal. f_equal. f_equal. rewrite select_at.
  assert (G : forall (data : list A) selectors k, select (fun i => nth (Z.to_nat (i - Z.of_nat k)) selectors false) (Z.of_nat k) data
    = map fst (filter snd (zip2_rest data selectors))).
  { clear. induction data as [|x data IH]; intros sel k; [reflexivity|].
    destruct sel as [|b sel].
    - simpl. rewrite select_none; [destruct (Z.to_nat _); reflexivity|].
      intros j _. destruct (Z.to_nat _); reflexivity.
    - cbn [select zip2_rest]. rewrite Z.sub_diag. change (nth (Z.to_nat 0) (b :: sel) false) with b.
      assert (E : select (fun i => nth (Z.to_nat (i - Z.of_nat k)) (b :: sel) false) (Z.of_nat k + 1) data
        = map fst (filter snd (zip2_rest data sel))).
      { rewrite <- (IH sel (S k)). replace (Z.of_nat (S k)) with (Z.of_nat k + 1)%Z by lia.
        apply select_ext. intros j Hj. replace (Z.to_nat (j - Z.of_nat k)) with (S (Z.to_nat (j - (Z.of_nat k + 1)))) by lia.
        reflexivity. }
      rewrite E. destruct b; reflexivity. }
  specialize (G data selectors 0). rewrite <- G. apply select_ext. intros j Hj.
  now rewrite Z.sub_0_r.
Qed.

(** takewhile, dropwhile: the longest prefix that satisfies the predicate, and
    the rest.  takewhile leaves its source after the first element it rejects. *)
Theorem C52_takewhile_dropwhile A (p : A -> bool) l :
  exists a b, l = a ++ b /\ Forall (fun x => p x = true) a /\
    match b with [] => True | x :: _ => p x = false end /\
    (forall c, takewhile p (Sus c l) =
       Ok (a, match b with [] => Des | x :: r => Sus (Some x) r end)) /\
    (forall c, dropwhile p (Sus c l) = Ok (b, Des)).
Proof.
  assert (S : exists a b, l = a ++ b /\ Forall (fun x => p x = true) a /\
    match b with [] => True | x :: _ => p x = false end).
  { induction l as [|x l (a & b & -> & H1 & H2)]; [exists [], []; auto|].
    destruct (p x) eqn:E.
    - exists (x :: a), b. auto.
    - exists [], (x :: a ++ b). auto. }
  destruct S as (a & b & -> & H1 & H2). exists a, b. repeat split; auto; intros c.
  - now apply takewhile_ok.
  - now apply dropwhile_ok.
Qed.

Theorem C52_filterfalse_starmap A B (p : A -> bool) (f : A -> B) c l :
  filterfalse p (Sus c l) = Ok (filter (fun x => negb (p x)) l, Des) /\
  starmap f (Sus c l) = Ok (map f l, Des).
Proof. split; [apply filterfalse_ok|apply starmap_ok]. Qed.

(** groupby: maximal runs of equal keys, for keys equal to themselves. *)
Theorem C52_groupby_partial A K (ne : K -> K -> bool) (key : A -> K) c l :
  (forall k, ne k k = false) ->
  exists gs, groupby ne key (Sus c l) = Ok (gs, Des) /\ runs ne key None gs l.
Proof. apply groupby_ok. Qed.

(** A key that differs from itself (a NaN) makes an empty group. *)
Theorem C52_groupby_refuted :
  exists (ne : bool -> bool -> bool) (gs : list (bool * list bool)), groupby ne (fun x : bool => x) (fresh [true]) = Ok (gs, Des) /\
    In (true, []) gs.
Proof.
  exists (fun a b : bool => if a then true else negb (Bool.eqb a b)). eexists. split; [reflexivity|].
  simpl. now left.
Qed.

(** islice(l, stop), islice(l, start, stop, step) on a source that is not used
    afterwards. *)
Theorem C52_islice A c (l : list A) start stop step :
  (forall s, start = Some s -> (0 <= s)%Z) -> (forall s, stop = Some s -> (0 <= s)%Z) ->
  (forall s, step = Some s -> (0 < s)%Z) -> (Z.of_nat (length l) <= max64)%Z ->
  let at_start := match start with None => 0%Z | Some s => s end in
  let by_step := match step with None => 1%Z | Some s => s end in
  islice (Sus c l) start stop step = Ok (at_indices (in_slice at_start stop by_step) l, Des).
Proof.
  intros H1 H2 H3 HL. cbn zeta.
  set (s := match start with None => 0%Z | Some s => s end).
  set (e := match stop with None => max64 | Some s => s end).
  set (t := match step with None => 1%Z | Some s => s end).
  assert (E : islice (Sus c l) start stop step = islice (Sus c l) (Some s) (Some e) (Some t)).
  { unfold s, e, t. destruct start, stop, step; reflexivity. }
  rewrite E, islice_ok.
  - f_equal. f_equal. rewrite !select_at. apply select_ext. intros j Hj. unfold in_slice, e.
    destruct stop as [st|]; [reflexivity|]. destruct (Z.ltb_spec j max64); [reflexivity|lia].
  - unfold s. destruct start; [now apply H1|lia].
  - unfold e. destruct stop; [now apply H2|]. unfold max64. lia.
  - unfold t. destruct step; [now apply H3|lia].
Qed.

Theorem C52_islice_stop A c (l : list A) stop :
  (forall s, stop = Some s -> (0 <= s)%Z) ->
  exists g, islice_stop (Sus c l) stop =
    Ok (match stop with None => l | Some s => firstn (Z.to_nat s) l end, g).
Proof.
  intros H. destruct stop as [s|].
  - eexists. apply islice_stop_ok. now apply H.
  - eexists. apply islice_stop_none.
Qed.

Theorem C52_islice_rejects A (g : gen A) start stop step :
  (exists s, start = Some s /\ (s < 0)%Z) \/ (exists s, stop = Some s /\ (s < 0)%Z) \/
  (exists s, step = Some s /\ (s <= 0)%Z) ->
  islice g start stop step = Raise ValueError.
Proof.
  intros H. unfold islice.
  destruct (match start with None => 0%Z | Some s => s end <? 0)%Z eqn:E1; [reflexivity|].
  destruct (match stop with None => max64 | Some s => s end <? 0)%Z eqn:E2; [reflexivity|]. simpl orb. cbv iota.
  destruct (match step with None => 1%Z | Some s => s end <? 0)%Z eqn:E3; [reflexivity|].
  destruct H as [(s & -> & L)|[(s & -> & L)|(s & -> & L)]];
    apply Z.ltb_ge in E1, E2, E3; try lia.
  assert (s = 0%Z) by lia. subst s. reflexivity.
Qed.

(** *** The iterator after islice *)

(** islice(it, k) takes one element more than it yields, if there is one: what is
    left of [it] begins at position k + 1 instead of k.  If there is none, [it] is
    destroyed. *)
Theorem C52_islice_consumes_refuted A c (l : list A) k :
  (0 <= k)%Z ->
  exists g, islice_stop (Sus c l) (Some k) = Ok (firstn (Z.to_nat k) l, g) /\
    (Z.to_nat k < length l -> exists c', g = Sus c' (skipn (S (Z.to_nat k)) l)) /\
    (length l <= Z.to_nat k -> g = Des).
Proof.
  intros Hk. eexists. split; [now apply islice_stop_ok|]. split.
  - intros L. destruct (skipn (Z.to_nat k) l) as [|x r] eqn:E.
    + apply skipn_nil_len in E; lia.
    + destruct (skipn_S_cons _ _ _ _ E) as [-> _]. eauto.
  - intros L. now rewrite skipn_all2.
Qed.

(** So the batches [islice(it, 2)] of 1..6 are 1, 2 and 4, 5; and the slice with a
    start cannot be followed by anything. *)
Theorem C52_batches_refuted :
  (exists g, islice_stop (fresh [1; 2; 3; 4; 5; 6]) (Some 2%Z) = Ok ([1; 2], g) /\
     exists g', islice_stop g (Some 2%Z) = Ok ([4; 5], g')) /\
  (exists g, islice (fresh [1; 2; 3; 4; 5; 6]) (Some 0%Z) (Some 2%Z) None = Ok ([1; 2], g) /\
     islice_stop g (Some 2%Z) = Undef).
Proof.
  split; eexists; (split; [reflexivity|]); [eexists|]; reflexivity.
Qed.

(** ** C53: zip, zip_longest, tee *)

(** zip of different generators: as many rows as the shortest is long, row j holds
    their elements j; all of them are destroyed and no other generator is touched. *)
Theorem C53_zip_partial A (d : A) heap hs ls fuel :
  NoDup hs -> hs <> [] ->
  Forall2 (fun h l => exists c, nth_error heap h = Some (Sus c l)) hs ls ->
  shortest ls < fuel ->
  exists heap',
    zip fuel heap hs =
      Ok (map (fun j => map (fun l => nth j l d) ls) (seq 0 (shortest ls)), heap') /\
    Forall (fun h => nth_error heap' h = Some Des) hs /\
    (forall j, ~ In j hs -> nth_error heap' j = nth_error heap j).
Proof.
  intros ND Hne H Hf. destruct (zip_rounds_ok d fuel hs ls heap ND Hne H Hf) as (heap' & E & A1 & _ & U).
  exists heap'. split; [|auto]. unfold zip. destruct hs; [congruence|exact E].
Qed.

(** zip(it, it), the way to read pairs of one iterator in Python, is undefined
    for every iterator. *)
Theorem C53_zip_same_refuted A heap h c (l : list A) fuel :
  nth_error heap h = Some (Sus c l) -> length l < fuel -> zip fuel heap [h; h] = Undef.
Proof. intros E Hf. unfold zip. exact (zip_twice fuel l heap h c E Hf). Qed.

(** zip_longest(a, b, fillvalue=...): as many rows as the longest is long. *)
Theorem C53_zip_longest_two A B (fa : A) (fb : B) ca la cb lb :
  zip_longest2 fa fb (Sus ca la) (Sus cb lb) =
  Ok (map (fun i => (nth i la fa, nth i lb fb)) (seq 0 (Nat.max (length la) (length lb))), Des, Des).
Proof. apply zip_longest2_ok. Qed.

Theorem C53_zip_longest_fill A (fill : A) (ls : list (list A)) fuel :
  longest ls < fuel ->
  zip_longest_fill fuel fill (map fresh ls) =
  Ok (map (fun i => map (fun l => nth i l fill) ls) (seq 0 (longest ls))).
Proof.
  intros Hf. pose proof (zip_longest_fill_ok fill (map (fun l => (@None A, l)) ls) fuel) as E.
  rewrite !map_map, map_id in E. exact (E Hf).
Qed.

(** zip_longest without a fill value, on elements that are not Optional. *)
Theorem C53_zip_longest_partial A (ls : list (list A)) fuel :
  longest ls < fuel ->
  zip_longest fuel Some (map fresh ls) =
  Ok (map (fun i => map (fun l => nth_error l i) ls) (seq 0 (longest ls))).
Proof.
  intros Hf. pose proof (zip_longest_ok Some (map (fun l => (@None A, l)) ls) fuel) as E.
  rewrite !map_map, map_id in E. unfold fresh. simpl in E. rewrite E by (auto; discriminate).
  f_equal. apply map_ext. intros i. apply map_ext. intros l. destruct (nth_error l i); reflexivity.
Qed.

(** On Optional elements it stops at the first row of Nones, although there are
    more elements. *)
Theorem C53_zip_longest_optional_refuted :
  zip_longest 10 (fun o : option nat => o) (map fresh [[None; Some 1]; [None; Some 2]]) = Ok [].
Proof. reflexivity. Qed.

(** tee: in whatever order the copies are advanced, each one yields the elements
    of the source from the first to the last and then ends. *)
Theorem C53_tee A c (l : list A) n sched :
  (forall i, In i sched -> i < n) ->
  (forall i, count_occ Nat.eq_dec sched i <= S (length l)) ->
  exists t, tee_run (tee (Sus c l) n) sched = Ok (tee_trace l sched, t).
Proof. apply tee_ok. Qed.

(** ** Non-vacuity *)

Example C52_ex :
  accumulate Nat.add (fresh [1; 2; 3]) = Ok ([1; 3; 6], Des) /\
  groupby (fun a b => negb (a =? b)) (fun x => x / 10) (fresh [11; 12; 25; 13]) =
    Ok ([(1, [11; 12]); (2, [25]); (1, [13])], Des) /\
  islice (fresh [0; 1; 2; 3; 4; 5; 6]) (Some 1%Z) (Some 6%Z) (Some 2%Z) = Ok ([1; 3; 5], Des) /\
  compress (fresh [1; 2; 3]) (fresh [true; false; true]) = Ok ([1; 3], Des, Des) /\
  cycle_take 5 [1; 2] [] = [1; 2; 1; 2; 1].
Proof. repeat split; reflexivity. Qed.

Example C53_ex :
  zip 10 [fresh [1; 2; 3]; fresh [4; 5]] [0; 1] = Ok ([[1; 4]; [2; 5]], [Des; Des]) /\
  zip_longest_fill 10 0 (map fresh [[1; 2; 3]; [4; 5]; []]) = Ok [[1; 4; 0]; [2; 5; 0]; [3; 0; 0]] /\
  exists t, tee_run (tee (fresh [7; 8]) 2) [0; 0; 1; 0; 1; 1] =
    Ok ([(0, Some 7); (0, Some 8); (1, Some 7); (0, None); (1, Some 8); (1, None)], t).
Proof. repeat split; try reflexivity. eexists. reflexivity. Qed.

Print Assumptions C52_count.
Print Assumptions C52_cycle.
Print Assumptions C52_cycle_empty.
Print Assumptions C52_repeat.
Print Assumptions C52_accumulate.
Print Assumptions C52_accumulate_initial.
Print Assumptions C52_chain.
Print Assumptions C52_compress.
Print Assumptions C52_takewhile_dropwhile.
Print Assumptions C52_filterfalse_starmap.
Print Assumptions C52_groupby_partial.
Print Assumptions C52_groupby_refuted.
Print Assumptions C52_islice.
Print Assumptions C52_islice_stop.
Print Assumptions C52_islice_rejects.
Print Assumptions C52_islice_consumes_refuted.
Print Assumptions C52_batches_refuted.
Print Assumptions C53_zip_partial.
Print Assumptions C53_zip_same_refuted.
Print Assumptions C53_zip_longest_two.
Print Assumptions C53_zip_longest_fill.
Print Assumptions C53_zip_longest_partial.
Print Assumptions C53_zip_longest_optional_refuted.
Print Assumptions C53_tee.
