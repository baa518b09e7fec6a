(** Proofs about parallel loops. *)
From Coq Require Import ZArith List Bool Lia Permutation.
From Verif.Common Require Import Result Int64.
From Verif.List Require Import SliceSpec SliceModel SliceProofs.
From Verif.Par Require Import LoopSpec LoopModel.
Import ListNotations.
Local Open Scope Z_scope.
Local Open Scope res_scope.

(** ** Segments *)

Lemma seg_nil a b : b <= a -> seg a b = [].
Proof. intros. apply progression_nil. lia. Qed.

Lemma seg_cons a b : a < b -> seg a b = a :: seg (a + 1) b.
Proof. intros. unfold seg. rewrite progression_cons by lia. do 2 f_equal. lia. Qed.

Lemma seg_in a b x : In x (seg a b) <-> a <= x < b.
Proof.
  unfold seg. rewrite progression_in. split.
  - intros (m & H & ->). lia.
  - intros. exists (x - a). lia.
Qed.

Lemma seg_app a b c : a <= b <= c -> seg a c = seg a b ++ seg b c.
Proof.
  intros H. remember (Z.to_nat (b - a)) as k eqn:E. revert a H E.
  induction k as [|k IH]; intros a H E.
  - assert (a = b) by lia. subst. now rewrite (seg_nil b b) by lia.
  - rewrite (seg_cons a c), (seg_cons a b) by lia. simpl. f_equal. apply IH; lia.
Qed.

Lemma filter_all {A} (f : A -> bool) l : (forall x, In x l -> f x = true) -> filter f l = l.
Proof.
  induction l as [|x l IH]; intros H; simpl; auto.
  rewrite H by now left. f_equal. apply IH. intros. apply H. now right.
Qed.

Lemma filter_none {A} (f : A -> bool) l : (forall x, In x l -> f x = false) -> filter f l = [].
Proof.
  induction l as [|x l IH]; intros H; simpl; auto.
  rewrite H by now left. apply IH. intros. apply H. now right.
Qed.

Lemma map_seg r a b : map (elem r) (seg a b) = progression (elem r a) (r_step r) (b - a).
Proof.
  unfold seg, progression. rewrite map_map. apply map_ext. intros x. unfold elem. lia.
Qed.

(** ** Running a segment *)

Lemma cont_spec step i stop : step <> 0 ->
  cont step i stop = true <-> 0 < progression_count i stop step.
Proof.
  intros Hz. unfold cont. destruct (Z_lt_le_dec 0 step).
  - pose proof (count_pos i stop step 0 ltac:(lia) ltac:(lia)). lia.
  - pose proof (count_neg i stop step 0 ltac:(lia) ltac:(lia)). lia.
Qed.

Section Run.
  Context {L : Type}.
  Context (body : Z -> L -> Z * L).
  Context (Hkeep : keeps body).

  Lemma run_progression fuel : forall step stop i c l,
    step <> 0 -> 0 <= c ->
    (forall m, 0 <= m < c -> cont step (i + m * step) stop = true) ->
    cont step (i + c * step) stop = false ->
    in64 i -> in64 (i + c * step) -> (Z.to_nat c < fuel)%nat ->
    run body fuel step stop i l =
      Ok (progression i step c, sequential body (progression i step c) l).
  Proof.
    induction fuel as [|fuel IH]; intros step stop i c l Hz Hc Hin Hout Hi He Hf; [lia|].
    simpl. destruct (Z.eq_dec c 0) as [->|Hc0].
    - rewrite Z.mul_0_l, Z.add_0_r in Hout. rewrite Hout.
      now rewrite progression_nil by lia.
    - specialize (Hin 0 ltac:(lia)) as H0. rewrite Z.mul_0_l, Z.add_0_r in H0. rewrite H0.
      specialize (Hkeep i l). destruct (body i l) as [i' l'] eqn:E. simpl in Hkeep. subst i'.
      assert (in64 (i + step)). { unfold in64, min64, max64 in *. nia. }
      rewrite w64_id by assumption.
      rewrite (IH step stop (i + step) (c - 1) l'); auto; try lia.
      + simpl. rewrite (progression_cons i) by lia. simpl. rewrite E. reflexivity.
      + intros m Hm. replace (i + step + m * step) with (i + (m + 1) * step) by lia. apply Hin. lia.
      + replace (i + step + (c - 1) * step) with (i + c * step) by lia. assumption.
      + replace (i + step + (c - 1) * step) with (i + c * step) by lia. assumption.
  Qed.

  (** [stop'] separates iteration [b] of [r] from the ones before it. *)
  Definition cuts (r : range) (stop' : Z) (a b : Z) : Prop :=
    (forall m, a <= m < b -> cont (r_step r) (elem r m) stop' = true) /\
    cont (r_step r) (elem r b) stop' = false.

  Lemma run_seg fuel r stop' a b l :
    r_step r <> 0 -> a <= b -> cuts r stop' a b ->
    in64 (elem r a) -> in64 (elem r b) -> (Z.to_nat (b - a) < fuel)%nat ->
    run body fuel (r_step r) stop' (elem r a) l =
      Ok (map (elem r) (seg a b), sequential body (map (elem r) (seg a b)) l).
  Proof.
    intros Hz Hab [H1 H2] Ha Hb Hf. rewrite map_seg.
    apply run_progression; auto; try lia.
    - intros m Hm. replace (elem r a + m * r_step r) with (elem r (a + m)) by (unfold elem; lia).
      apply H1. lia.
    - replace (elem r a + (b - a) * r_step r) with (elem r b) by (unfold elem; lia). assumption.
    - replace (elem r a + (b - a) * r_step r) with (elem r b) by (unfold elem; lia). assumption.
  Qed.
End Run.

(** ** Ranges whose arithmetic does not wrap *)

Definition fits (r : range) : Prop :=
  range_ok r /\ span_fits r /\ range_count_spec r <= max64 /\
  in64 (elem r (range_count_spec r)).

Lemma elem_between r a m b : in64 (elem r a) -> in64 (elem r b) -> a <= m <= b -> in64 (elem r m).
Proof.
  unfold elem, in64, min64, max64. intros H1 H2 H3.
  generalize dependent (r_step r). intros k H1 H2.
  destruct (Z_le_gt_dec 0 k).
  - assert (a * k <= m * k <= b * k) by nia. lia.
  - assert (b * k <= m * k <= a * k) by nia. lia.
Qed.

Lemma elem_in64 r m N : in64 (r_start r) -> in64 (elem r N) -> 0 <= m <= N -> in64 (elem r m).
Proof.
  intros H0 HN Hm. apply elem_between with (a := 0) (b := N); auto.
  unfold elem. now rewrite Z.mul_0_l, Z.add_0_r.
Qed.

Lemma get_raw_elem r m : in64 (elem r m) -> range_get_raw r m = elem r m.
Proof.
  intros H. unfold range_get_raw. rewrite w64_add_r. apply w64_id. exact H.
Qed.

(** Position [m] is before the stop iff it is one of the range's iterations. *)
Lemma cont_stop r m : r_step r <> 0 -> 0 <= m ->
  cont (r_step r) (elem r m) (r_stop r) = true <-> m < range_count_spec r.
Proof.
  intros Hz Hm. unfold range_count_spec, elem, cont. destruct (Z_lt_le_dec 0 (r_step r)).
  - pose proof (count_pos (r_start r) (r_stop r) (r_step r) m ltac:(lia) ltac:(lia)). lia.
  - pose proof (count_neg (r_start r) (r_stop r) (r_step r) m ltac:(lia) ltac:(lia)). lia.
Qed.

Lemma cont_elem r m b : r_step r <> 0 ->
  cont (r_step r) (elem r m) (elem r b) = true <-> m < b.
Proof.
  intros Hz. unfold cont, elem. destruct (Z_lt_le_dec 0 (r_step r)); nia.
Qed.

Lemma cont_clamp step i a b : cont step i (clamp step a b) = cont step i a && cont step i b.
Proof.
  unfold cont, clamp. destruct (Z.leb_spec 0 step); lia.
Qed.

Lemma cuts_clamp r a b : r_step r <> 0 -> 0 <= a ->
  a <= Z.min b (range_count_spec r) ->
  cuts r (clamp (r_step r) (elem r b) (r_stop r)) a (Z.min b (range_count_spec r)).
Proof.
  intros Hz Ha Hab. set (n := range_count_spec r) in *. split.
  - intros m Hm. rewrite cont_clamp. apply andb_true_iff. split.
    + apply cont_elem; lia.
    + apply cont_stop; lia.
  - rewrite cont_clamp. destruct (Z.le_gt_cases b n).
    + replace (Z.min b n) with b by lia.
      assert (~ cont (r_step r) (elem r b) (elem r b) = true) by (rewrite cont_elem; lia).
      destruct (cont (r_step r) (elem r b) (elem r b)); simpl; congruence.
    + replace (Z.min b n) with n by lia.
      assert (~ cont (r_step r) (elem r n) (r_stop r) = true)
        by (rewrite cont_stop; unfold n in *; lia).
      destruct (cont (r_step r) (elem r n) (r_stop r)); [congruence|]. apply andb_false_r.
Qed.

Lemma cuts_elem r a b : r_step r <> 0 -> cuts r (elem r b) a b.
Proof.
  intros Hz. split.
  - intros m Hm. apply cont_elem; lia.
  - assert (~ cont (r_step r) (elem r b) (elem r b) = true) by (rewrite cont_elem; lia).
    destruct (cont (r_step r) (elem r b) (elem r b)); congruence.
Qed.

(** ** Threads *)

Section Threads.
  Context {L : Type}.
  Context (body : Z -> L -> Z * L).
  Context (Hkeep : keeps body).

  Lemma static_thread_spec r fuel rt l p :
    fits r -> rt 1 (range_count_spec r - 1) = p ->
    0 <= p_lower p <= p_upper p + 1 -> p_upper p + 1 <= range_count_spec r ->
    (Z.to_nat (range_count_spec r) < fuel)%nat ->
    static_thread body fuel rt (r_start r) (r_stop r) (r_step r) l =
      Ok (let xs := map (elem r) (part_indices p) in
          let l' := sequential body xs l in
          Out xs l' (if p_last p then [l'] else [])).
  Proof.
    intros (Hr & Hs & Hn & He) Ep Hlo Hup Hf. set (n := range_count_spec r) in *.
    destruct (range_len_spec r Hr Hs) as [HL HN]. specialize (HL Hn). fold n in HL, HN.
    pose proof Hr as (Hi & Hj & Hk & Hz).
    unfold static_thread, range_new. replace (r_step r =? 0) with false by lia. cbn [bind].
    unfold static_init.
    replace (Range (r_start r) (r_stop r) (r_step r)) with r by (destruct r; reflexivity).
    rewrite HL. cbn [bind].
    rewrite (w64_id (n - 1)) by (unfold in64, min64, max64 in *; lia). rewrite Ep.
    unfold sub_range, range_new. replace (r_step r =? 0) with false by lia. cbn [bind].
    rewrite (w64_id (p_upper p + 1)) by (unfold in64, min64, max64 in *; lia).
    rewrite !get_raw_elem by (apply elem_in64 with (N := n); auto; lia).
    cbn [r_start r_stop r_step].
    replace (p_upper p + 1) with (Z.min (p_upper p + 1) n) at 1 by lia.
    rewrite (run_seg body Hkeep fuel r _ (p_lower p) (Z.min (p_upper p + 1) n)); auto; try lia.
    - cbn [bind]. unfold part_indices. replace (Z.min (p_upper p + 1) n) with (p_upper p + 1) by lia.
      reflexivity.
    - replace (elem r (Z.min (p_upper p + 1) n)) with (elem r (p_upper p + 1))
        by (f_equal; lia).
      apply cuts_clamp; auto; unfold n in *; lia.
    - apply elem_in64 with (N := n); auto; lia.
    - apply elem_in64 with (N := n); auto; lia.
  Qed.

  (** From a chunk starting at iteration [a]. *)
  Definition from_chunk (n a w stride : Z) : list Z :=
    filter (fun x => (x - a) mod stride <=? w) (seg a n).

  Lemma from_chunk_step n a w stride :
    0 < stride -> -1 <= w < stride -> 0 <= a < n ->
    from_chunk n a w stride =
      seg a (Z.min (a + w + 1) n) ++ from_chunk n (a + stride) w stride.
  Proof.
    intros Hs Hw Ha. unfold from_chunk.
    rewrite (seg_app a (Z.min (a + w + 1) n) n) by lia.
    rewrite (seg_app (Z.min (a + w + 1) n) (Z.min (a + stride) n) n) by lia.
    rewrite !filter_app. rewrite filter_all.
    2:{ intros x Hx. rewrite seg_in in Hx. apply Z.leb_le.
        rewrite Z.mod_small by lia. lia. }
    rewrite filter_none.
    2:{ intros x Hx. rewrite seg_in in Hx. apply Z.leb_gt.
        rewrite Z.mod_small by lia. lia. }
    simpl. f_equal. destruct (Z.le_gt_cases (a + stride) n).
    - replace (Z.min (a + stride) n) with (a + stride) by lia.
      apply filter_ext_in. intros x _. f_equal.
      replace (x - a) with (x - (a + stride) + 1 * stride) by lia.
      apply Z_mod_plus_full.
    - replace (Z.min (a + stride) n) with n by lia.
      now rewrite !seg_nil by lia.
  Qed.

  Lemma sequential_app xs ys l :
    sequential body (xs ++ ys) l = sequential body ys (sequential body xs l).
  Proof. unfold sequential. apply fold_left_app. Qed.

  Lemma run_chunks_spec r fuel stride w : forall k a l,
    fits r -> 0 < stride -> -1 <= w < stride -> 0 <= a ->
    in64 (elem r a) -> in64 (elem r (range_count_spec r + stride)) ->
    (Z.to_nat (range_count_spec r - a) < k)%nat ->
    (Z.to_nat (range_count_spec r) < fuel)%nat ->
    let xs := map (elem r) (from_chunk (range_count_spec r) a w stride) in
    run_chunks body k fuel (r_step r) (r_stop r) stride (elem r a)
      (clamp (r_step r) (elem r (a + w + 1)) (r_stop r)) l = Ok (xs, sequential body xs l).
  Proof.
    intros k. induction k as [|k IH]; intros a l F Hs Hw Ha Ia Ib Hk Hf; [lia|].
    pose proof F as (Hr & Hsp & Hn & He). pose proof Hr as (Hi & Hj & Hkk & Hz).
    set (n := range_count_spec r) in *. cbn [run_chunks].
    destruct (cont (r_step r) (elem r a) (r_stop r)) eqn:C.
    - apply cont_stop in C; auto; try lia. fold n in C.
      rewrite (run_seg body Hkeep fuel r _ a (Z.min (a + w + 1) n)); auto; try lia.
      2:{ apply cuts_clamp; auto. fold n. lia. }
      2:{ apply elem_in64 with (N := n); auto. lia. }
      cbn [bind].
      assert (E1 : w64 (elem r a + w64 (stride * r_step r)) = elem r (a + stride)).
      { rewrite w64_add_r. replace (elem r a + stride * r_step r) with (elem r (a + stride))
          by (unfold elem; lia). apply w64_id. apply elem_in64 with (N := n + stride); auto. lia. }
      rewrite E1.
      assert (Ia' : in64 (elem r (a + stride)))
        by (apply elem_in64 with (N := n + stride); auto; lia).
      (* the new end of the chunk *)
      assert (E2 : clamp (r_step r)
                (w64 (clamp (r_step r) (elem r (a + w + 1)) (r_stop r) + w64 (stride * r_step r)))
                (r_stop r) =
              clamp (r_step r) (elem r (a + stride + w + 1)) (r_stop r) \/
              n <= a + stride).
      { destruct (Z.le_gt_cases n (a + stride)); [now right|left].
        assert (X : clamp (r_step r) (elem r (a + w + 1)) (r_stop r) = elem r (a + w + 1)).
        { assert (Y : cont (r_step r) (elem r (a + w + 1)) (r_stop r) = true)
            by (apply cont_stop; auto; fold n; lia).
          revert Y. unfold cont, clamp. destruct (Z.leb_spec 0 (r_step r)); lia. }
        rewrite X, w64_add_r.
        replace (elem r (a + w + 1) + stride * r_step r) with (elem r (a + stride + w + 1))
          by (unfold elem; lia).
        rewrite w64_id; auto. apply elem_in64 with (N := n + stride); auto. lia. }
      rewrite (from_chunk_step n a w stride) by lia.
      destruct E2 as [-> | Hend].
      + rewrite IH; auto; try lia. fold n.
        cbn [bind fst snd]. rewrite map_app, sequential_app. reflexivity.
      + assert (C2 : cont (r_step r) (elem r (a + stride)) (r_stop r) = false).
        { assert (~ cont (r_step r) (elem r (a + stride)) (r_stop r) = true)
            by (rewrite cont_stop; auto; fold n; lia).
          destruct (cont (r_step r) (elem r (a + stride)) (r_stop r)); congruence. }
        assert (run_chunks_nil : forall st l', run_chunks body k fuel (r_step r) (r_stop r) stride
                  (elem r (a + stride)) st l' = Ok ([], l')).
        { intros. destruct k as [|k']; [lia|]. cbn [run_chunks]. now rewrite C2. }
        rewrite run_chunks_nil. cbn [bind fst snd].
        unfold from_chunk. rewrite (seg_nil (a + stride)) by lia. simpl. now rewrite !app_nil_r.
    - assert (~ a < n) by (unfold n; rewrite <- (cont_stop r a) by auto; congruence).
      unfold from_chunk. rewrite seg_nil by lia. reflexivity.
  Qed.

  Lemma cyclic_from_chunk n p : 0 <= p_lower p <= n -> 0 < p_stride p ->
    cyclic_indices n p = from_chunk n (p_lower p) (p_upper p - p_lower p) (p_stride p).
  Proof.
    intros H Hs. unfold cyclic_indices, from_chunk. rewrite (seg_app 0 (p_lower p) n) by lia.
    rewrite filter_app, filter_none.
    2:{ intros x Hx. rewrite seg_in in Hx. lia. }
    simpl. apply filter_ext_in. intros x Hx. rewrite seg_in in Hx.
    now replace (p_lower p <=? x) with true by lia.
  Qed.

  Lemma chunked_thread_spec r fuel rt chunk l p :
    fits r -> rt chunk (range_count_spec r - 1) = p ->
    0 <= p_lower p <= p_upper p + 1 -> p_lower p <= range_count_spec r ->
    p_upper p - p_lower p < p_stride p -> 0 < p_stride p <= max64 ->
    in64 (elem r (range_count_spec r + p_stride p)) -> p_upper p < max64 ->
    (Z.to_nat (range_count_spec r) < fuel)%nat ->
    chunked_thread body fuel rt chunk (r_start r) (r_stop r) (r_step r) l =
      Ok (let xs := map (elem r) (cyclic_indices (range_count_spec r) p) in
          let l' := sequential body xs l in
          Out xs l' (if p_last p then [l'] else [])).
  Proof.
    intros F Ep Hlo Hln Hw Hs He2 Hmx Hf. pose proof F as (Hr & Hsp & Hn & He).
    set (n := range_count_spec r) in *.
    destruct (range_len_spec r Hr Hsp) as [HL HN]. specialize (HL Hn). fold n in HL, HN.
    pose proof Hr as (Hi & Hj & Hk & Hz).
    unfold chunked_thread, range_new. replace (r_step r =? 0) with false by lia. cbn [bind].
    unfold static_init.
    replace (Range (r_start r) (r_stop r) (r_step r)) with r by (destruct r; reflexivity).
    rewrite HL. cbn [bind].
    rewrite (w64_id (n - 1)) by (unfold in64, min64, max64 in *; lia). rewrite Ep.
    unfold sub_range, range_new. replace (r_step r =? 0) with false by lia. cbn [bind].
    rewrite (w64_id (p_upper p + 1)) by (unfold in64, min64, max64 in *; lia).
    rewrite !get_raw_elem by (apply elem_in64 with (N := n + p_stride p); auto; lia).
    cbn [r_start r_stop r_step].
    replace (p_upper p + 1) with (p_lower p + (p_upper p - p_lower p) + 1) at 1 by lia.
    rewrite run_chunks_spec; auto; try lia.
    - fold n. cbn [bind]. rewrite cyclic_from_chunk by lia. reflexivity.
    - apply elem_in64 with (N := n); auto; lia.
  Qed.

  (** The values stored by a thread given successive parts. *)
  Fixpoint dyn_out (r : range) (ps : list part) (l : L) : thread_out L :=
    match ps with
    | [] => Out [] l []
    | p :: ps =>
        let xs := map (elem r) (part_indices p) in
        let l' := sequential body xs l in
        let o := dyn_out r ps l' in
        Out (xs ++ t_trace o) (t_local o) ((if p_last p then [l'] else []) ++ t_stores o)
    end.

  Lemma run_dynamic_spec r fuel ps : forall l,
    fits r ->
    Forall (fun p => 0 <= p_lower p <= p_upper p /\ p_upper p < range_count_spec r) ps ->
    (Z.to_nat (range_count_spec r) < fuel)%nat ->
    run_dynamic body fuel r ps l = Ok (dyn_out r ps l).
  Proof.
    induction ps as [|p ps IH]; intros l F HF Hf; [reflexivity|].
    inversion HF as [|? ? [H1 H2] HF']; subst.
    pose proof F as (Hr & Hsp & Hn & He). pose proof Hr as (Hi & Hj & Hk & Hz).
    cbn [run_dynamic]. unfold sub_range, range_new.
    replace (r_step r =? 0) with false by lia. cbn [bind].
    rewrite (w64_id (p_upper p + 1)) by (unfold in64, min64, max64 in *; lia).
    rewrite !get_raw_elem by (apply elem_in64 with (N := range_count_spec r); auto; lia).
    cbn [r_start r_stop].
    rewrite (run_seg body Hkeep fuel r _ (p_lower p) (p_upper p + 1)); auto; try lia.
    - cbn [bind]. rewrite IH; auto.
    - now apply cuts_elem.
    - apply elem_in64 with (N := range_count_spec r); auto; lia.
    - apply elem_in64 with (N := range_count_spec r); auto; lia.
  Qed.

  Lemma dyn_out_trace r ps : forall l,
    t_trace (dyn_out r ps l) = map (elem r) (concat (map part_indices ps)).
  Proof.
    induction ps as [|p ps IH]; intros l; simpl; auto. rewrite IH, map_app. reflexivity.
  Qed.

  Lemma dynamic_thread_spec r fuel rt chunk l ps :
    fits r -> rt chunk (range_count_spec r - 1) = ps ->
    Forall (fun p => 0 <= p_lower p <= p_upper p /\ p_upper p < range_count_spec r) ps ->
    (Z.to_nat (range_count_spec r) < fuel)%nat ->
    dynamic_thread body fuel rt chunk (r_start r) (r_stop r) (r_step r) l =
      Ok (dyn_out r ps l).
  Proof.
    intros F Ep HF Hf. pose proof F as (Hr & Hsp & Hn & He).
    destruct (range_len_spec r Hr Hsp) as [HL HN]. specialize (HL Hn).
    pose proof Hr as (Hi & Hj & Hk & Hz).
    unfold dynamic_thread, range_new. replace (r_step r =? 0) with false by lia. cbn [bind].
    replace (Range (r_start r) (r_stop r) (r_step r)) with r by (destruct r; reflexivity).
    rewrite HL. cbn [bind].
    rewrite (w64_id (range_count_spec r - 1)) by (unfold in64, min64, max64 in *; lia).
    rewrite Ep. now apply run_dynamic_spec.
  Qed.
End Threads.

Lemma range_elems_seg r : range_elems r = map (elem r) (seg 0 (range_count_spec r)).
Proof.
  rewrite map_seg. unfold range_elems, elem. f_equal; lia.
Qed.
