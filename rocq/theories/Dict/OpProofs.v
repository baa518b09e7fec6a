(** Lookup, insertion, deletion and the other table operations on the stored entries. *)
From Coq Require Import List ZArith Lia Bool Permutation.
From Verif.Common Require Import Result Int64 Arr Tac.
From Verif.Dict Require Import Model Flags Cells Proofs.
Import ListNotations.
Local Open Scope Z_scope.
Local Arguments Z.add : simpl never.
Local Arguments Z.sub : simpl never.
Local Arguments Z.mul : simpl never.
Local Arguments Z.pow : simpl never.
Local Arguments Z.div : simpl never.
Local Arguments Z.modulo : simpl never.
Local Arguments Z.land : simpl never.

Section Ops.
Context {K V : Type} (eqb : K -> K -> bool) (hash : K -> Z).
Context (eqb_refl : forall a, eqb a a = true).
Context (eqb_sym : forall a b, eqb a b = eqb b a).
Context (eqb_trans : forall a b c, eqb a b = true -> eqb b c = true -> eqb a c = true).
Context (hash_eq : forall a b, eqb a b = true -> hash a = hash b).

Notation tbl := (tbl K V).
Notation wfn := (wfn (V := V) eqb hash).
Notation wf := (wf (V := V) eqb hash).
Let home (k : K) : Z := mix (hash k).

Definition is_at (t : tbl) (key : K) (x : Z) : Prop :=
  0 <= x < nb t /\ liveb (flags t) x = true /\
  exists k, zn None (keys t) x = Some k /\ eqb k key = true.
Definition absent (t : tbl) (key : K) : Prop :=
  forall i k, 0 <= i < nb t -> liveb (flags t) i = true -> zn None (keys t) i = Some k -> eqb k key = false.

(** Bucket [i] is occupied but not by [key]. *)
Definition other (t : tbl) (key : K) (i : Z) : Prop :=
  occb (flags t) i = true /\
  (liveb (flags t) i = true -> forall k, zn None (keys t) i = Some k -> eqb k key = false).

Lemma occ_other_spec t key i : wfn t -> 0 <= i < nb t ->
  wp (occupied_other eqb (flags t) (keys t) key i) (fun c =>
    (c = true /\ other t key i) \/
    (c = false /\ (ebit (flags t) i = true \/ (ebit (flags t) i = false /\ is_at t key i)))).
Proof.
  intros W Hi. unfold occupied_other.
  assert (C : i / 16 < zlen (flags t)) by (apply covers_fsize with (n := nb t); auto; apply W).
  rewrite isempty_eq by (auto; lia). cbn [bind]. destruct (ebit (flags t) i) eqn:E.
  { change (negb (2 =? 0)) with true. apply wp_ok. auto. }
  change (negb (0 =? 0)) with false. cbn [bind]. rewrite isdel_eq by (auto; lia). cbn [bind].
  destruct (dbit (flags t) i) eqn:D.
  { change (negb (1 =? 0)) with true. apply wp_ok. left. split; auto. split.
    - unfold occb. now rewrite E.
    - unfold liveb. rewrite D. discriminate. }
  change (negb (0 =? 0)) with false. cbn iota.
  assert (L : liveb (flags t) i = true) by (unfold liveb; rewrite D, E; reflexivity).
  destruct (w_full _ _ t W i Hi L) as (k & v & Ek & Ev).
  rewrite (rd_ok _ i k) by (auto; rewrite (w_keys _ _ t W); lia). cbn [bind]. apply wp_ok.
  destruct (eqb k key) eqn:EK; simpl.
  - right. split; auto. right. split; auto. repeat split; auto; try lia. eauto.
  - left. split; auto. split; [unfold occb; now rewrite E|]. intros _ k' Ek'. congruence.
Qed.

(** If all probes before [step] are occupied by others and probe [step] is empty, the key is absent. *)
Lemma path_absent t key step : wfn t -> 0 <= step ->
  (forall s, 0 <= s < step -> other t key (probe (nb t) (home key) s)) ->
  ebit (flags t) (probe (nb t) (home key) step) = true -> absent t key.
Proof.
  intros W Hs HO HE i k Hi L Ek. destruct (eqb k key) eqn:E; auto. exfalso.
  destruct (w_reach _ _ t W i k Hi L Ek) as (s & Hs1 & Ps & Occ).
  rewrite (hash_eq _ _ E) in *. fold (home key) in *.
  destruct (Z_lt_le_dec s step).
  - destruct (HO s ltac:(lia)) as [_ Ho]. rewrite Ps in Ho. specialize (Ho L k Ek). congruence.
  - destruct (Z.eq_dec s step) as [->|].
    + rewrite Ps in HE. unfold liveb in L. rewrite HE, orb_true_r in L. discriminate.
    + specialize (Occ step ltac:(lia)). unfold occb in Occ. rewrite HE in Occ. discriminate.
Qed.

Lemma get_spec t key : wf t ->
  wp (kh_get eqb hash t key) (fun x => (x = nb t /\ absent t key) \/ is_at t key x).
Proof.
  intros [->|W].
  { apply wp_ok. left. split; auto. intros i k Hi. simpl in Hi. lia. }
  unfold kh_get. pose proof (w_pow _ _ t W) as P. pose proof (pow2_bounds _ P) as PB.
  destruct (Z.eqb_spec (nb t) 0); [lia|]. fold (home key).
  destruct (wfn_empty_bucket _ _ t W) as (e & He & Ee).
  destruct (probe_surj (nb t) (home key) e P He) as (se & Hse & Pse).
  apply wp_loop with
    (I := fun s => let '(i, step) := s in 0 <= step <= se /\ i = probe (nb t) (home key) step /\
            forall s', 0 <= s' < step -> other t key (probe (nb t) (home key) s'))
    (mu := fun s => let '(_, step) := s in Z.to_nat (nb t - step)).
  - intros [i step] (H1 & H2 & H3). unfold get_body.
    assert (R : 0 <= i < nb t) by (subst i; now apply probe_range).
    apply wp_bind. eapply wp_conseq; [now apply occ_other_spec|]. cbv beta.
    intros c [(-> & Ho)|(-> & Hc)].
    + assert (step <> se).
      { intros ->. destruct Ho as [Ho _]. unfold occb in Ho. subst i. rewrite Pse, Ee in Ho. discriminate. }
      cbv zeta. rewrite H2, probe_step by auto. rewrite <- probe_0 by auto.
      destruct (Z.eqb_spec (probe (nb t) (home key) (step + 1)) (probe (nb t) (home key) 0)) as [EQ|NE].
      { apply probe_inj in EQ; auto; lia. }
      apply wp_ok. split; [|lia]. split; [lia|]. split; auto.
      intros s' Hs'. destruct (Z.eq_dec s' step) as [->|]; [now rewrite <- H2|]. apply H3. lia.
    + assert (C : i / 16 < zlen (flags t)) by (apply covers_fsize with (n := nb t); auto; apply W).
      destruct (iseither_eq (flags t) i) as (x & -> & Ex); [lia|auto|]. cbn [bind]. rewrite Ex.
      apply wp_ok. destruct Hc as [Em|(Em & At)].
      * rewrite Em, orb_true_r. simpl. left. split; auto. apply (path_absent t key step); auto; [lia|].
        now rewrite <- H2.
      * destruct At as (A1 & A2 & A3). unfold liveb in A2. rewrite A2. simpl. right. split; auto.
  - split; [lia|]. split; [symmetry; now apply probe_0|]. intros; lia.
  - lia.
Qed.

(** Where the search of [_kh_put] ends. *)
Lemma put_search t key : wfn t ->
  let mask := nb t - 1 in let i0 := Z.land (home key) mask in
  wp (loop (S (Z.to_nat (nb t))) (put_body eqb t key mask i0) (i0, 0, nb t))
     (fun r => let '(i, site, x) := r in x = nb t /\ 0 <= i < nb t /\
        ((is_at t key i /\ ebit (flags t) i = false) \/
         (absent t key /\ ebit (flags t) i = true /\ reach (nb t) (occb (flags t)) (home key) i /\
          (site = nb t \/ (0 <= site < nb t /\ dbit (flags t) site = true /\ ebit (flags t) site = false /\
                           reach (nb t) (occb (flags t)) (home key) site))))).
Proof.
  intros W mask i0. subst mask i0. pose proof (w_pow _ _ t W) as P. pose proof (pow2_bounds _ P) as PB.
  destruct (wfn_empty_bucket _ _ t W) as (e & He & Ee).
  destruct (probe_surj (nb t) (home key) e P He) as (se & Hse & Pse).
  apply wp_loop with
    (I := fun s => let '(i, step, site) := s in 0 <= step <= se /\ i = probe (nb t) (home key) step /\
            (forall s', 0 <= s' < step -> other t key (probe (nb t) (home key) s')) /\
            (site = nb t \/ (0 <= site < nb t /\ dbit (flags t) site = true /\ ebit (flags t) site = false /\
                           reach (nb t) (occb (flags t)) (home key) site)))
    (mu := fun s => let '(_, step, _) := s in Z.to_nat (nb t - step)).
  - intros [[i step] site] (H1 & H2 & H3 & H4). unfold put_body.
    assert (R : 0 <= i < nb t) by (subst i; now apply probe_range).
    assert (C : i / 16 < zlen (flags t)) by (apply covers_fsize with (n := nb t); auto; apply W).
    apply wp_bind. eapply wp_conseq; [now apply occ_other_spec|]. cbv beta.
    intros c [(-> & Ho)|(-> & Hc)].
    + assert (step <> se).
      { intros ->. destruct Ho as [Ho _]. unfold occb in Ho. subst i. rewrite Pse, Ee in Ho. discriminate. }
      rewrite isdel_eq by (auto; lia). cbn [bind].
      cbv zeta.
      assert (NX : Z.land (i + (step + 1)) (nb t - 1) = probe (nb t) (home key) (step + 1))
        by (rewrite H2; now apply probe_step).
      rewrite !NX. rewrite <- (probe_0 (nb t) (home key)) by auto.
      destruct (Z.eqb_spec (probe (nb t) (home key) (step + 1)) (probe (nb t) (home key) 0)) as [EQ|NE].
      { apply probe_inj in EQ; auto; lia. }
      assert (HN : forall s', 0 <= s' < step + 1 -> other t key (probe (nb t) (home key) s')).
      { intros s' Hs'. destruct (Z.eq_dec s' step) as [->|]; [now rewrite <- H2|]. apply H3. lia. }
      assert (G : forall st, (st = nb t \/ (0 <= st < nb t /\ dbit (flags t) st = true /\ ebit (flags t) st = false /\
                           reach (nb t) (occb (flags t)) (home key) st)) ->
        (0 <= step + 1 <= se /\ probe (nb t) (home key) (step + 1) = probe (nb t) (home key) (step + 1) /\
        (forall s', 0 <= s' < step + 1 -> other t key (probe (nb t) (home key) s')) /\
        (st = nb t \/ (0 <= st < nb t /\ dbit (flags t) st = true /\ ebit (flags t) st = false /\
                           reach (nb t) (occb (flags t)) (home key) st))) /\
        (Z.to_nat (nb t - (step + 1)) < Z.to_nat (nb t - step))%nat).
      { intros st Hst. split; [split; [lia|split; [reflexivity|split; [exact HN|exact Hst]]]|lia]. }
      destruct (dbit (flags t) i) eqn:D.
      * replace (if negb ((if true then 1 else 0) =? 0) then i else site) with i by reflexivity.
        apply wp_ok. apply G. right. split; auto. split; auto.
        destruct Ho as [Ho _]. unfold occb in Ho. apply negb_true_iff in Ho. split; auto.
        exists step. split; [lia|]. split; auto. intros s' Hs'. apply H3. lia.
      * replace (if negb ((if false then 1 else 0) =? 0) then i else site) with site by reflexivity.
        apply wp_ok. now apply G.
    + apply wp_ok. split; auto. split; auto. destruct Hc as [Em|(Em & At)]; [right|left]; auto.
      split. { apply (path_absent t key step); auto; [lia|]. now rewrite <- H2. }
      split; auto. split; auto. exists step. split; [lia|]. split; auto. intros s' Hs'. apply H3. lia.
  - split; [lia|]. split; [symmetry; now apply probe_0|]. split; [intros; lia|auto].
  - lia.
Qed.

(** Writing a new key and its value into a free bucket on the key's path. *)
Lemma place_spec t key x ad : wfn t -> absent t key -> 0 <= x < nb t ->
  liveb (flags t) x = false -> reach (nb t) (occb (flags t)) (home key) x ->
  ad = (if ebit (flags t) x then 1 else 0) -> nocc t + ad <= ub t ->
  wp (set_isboth_false (flags t) x) (fun fl =>
    let t' := T (nb t) (sz t + 1) (nocc t + ad) (ub t) fl (upd (keys t) x (Some key)) (vals t) in
    liveb fl x = true /\
    forall v, let t'' := T (nb t) (sz t + 1) (nocc t + ad) (ub t) fl (upd (keys t) x (Some key)) (upd (vals t) x (Some v)) in
       wfn t'' /\ Permutation (ents t'') ((key, v) :: ents t)).
Proof.
  intros W Ab Hx Lx Rx Ad Ld. pose proof (w_pow _ _ t W) as P.
  assert (CV : covers (flags t) (nb t)) by (apply covers_fsize; apply W).
  unfold set_isboth_false. eapply wp_conseq; [apply clear_spec; [lia|now apply CV|lia]|]. cbv beta.
  intros fl (FL & FB).
  assert (FX : dbit fl x = false /\ ebit fl x = false).
  { specialize (FB x ltac:(lia)). rewrite Z.eqb_refl in FB. change (Z.testbit 3 0) with true in FB.
    change (Z.testbit 3 1) with true in FB. cbn [negb] in FB. rewrite !andb_false_r in FB. exact FB. }
  assert (FO : forall j, 0 <= j -> j <> x -> dbit fl j = dbit (flags t) j /\ ebit fl j = ebit (flags t) j).
  { intros j Hj N. specialize (FB j Hj). destruct (Z.eqb_spec j x); [lia|auto]. }
  assert (LV : forall j, 0 <= j -> liveb fl j = if j =? x then true else liveb (flags t) j).
  { intros j Hj. destruct (Z.eqb_spec j x) as [->|N]; unfold liveb.
    - destruct FX as [-> ->]. reflexivity.
    - destruct (FO j Hj N) as [-> ->]. reflexivity. }
  assert (OC : forall j, 0 <= j -> occb fl j = if j =? x then true else occb (flags t) j).
  { intros j Hj. destruct (Z.eqb_spec j x) as [->|N]; unfold occb.
    - destruct FX as [_ ->]. reflexivity.
    - destruct (FO j Hj N) as [_ ->]. reflexivity. }
  cbv zeta. split; [rewrite LV by lia; now rewrite Z.eqb_refl|].
  intros v. pose proof (w_keys _ _ t W) as KL. pose proof (w_vals _ _ t W) as VL.
  split.
  - constructor; cbn [nb sz nocc ub flags keys vals]; auto.
    + now rewrite zlen_upd.
    + now rewrite zlen_upd.
    + rewrite FL. apply W.
    + intros i Hi LI. rewrite LV in LI by lia. rewrite !zn_upd by lia.
      destruct (Z.eqb_spec i x) as [->|N]; [eauto|]. apply W; auto.
    + intros i k Hi LI. rewrite LV in LI by lia. rewrite zn_upd by lia.
      assert (MONO : forall j, 0 <= j < nb t -> occb (flags t) j = true -> occb fl j = true).
      { intros j Hj. rewrite OC by lia. destruct (j =? x); auto. }
      destruct (Z.eqb_spec i x) as [->|N].
      * intros EE. injection EE as <-. eapply reach_mono; eauto.
      * intros EE. eapply reach_mono; [auto|exact MONO|]. apply (w_reach _ _ t W); auto.
    + intros i j k k' Hi Hj Li Lj. rewrite LV in Li, Lj by lia. rewrite !zn_upd by lia.
      destruct (Z.eqb_spec i x) as [->|Ni]; destruct (Z.eqb_spec j x) as [->|Nj]; auto.
      * intros EE Ek' EQ. injection EE as <-. rewrite eqb_sym in EQ. rewrite (Ab j k') in EQ; auto. discriminate.
      * intros Ek EE EQ. injection EE as <-. rewrite (Ab i k) in EQ; auto. discriminate.
      * apply (w_uniq _ _ t W); auto.
    + rewrite (cnt_upd (liveb (flags t)) (liveb fl) (nb t) x); auto.
      * rewrite LV by lia. rewrite Z.eqb_refl, Lx, (w_sz _ _ t W). lia.
      * intros j Hj N. rewrite LV by lia. destruct (Z.eqb_spec j x); [lia|auto].
    + rewrite (cnt_upd (occb (flags t)) (occb fl) (nb t) x); auto.
      * rewrite OC by lia. rewrite Z.eqb_refl, (w_nocc _ _ t W). subst ad. unfold occb at 3.
        destruct (ebit (flags t) x); simpl; lia.
      * intros j Hj N. rewrite OC by lia. destruct (Z.eqb_spec j x); [lia|auto].
    + apply W.
  - unfold ents. cbn [nb flags keys vals].
    pose proof (cells_upd (liveb (flags t)) (liveb fl) (keys t) (vals t) (upd (keys t) x (Some key)) (upd (vals t) x (Some v)) (nb t) x) as CU.
    specialize (CU Hx).
    specialize (CU ltac:(intros j Hj N; rewrite LV by lia; rewrite !zn_upd_other by lia; destruct (Z.eqb_spec j x); [lia|auto])).
    unfold cell in CU. rewrite LV, Z.eqb_refl, Lx in CU by lia.
    rewrite (ent_some (upd (keys t) x (Some key)) _ x key v) in CU by (apply zn_upd_same; lia).
    symmetry. exact CU.
Qed.

(** Overwriting the value of a live bucket. *)
Lemma set_val_spec t x v : wfn t -> 0 <= x < nb t -> liveb (flags t) x = true ->
  exists k v0 rest, zn None (keys t) x = Some k /\ zn None (vals t) x = Some v0 /\
    Permutation (ents t) ((k, v0) :: rest) /\
    wp (set_val t x v) (fun t' => wfn t' /\ Permutation (ents t') ((k, v) :: rest)).
Proof.
  intros W Hx Lx. destruct (w_full _ _ t W x Hx Lx) as (k & v0 & Ek & Ev).
  pose proof (w_keys _ _ t W) as KL. pose proof (w_vals _ _ t W) as VL.
  assert (I : In (k, v0) (ents t)) by (apply in_cells; exists x; auto).
  apply in_split in I. destruct I as (l1 & l2 & E). exists k, v0, (l1 ++ l2). split; auto. split; auto. split.
  { rewrite E. symmetry. apply Permutation_middle. }
  unfold set_val. rewrite wr_ok by lia. cbn [bind]. apply wp_ok. split.
  - destruct W. constructor; cbn [nb sz nocc ub flags keys vals]; auto.
    + now rewrite zlen_upd.
    + intros i Hi LI. rewrite zn_upd by lia. destruct (Z.eqb_spec i x) as [->|N]; [eauto|]. auto.
  - unfold ents. cbn [nb flags keys vals].
    pose proof (cells_upd (liveb (flags t)) (liveb (flags t)) (keys t) (vals t) (keys t) (upd (vals t) x (Some v)) (nb t) x) as CU.
    specialize (CU Hx ltac:(intros j Hj N; rewrite zn_upd_other by lia; auto)).
    unfold cell in CU. rewrite Lx in CU. rewrite (ent_some (keys t) (vals t) x k v0) in CU by auto.
    rewrite (ent_some (keys t) (upd _ _ _) x k v) in CU by (auto; apply zn_upd_same; lia).
    fold (ents t) in CU. rewrite E in CU.
    apply (Permutation_cons_inv (a := (k, v0))). cbn [app] in CU. rewrite <- CU.
    rewrite <- Permutation_middle. apply perm_swap.
Qed.

Lemma absent_ents t key : absent t key -> forall k v, In (k, v) (ents t) -> eqb k key = false.
Proof. intros A k v I. apply in_cells in I. destruct I as (i & Hi & L & Ek & _). eauto. Qed.
Lemma ents_absent t key : wf t -> (forall k v, In (k, v) (ents t) -> eqb k key = false) -> absent t key.
Proof.
  intros Wf H i k Hi L Ek. destruct Wf as [->|W]; [simpl in Hi; lia|].
  destruct (w_full _ _ t W i Hi L) as (k' & v & E1 & E2). rewrite Ek in E1. injection E1 as <-.
  apply (H k v). apply in_cells. exists i. auto.
Qed.

(** Tables small enough for the 64-bit arithmetic on bucket counts. *)
Definition roomy (t : tbl) : Prop := sz t <= 2^60.

Lemma put_spec t key : wf t -> roomy t ->
  wp (kh_put eqb hash t key) (fun r => let '(t', ret, x) := r in
    nb t' <> 0 /\
    ((ret = 0 /\ wfn t' /\ Permutation (ents t') (ents t) /\ is_at t' key x) \/
     (ret <> 0 /\ (forall k v, In (k, v) (ents t) -> eqb k key = false) /\ 0 <= x < nb t' /\
      forall v, wp (set_val t' x v) (fun t'' =>
         wfn t'' /\ Permutation (ents t'') ((key, v) :: ents t))))).
Proof.
  intros Wf Rm. unfold kh_put. unfold roomy in Rm.
  apply wp_bind. apply wp_conseq with (P := fun t1 => wfn t1 /\ Permutation (ents t1) (ents t) /\ nocc t1 < ub t1).
  { destruct (Z.leb_spec (ub t) (nocc t)) as [L|L].
    2:{ apply wp_ok. destruct Wf as [->|W]; [simpl in L; lia|]. auto. }
    destruct Wf as [->|W].
    - cbn [sz nb new]. change (2 * 0 <? 0) with false. cbn iota. change (0 + 1) with 1.
      eapply wp_conseq; [apply (resize_spec eqb hash eqb_sym new 1); [now left|unfold in64, min64, max64; lia]|].
      cbv beta. intros t1 (H1 & H2 & _ & H4). cbn [sz new] in H4.
      change (round_up 1) with 4 in H4. destruct H4 as [H4 H5]; [vm_compute; reflexivity|]. auto.
    - pose proof (w_pow _ _ t W) as P. pose proof (pow2_bounds _ P) as PB.
      pose proof (upper_bounds _ P) as [U1 U2].
      assert (SZ : sz t <= nocc t).
      { rewrite (w_sz _ _ t W), (w_nocc _ _ t W). apply cnt_le. intros j _. apply live_occ. }
      pose proof (w_load _ _ t W) as LD. rewrite (w_ub _ _ t W) in LD.
      destruct (Z.ltb_spec (2 * sz t) (nb t)).
      + eapply wp_conseq; [apply (resize_spec eqb hash eqb_sym t (nb t - 1)); [now right|unfold in64, min64, max64; lia]|].
        cbv beta. intros t1 (H1 & H2 & _ & H4). rewrite round_up_same in H4 by auto.
        assert (sz t < upper (nb t)).
        { assert (sz t < nb t / 2 + 1); [|lia]. pose proof (Z.div_mod (nb t) 2 ltac:(lia)).
          pose proof (Z.mod_pos_bound (nb t) 2 ltac:(lia)). lia. }
        destruct H4; auto.
      + eapply wp_conseq; [apply (resize_spec eqb hash eqb_sym t (nb t + 1)); [now right|unfold in64, min64, max64; lia]|].
        cbv beta. intros t1 (H1 & H2 & _ & H4). rewrite round_up_double in H4 by (auto; lia).
        assert (sz t < upper (2 * nb t)) by (specialize (U2 ltac:(lia)); lia).
        destruct H4; auto. }
  clear Wf Rm. intros t1 (W & PE & LD).
  assert (AB : absent t1 key -> forall k v, In (k, v) (ents t) -> eqb k key = false).
  { intros A k v I. apply (absent_ents t1 key A k v). eapply Permutation_in; [symmetry; exact PE|auto]. }
  pose proof (w_pow _ _ t1 W) as P. pose proof (pow2_bounds _ P) as PB.
  assert (CV : covers (flags t1) (nb t1)) by (apply covers_fsize; apply W).
  pose proof (w_keys _ _ t1 W) as KL. pose proof (w_vals _ _ t1 W) as VL.
  cbv zeta. fold (home key). rewrite <- probe_0 by auto.
  set (i0 := probe (nb t1) (home key) 0).
  assert (Hi0 : 0 <= i0 < nb t1) by now apply probe_range.
  rewrite isempty_eq by (auto; lia). cbn [bind].
  apply wp_bind. apply wp_conseq with (P := fun x => 0 <= x < nb t1 /\
     ((is_at t1 key x /\ ebit (flags t1) x = false) \/
      (absent t1 key /\ liveb (flags t1) x = false /\ reach (nb t1) (occb (flags t1)) (home key) x))).
  { destruct (ebit (flags t1) i0) eqn:E0.
    - change (negb (2 =? 0)) with true. apply wp_ok. split; auto. right. split; [|split].
      + apply (path_absent t1 key 0); auto; [lia|intros; lia].
      + unfold liveb. now rewrite E0, orb_true_r.
      + exists 0. split; [lia|]. split; auto. intros; lia.
    - change (negb (0 =? 0)) with false. cbn iota. apply wp_bind. unfold i0. rewrite probe_0 by auto.
      eapply wp_conseq; [now apply put_search|]. intros [[i site] x] (-> & Hi & H).
      rewrite Z.eqb_refl. rewrite isempty_eq by (auto; lia). cbn [bind]. apply wp_ok.
      destruct H as [(At & Ei)|(Ab & Ei & Rc & St)]; rewrite Ei.
      + change (negb (0 =? 0)) with false. cbn [andb]. auto.
      + change (negb (2 =? 0)) with true. cbn [andb].
        destruct St as [->|(S1 & S2 & S3 & S4)].
        * rewrite Z.eqb_refl. cbn [negb]. split; auto. right. split; auto. split; auto.
          unfold liveb. now rewrite Ei, orb_true_r.
        * destruct (Z.eqb_spec site (nb t1)); [lia|]. cbn [negb]. split; auto. right. split; auto.
          split; auto. unfold liveb. now rewrite S2. }
  intros x (Hx & H). rewrite isempty_eq by (auto; lia). cbn [bind].
  destruct H as [(At & Ex)|(Ab & Lx & Rc)].
  - rewrite Ex. change (negb (0 =? 0)) with false. cbn iota. rewrite isdel_eq by (auto; lia). cbn [bind].
    destruct At as (A1 & A2 & A3). assert (D : dbit (flags t1) x = false).
    { unfold liveb in A2. destruct (dbit (flags t1) x); auto; discriminate. }
    rewrite D. change (negb (0 =? 0)) with false. cbn iota. apply wp_ok. split; [lia|]. left.
    split; auto. split; auto. split; auto. split; auto.
  - destruct (ebit (flags t1) x) eqn:Ex.
    + change (negb (2 =? 0)) with true. cbn iota. rewrite wr_ok by lia. cbn [bind]. apply wp_bind.
      eapply wp_conseq; [apply (place_spec t1 key x 1); auto; [now rewrite Ex|lia]|]. cbv beta zeta.
      intros fl (L & H). apply wp_ok. cbn [nb]. split; [lia|]. right. split; [lia|]. split; [exact (AB Ab)|]. split; auto.
      intros v. unfold set_val. cbn [nb sz nocc ub flags keys vals]. rewrite wr_ok by lia. cbn [bind]. apply wp_ok.
      destruct (H v) as (H1 & H2). split; auto. rewrite H2. now apply perm_skip.
    + change (negb (0 =? 0)) with false. cbn iota. rewrite isdel_eq by (auto; lia). cbn [bind].
      assert (D : dbit (flags t1) x = true).
      { unfold liveb in Lx. rewrite Ex, orb_false_r in Lx. now apply negb_false_iff in Lx. }
      rewrite D. change (negb (1 =? 0)) with true. cbn iota. rewrite wr_ok by lia. cbn [bind]. apply wp_bind.
      pose proof (place_spec t1 key x 0 W Ab Hx Lx Rc) as PS. rewrite Ex in PS.
      replace (nocc t1 + 0) with (nocc t1) in PS by lia.
      eapply wp_conseq; [apply PS; auto; lia|]. cbv beta zeta.
      intros fl (L & H). apply wp_ok. cbn [nb]. split; [lia|]. right. split; [lia|]. split; [exact (AB Ab)|]. split; auto.
      intros v. unfold set_val. cbn [nb sz nocc ub flags keys vals]. rewrite wr_ok by lia. cbn [bind]. apply wp_ok.
      destruct (H v) as (H1 & H2). split; auto. rewrite H2. now apply perm_skip.
Qed.

Lemma del_spec t key x : wfn t -> is_at t key x ->
  exists k v, zn None (vals t) x = Some v /\ eqb k key = true /\
  wp (kh_del t x) (fun t' => wfn t' /\ nb t' = nb t /\ keys t' = keys t /\ vals t' = vals t /\
     (forall j, 0 <= j -> liveb (flags t') j = if j =? x then false else liveb (flags t) j) /\
     Permutation (ents t) ((k, v) :: ents t')).
Proof.
  intros W (Hx & Lx & k & Ek & EK). destruct (w_full _ _ t W x Hx Lx) as (k' & v & Ek' & Ev).
  rewrite Ek in Ek'. injection Ek' as <-. exists k, v. split; auto. split; auto.
  assert (CV : covers (flags t) (nb t)) by (apply covers_fsize; apply W).
  pose proof (w_keys _ _ t W) as KL. pose proof (w_vals _ _ t W) as VL.
  unfold kh_del. destruct (Z.eqb_spec x (nb t)); [lia|]. cbn [negb].
  destruct (iseither_eq (flags t) x) as (e & -> & Ee); [lia|now apply CV|]. cbn [bind]. rewrite Ee.
  pose proof Lx as Lx0. unfold liveb in Lx. rewrite Lx. apply wp_bind. eapply wp_conseq; [apply set_del_spec; [lia|now apply CV]|].
  cbv beta. intros fl (FL & FB). apply wp_ok. cbn [nb sz nocc ub flags keys vals].
  assert (LV : forall j, 0 <= j -> liveb fl j = if j =? x then false else liveb (flags t) j).
  { intros j Hj. unfold liveb. destruct (FB j Hj) as [-> ->]. destruct (j =? x); auto. }
  assert (OC : forall j, 0 <= j -> occb fl j = occb (flags t) j).
  { intros j Hj. unfold occb. now destruct (FB j Hj) as [_ ->]. }
  split; [|repeat split; auto].
  - constructor; cbn [nb sz nocc ub flags keys vals]; auto; try apply W.
    + rewrite FL. apply W.
    + intros i Hi LI. rewrite LV in LI by lia. destruct (i =? x); [discriminate|]. apply W; auto.
    + intros i kk Hi LI EE. rewrite LV in LI by lia. destruct (i =? x); [discriminate|].
      eapply reach_mono; [apply W| |apply (w_reach _ _ t W); eauto]. intros j Hj. now rewrite OC by lia.
    + intros i j k1 k2 Hi Hj Li Lj. rewrite LV in Li, Lj by lia.
      destruct (i =? x), (j =? x); try discriminate. apply (w_uniq _ _ t W); auto.
    + rewrite (cnt_upd (liveb (flags t)) (liveb fl) (nb t) x); auto.
      * rewrite LV by lia. rewrite Z.eqb_refl. rewrite Lx0, (w_sz _ _ t W). lia.
      * intros j Hj N. rewrite LV by lia. destruct (Z.eqb_spec j x); [lia|auto].
    + rewrite (w_nocc _ _ t W). apply cnt_ext. intros. now rewrite OC by lia.
  - unfold ents. cbn [nb flags keys vals].
    pose proof (cells_upd (liveb (flags t)) (liveb fl) (keys t) (vals t) (keys t) (vals t) (nb t) x) as CU.
    specialize (CU Hx ltac:(intros j Hj N; rewrite LV by lia; destruct (Z.eqb_spec j x); [lia|auto])).
    unfold cell in CU. rewrite LV, Z.eqb_refl in CU by lia. rewrite Lx0 in CU.
    rewrite (ent_some (keys t) (vals t) x k v) in CU by auto. exact CU.
Qed.

Lemma clear_table t : wf t -> wp (kh_clear t) (fun t' => wf t' /\ ents t' = [] /\ nb t' = nb t).
Proof.
  intros [->|W].
  - apply wp_ok. split; [now left|auto].
  - pose proof (w_pow _ _ t W) as P. pose proof (fsize_pos _ P). pose proof (w_flags _ _ t W) as WF.
    unfold kh_clear. destruct (flags t) as [|w ws] eqn:EF.
    { change (zlen (@nil Z)) with 0 in WF. lia. }
    rewrite <- EF in *. clear w ws EF.
    destruct (Z.ltb_spec (zlen (flags t)) (fsize (nb t))); [lia|]. apply wp_ok.
    set (fl := repeat _ _ ++ _).
    assert (FB : forall i, 0 <= i < nb t -> dbit fl i = false /\ ebit fl i = true).
    { intros i Hi. pose proof (fsize_enough _ i P Hi) as FE. assert (0 <= i / 16) by (apply Z.div_pos; lia).
      pose proof (fresh_bits (Z.to_nat (fsize (nb t))) i ltac:(lia) ltac:(lia)) as FR.
      assert (EQ : word fl i = word (repeat 2863311530 (Z.to_nat (fsize (nb t)))) i).
      { unfold word, zn, fl. rewrite app_nth1; auto. rewrite repeat_length. lia. }
      unfold dbit, ebit in *. rewrite EQ. exact FR. }
    assert (LV : forall j, 0 <= j < nb t -> liveb fl j = false).
    { intros j Hj. unfold liveb. destruct (FB j Hj) as [-> ->]. reflexivity. }
    assert (FL : fsize (nb t) <= zlen fl).
    { unfold fl, zlen. rewrite app_length, repeat_length. lia. }
    clearbody fl. cbn [nb]. split; [right|split; auto].
    + pose proof (pow2_bounds _ P). pose proof (upper_bounds _ P) as [U _].
      constructor; cbn [nb sz nocc ub flags keys vals]; auto; try apply W.
      * intros i Hi LI. rewrite LV in LI by auto. discriminate.
      * intros i k Hi LI. rewrite LV in LI by auto. discriminate.
      * intros i j k k' Hi Hj LI. rewrite LV in LI by auto. discriminate.
      * symmetry. apply cnt_zero. auto.
      * symmetry. apply cnt_zero. intros j Hj. unfold occb. destruct (FB j Hj) as [_ ->]. reflexivity.
      * rewrite (w_ub _ _ t W). assert (0 <= nb t / 2) by (apply Z.div_pos; lia). lia.
    + unfold ents, cells. cbn [nb flags keys vals]. apply flat_map_nil. intros i Hi. apply in_zseq in Hi.
      unfold cell. now rewrite LV.
Qed.

Lemma items_from_S m (t : tbl) i : items_from (S m) t i =
  if i <? nb t then
    bind (iseither (flags t) i) (fun e => if e =? 0 then
      bind (rd (keys t) i) (fun k => bind (rd (vals t) i) (fun v =>
      bind (items_from m t (i + 1)) (fun rest => Ok ((k, v) :: rest))))
    else items_from m t (i + 1))
  else Ok [].
Proof. reflexivity. Qed.

Lemma items_spec t : wf t -> items t = Ok (ents t).
Proof.
  intros Wf. unfold items, ents, cells.
  assert (G : forall m i, 0 <= i -> (i + Z.of_nat m = nb t \/ (m = 0%nat /\ nb t <= i)) ->
     items_from (S m) t i = Ok (flat_map (cell (liveb (flags t)) (keys t) (vals t)) (map Z.of_nat (seq (Z.to_nat i) m)))).
  { induction m as [|m IH]; intros i Hi Hm; rewrite items_from_S.
    - replace (i <? nb t) with false by lia. reflexivity.
    - replace (i <? nb t) with true by lia. destruct Wf as [->|W]; [simpl in Hm; lia|].
      assert (CV : covers (flags t) (nb t)) by (apply covers_fsize; apply W).
      destruct (iseither_eq (flags t) i) as (e & -> & Ee); [lia|apply CV; lia|]. cbn [bind]. rewrite Ee.
      cbn [seq map flat_map]. rewrite Z2Nat.id by lia.
      fold (liveb (flags t) i).
      replace (S (Z.to_nat i)) with (Z.to_nat (i + 1)) by lia. unfold cell at 1.
      destruct (liveb (flags t) i) eqn:L.
      + destruct (w_full _ _ t W i ltac:(lia) L) as (k & v & Ek & Ev).
        rewrite (rd_ok _ i k) by (auto; rewrite (w_keys _ _ t W); lia). cbn [bind].
        rewrite (rd_ok _ i v) by (auto; rewrite (w_vals _ _ t W); lia). cbn [bind].
        rewrite IH by lia. cbn [bind]. rewrite (ent_some _ _ i k v) by auto. reflexivity.
      + rewrite IH by lia. reflexivity. }
  assert (Hnb : 0 <= nb t). { destruct Wf as [->|W]; [simpl; lia|]. pose proof (pow2_bounds _ (w_pow _ _ t W)). lia. }
  rewrite G by lia. reflexivity.
Qed.

Lemma firstn_zn {X} (d : X) l n i : 0 <= i < n -> zn d (firstn (Z.to_nat n) l) i = zn d l i.
Proof. intros H. unfold zn. apply nth_firstn_lt. lia. Qed.

Lemma copied_spec t : wfn t ->
  wp (if (zlen (flags t) <? fsize (nb t)) || (zlen (keys t) <? nb t) || (zlen (vals t) <? nb t)
      then Undef
      else Ok (T (nb t) (sz t) (nocc t) (ub t)
              (firstn (Z.to_nat (fsize (nb t))) (flags t))
              (firstn (Z.to_nat (nb t)) (keys t)) (firstn (Z.to_nat (nb t)) (vals t))))
     (fun t' => wfn t' /\ ents t' = ents t).
Proof.
  intros W. pose proof (w_flags _ _ t W). pose proof (w_keys _ _ t W) as KL. pose proof (w_vals _ _ t W) as VL.
  pose proof (w_pow _ _ t W) as P. pose proof (pow2_bounds _ P). pose proof (fsize_pos _ P).
  replace (zlen (flags t) <? fsize (nb t)) with false by lia.
  replace (zlen (keys t) <? nb t) with false by lia. replace (zlen (vals t) <? nb t) with false by lia.
  cbn [orb]. apply wp_ok.
  rewrite !firstn_all2 with (l := keys t) by (unfold zlen in *; lia).
  rewrite !firstn_all2 with (l := vals t) by (unfold zlen in *; lia).
  set (fl := firstn _ _).
  assert (FB : forall i, 0 <= i < nb t -> dbit fl i = dbit (flags t) i /\ ebit fl i = ebit (flags t) i).
  { intros i Hi. pose proof (fsize_enough _ i P Hi). assert (0 <= i / 16) by (apply Z.div_pos; lia).
    unfold dbit, ebit, word, fl. rewrite firstn_zn by lia. auto. }
  assert (FL : fsize (nb t) <= zlen fl) by (unfold fl, zlen in *; rewrite firstn_length; lia).
  clearbody fl.
  assert (LV : forall j, 0 <= j < nb t -> liveb fl j = liveb (flags t) j).
  { intros j Hj. unfold liveb. destruct (FB j Hj) as [-> ->]. reflexivity. }
  assert (OC : forall j, 0 <= j < nb t -> occb fl j = occb (flags t) j).
  { intros j Hj. unfold occb. destruct (FB j Hj) as [_ ->]. reflexivity. }
  split.
  - constructor; cbn [nb sz nocc ub flags keys vals]; auto; try apply W.
    + intros i Hi LI. rewrite LV in LI by auto. apply W; auto.
    + intros i k Hi LI Ek. rewrite LV in LI by auto.
      eapply reach_mono; [auto| |apply (w_reach _ _ t W); eauto]. intros j Hj. now rewrite OC.
    + intros i j k k' Hi Hj LI LJ. rewrite LV in LI, LJ by auto. apply (w_uniq _ _ t W); auto.
    + rewrite (w_sz _ _ t W). apply cnt_ext. intros; symmetry; now apply LV.
    + rewrite (w_nocc _ _ t W). apply cnt_ext. intros; symmetry; now apply OC.
  - unfold ents. cbn [nb flags keys vals]. apply cells_ext. intros j Hj. rewrite LV; auto.
Qed.

Lemma copy_spec t : wf t -> wp (copy t) (fun t' => wf t' /\ ents t' = ents t).
Proof.
  intros Wf. unfold copy. destruct (Z.eqb_spec (sz t) 0) as [E|E].
  - apply wp_ok. split; [now left|]. rewrite (wf_sz _ _ _ Wf) in E.
    destruct (ents t); [reflexivity|]. unfold zlen in E. simpl in E. lia.
  - destruct Wf as [->|W]; [simpl in E; lia|].
    eapply wp_conseq; [now apply copied_spec|]. cbv beta. intros t' (H1 & H2). split; auto. now right.
Qed.
Lemma init_from_spec t : wf t -> wp (init_from t) (fun t' => wf t' /\ ents t' = ents t).
Proof.
  intros Wf. unfold init_from. destruct (Z.eqb_spec (nb t) 0) as [E|E].
  - apply wp_ok. split; [now left|]. destruct Wf as [->|W]; [reflexivity|].
    pose proof (pow2_bounds _ (w_pow _ _ t W)). lia.
  - destruct Wf as [->|W]; [simpl in E; lia|].
    eapply wp_conseq; [now apply copied_spec|]. cbv beta. intros t' (H1 & H2). split; auto. now right.
Qed.
End Ops.
