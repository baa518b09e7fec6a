(** The hash-table invariant and the effect of each table primitive on the stored entries. *)
From Coq Require Import List ZArith Lia Bool Permutation.
From Verif.Common Require Import Result Int64 Arr Tac.
From Verif.Dict Require Import Model Flags Cells.
Import ListNotations.
Local Open Scope Z_scope.
Local Arguments Z.add : simpl never.
Local Arguments Z.sub : simpl never.
Local Arguments Z.mul : simpl never.
Local Arguments Z.pow : simpl never.
Local Arguments Z.div : simpl never.
Local Arguments Z.modulo : simpl never.
Local Arguments Z.land : simpl never.

Definition liveb (fl : list Z) (i : Z) : bool := negb (dbit fl i || ebit fl i).
Definition occb (fl : list Z) (i : Z) : bool := negb (ebit fl i).

(** Bucket [i] is on the probe path of home [h], after occupied buckets only. *)
Definition reach (n : Z) (occ : Z -> bool) (h i : Z) : Prop :=
  exists s, 0 <= s < n /\ probe n h s = i /\ forall s', 0 <= s' < s -> occ (probe n h s') = true.

Lemma reach_mono n (P Q : Z -> bool) h i : pow2 n -> (forall j, 0 <= j < n -> P j = true -> Q j = true) ->
  reach n P h i -> reach n Q h i.
Proof.
  intros PW H (s & H1 & H2 & H3). exists s. split; auto. split; auto. intros s' Hs'.
  apply H; auto. now apply probe_range.
Qed.

Definition covers (fl : list Z) (n : Z) : Prop := forall i, 0 <= i < n -> i / 16 < zlen fl.
Lemma covers_fsize fl n : pow2 n -> fsize n <= zlen fl -> covers fl n.
Proof. intros P H i Hi. pose proof (fsize_enough n i P Hi). lia. Qed.

Lemma first_empty nfl n h : pow2 n -> covers nfl n -> (exists i, 0 <= i < n /\ ebit nfl i = true) ->
  wp (loop (S (Z.to_nat n)) (probe_body nfl (n - 1)) (Z.land h (n - 1), 0))
     (fun i => 0 <= i < n /\ ebit nfl i = true /\ reach n (occb nfl) h i).
Proof.
  intros P C (e & He & Ee). pose proof (pow2_bounds n P) as B.
  destruct (probe_surj n h e P He) as (se & Hse & Pse).
  apply wp_loop with
    (I := fun s => let '(i, step) := s in 0 <= step <= se /\ i = probe n h step /\
            forall s', 0 <= s' < step -> occb nfl (probe n h s') = true)
    (mu := fun s => let '(_, step) := s in Z.to_nat (n - step)).
  - intros [i step] (H1 & H2 & H3). unfold probe_body.
    assert (R : 0 <= i < n) by (subst i; now apply probe_range).
    rewrite isempty_eq by (auto; lia). cbn [bind]. destruct (ebit nfl i) eqn:E.
    + change (2 =? 0) with false. apply wp_ok. split; auto. split; auto.
      exists step. repeat split; auto; lia.
    + change (0 =? 0) with true. apply wp_ok. 
      assert (step <> se). { intros ->. congruence. }
      split; [|lia]. split; [lia|]. split; [subst i; now apply probe_step|].
      intros s' Hs'. destruct (Z.eq_dec s' step) as [->|].
      * unfold occb. rewrite <- H2, E. reflexivity.
      * apply H3. lia.
  - split; [lia|]. split; [symmetry; now apply probe_0|]. intros; lia.
  - lia.
Qed.

Section Proofs.
Context {K V : Type} (eqb : K -> K -> bool) (hash : K -> Z).
Context (eqb_refl : forall a, eqb a a = true).
Context (eqb_sym : forall a b, eqb a b = eqb b a).
Context (eqb_trans : forall a b c, eqb a b = true -> eqb b c = true -> eqb a c = true).
Context (hash_eq : forall a b, eqb a b = true -> hash a = hash b).

Notation tbl := (tbl K V).
Let home (k : K) : Z := mix (hash k).

Definition ents (t : tbl) : list (K * V) := cells (liveb (flags t)) (keys t) (vals t) (nb t).

Record wfn (t : tbl) : Prop := W {
  w_pow : pow2 (nb t);
  w_keys : zlen (keys t) = nb t;
  w_vals : zlen (vals t) = nb t;
  w_flags : fsize (nb t) <= zlen (flags t);
  w_full : full (liveb (flags t)) (keys t) (vals t) (nb t);
  w_reach : forall i k, 0 <= i < nb t -> liveb (flags t) i = true -> zn None (keys t) i = Some k ->
              reach (nb t) (occb (flags t)) (home k) i;
  w_uniq : forall i j k k', 0 <= i < nb t -> 0 <= j < nb t ->
             liveb (flags t) i = true -> liveb (flags t) j = true ->
             zn None (keys t) i = Some k -> zn None (keys t) j = Some k' -> eqb k k' = true -> i = j;
  w_sz : sz t = cnt (liveb (flags t)) (nb t);
  w_nocc : nocc t = cnt (occb (flags t)) (nb t);
  w_load : nocc t <= ub t;
  w_ub : ub t = upper (nb t) }.

Definition wf (t : tbl) : Prop := t = new \/ wfn t.

Lemma live_occ fl i : liveb fl i = true -> occb fl i = true.
Proof. unfold liveb, occb. destruct (dbit fl i), (ebit fl i); auto. Qed.

Lemma wf_sz t : wf t -> sz t = zlen (ents t).
Proof.
  intros [->|W]; [reflexivity|]. unfold ents. rewrite cells_len by apply W. apply W.
Qed.

Lemma wfn_empty_bucket t : wfn t -> exists i, 0 <= i < nb t /\ ebit (flags t) i = true.
Proof.
  intros W. pose proof (upper_bounds _ (w_pow t W)) as [U _]. pose proof (pow2_bounds _ (w_pow t W)).
  destruct (cnt_lt_ex (occb (flags t)) (nb t)) as (i & Hi & E); [lia| |].
  - rewrite <- (w_nocc t W). pose proof (w_load t W). rewrite (w_ub t W) in *. lia.
  - exists i. split; auto. unfold occb in E. now apply negb_false_iff in E.
Qed.

(** ** Rehashing *)

Definition occ2 (n newn : Z) (fl nfl : list Z) (i : Z) : bool :=
  (i <? n) && liveb fl i || (i <? newn) && occb nfl i.

Record ri (E : list (K * V)) (n newn M : Z) (fl nfl : list Z)
  (ks : list (option K)) (vs : list (option V)) (hand : list (K * V)) : Prop := RI {
  r_fl : covers fl n; r_nfl : zlen nfl = fsize newn;
  r_ks : zlen ks = M; r_vs : zlen vs = M;
  r_del : forall i, 0 <= i < newn -> dbit nfl i = false;
  r_dis : forall i, 0 <= i < n -> i < newn -> liveb fl i = true -> ebit nfl i = true;
  r_full : full (occ2 n newn fl nfl) ks vs M;
  r_perm : Permutation (hand ++ cells (occ2 n newn fl nfl) ks vs M) E;
  r_reach : forall i k, 0 <= i < newn -> occb nfl i = true -> zn None ks i = Some k ->
              reach newn (occb nfl) (home k) i }.

Lemma covers_len fl fl' n : zlen fl' = zlen fl -> covers fl n -> covers fl' n.
Proof. intros E C i Hi. rewrite E. auto. Qed.

(** New-table buckets are not all taken while an entry is in hand. *)
Lemma ri_space E n newn M fl nfl ks vs e :
  pow2 newn -> 0 <= n <= M -> newn <= M -> zlen E < newn ->
  ri E n newn M fl nfl ks vs [e] -> exists i, 0 <= i < newn /\ ebit nfl i = true.
Proof.
  intros P Hn Hm HE R. pose proof (pow2_bounds _ P).
  destruct (cnt_lt_ex (occb nfl) newn) as (i & Hi & Ei); [lia| |].
  - pose proof (Permutation_length (r_perm _ _ _ _ _ _ _ _ _ R)) as L. rewrite app_length in L.
    pose proof (cells_len _ _ _ _ (r_full _ _ _ _ _ _ _ _ _ R)) as CL.
    assert (cnt (occb nfl) newn <= cnt (occ2 n newn fl nfl) M).
    { destruct (zseq_app newn M ltac:(lia)) as (r & Er & _).
      transitivity (cnt (occ2 n newn fl nfl) newn).
      - apply cnt_le. intros j Hj O. unfold occ2. replace (j <? newn) with true by lia. rewrite O.
        now rewrite orb_true_r.
      - unfold cnt. rewrite Er, flat_map_app. unfold zlen. rewrite app_length. lia. }
    unfold zlen in *. simpl in L. lia.
  - exists i. split; auto. unfold occb in Ei. now apply negb_false_iff in Ei.
Qed.

Lemma kick_spec E n newn M fl nfl ks vs k v :
  pow2 newn -> 0 <= n <= M -> newn <= M -> zlen E < newn ->
  ri E n newn M fl nfl ks vs [(k, v)] ->
  wp (loop (S (Z.to_nat n)) (kick_body hash n newn) (fl, nfl, ks, vs, k, v))
     (fun r => let '(fl', nfl', ks', vs') := r in
        ri E n newn M fl' nfl' ks' vs' [] /\
        forall i, 0 <= i < n -> liveb fl' i = true -> liveb fl i = true).
Proof.
  intros P Hn Hm HE R0. pose proof (pow2_bounds _ P) as PB.
  apply wp_loop with
    (I := fun s => let '(fl', nfl', ks', vs', k', v') := s in
            ri E n newn M fl' nfl' ks' vs' [(k', v')] /\
            forall i, 0 <= i < n -> liveb fl' i = true -> liveb fl i = true)
    (mu := fun s => let '(fl', nfl', ks', vs', k', v') := s in Z.to_nat (cnt (liveb fl') n)).
  - clear R0 k v nfl ks vs. intros [[[[[fl' nfl] ks] vs] k] v] (R & Sub). unfold kick_body.
    pose proof (ri_space _ _ _ _ _ _ _ _ _ P Hn Hm HE R) as SP.
    assert (C : covers nfl newn) by (apply covers_fsize; auto; rewrite (r_nfl _ _ _ _ _ _ _ _ _ R); lia).
    apply wp_bind. eapply wp_conseq; [apply first_empty; auto|]. cbv beta. intros i (Hi & Ei & Ri).
    apply wp_bind. eapply wp_conseq; [apply clear_spec; auto; lia|]. cbv beta.
    intros nfl' (NL & NB). destruct R as [Rfl Rnfl Rks Rvs Rdel Rdis Rfull Rperm Rreach].
    assert (NBi : dbit nfl' i = false /\ ebit nfl' i = false).
    { specialize (NB i ltac:(lia)). rewrite Z.eqb_refl in NB. rewrite (Rdel i Hi), Ei in NB. 
      destruct NB as [-> ->]. auto. }
    assert (NBo : forall j, 0 <= j -> j <> i -> dbit nfl' j = dbit nfl j /\ ebit nfl' j = ebit nfl j).
    { intros j Hj N. specialize (NB j Hj). destruct (Z.eqb_spec j i); [lia|auto]. }
    assert (MONO : forall j, 0 <= j < newn -> occb nfl j = true -> occb nfl' j = true).
    { intros j Hj. unfold occb. destruct (Z.eq_dec j i) as [->|N].
      - destruct NBi as [_ ->]. auto.
      - destruct (NBo j ltac:(lia) N) as [_ ->]. auto. }
    apply wp_bind. 
    assert (LV : wp (if i <? n then bind (iseither fl' i) (fun e => Ok (e =? 0)) else Ok false)
                 (fun b => b = ((i <? n) && liveb fl' i))).
    { destruct (Z.ltb_spec i n); [|apply wp_ok; reflexivity].
      destruct (iseither_eq fl' i) as (x & -> & Ex); [lia|apply Rfl; lia|]. cbn [bind]. apply wp_ok.
      rewrite Ex. reflexivity. }
    eapply wp_conseq; [exact LV|]. cbv beta. intros b ->. clear LV.
    assert (Hks : 0 <= i < zlen ks) by lia. assert (Hvs : 0 <= i < zlen vs) by lia.
    destruct ((i <? n) && liveb fl' i) eqn:LVE.
    + apply andb_prop in LVE. destruct LVE as [L1 L2]. apply Z.ltb_lt in L1.
      assert (O2 : occ2 n newn fl' nfl i = true).
      { unfold occ2. replace (i <? n) with true by lia. now rewrite L2. }
      destruct (Rfull i ltac:(lia) O2) as (k' & v' & Ek & Ev).
      rewrite (rd_ok ks i k') by auto. cbn [bind]. rewrite wr_ok by auto. cbn [bind].
      rewrite (rd_ok vs i v') by auto. cbn [bind]. rewrite wr_ok by auto. cbn [bind].
      apply wp_bind. eapply wp_conseq; [apply set_del_spec; [lia|apply Rfl; lia]|]. cbv beta.
      intros fl2 (FL & FB). apply wp_ok.
      assert (LB : forall j, 0 <= j -> liveb fl2 j = if j =? i then false else liveb fl' j).
      { intros j Hj. unfold liveb. destruct (FB j Hj) as [-> ->]. destruct (j =? i); auto. }
      assert (OC : forall j, 0 <= j < M -> occ2 n newn fl2 nfl' j = occ2 n newn fl' nfl j).
      { intros j Hj. unfold occ2. rewrite LB by lia. destruct (Z.eqb_spec j i) as [->|N].
        - rewrite L2. unfold occb. destruct NBi as [_ ->]. replace (i <? n) with true by lia.
          replace (i <? newn) with true by lia. reflexivity.
        - unfold occb. destruct (NBo j ltac:(lia) N) as [_ ->]. reflexivity. }
      split; [split; [constructor|]|].
      * now apply (covers_len fl').
      * lia.
      * now rewrite zlen_upd.
      * now rewrite zlen_upd.
      * intros j Hj. destruct (Z.eq_dec j i) as [->|N]; [tauto|]. destruct (NBo j ltac:(lia) N) as [-> _]. auto.
      * intros j Hj1 Hj2 LJ. rewrite LB in LJ by lia. destruct (Z.eqb_spec j i) as [->|N]; [discriminate|].
        destruct (NBo j ltac:(lia) N) as [_ ->]. auto.
      * intros j Hj OJ. rewrite OC in OJ by auto. rewrite !zn_upd by lia.
        destruct (Z.eqb_spec j i) as [->|N]; [eauto|]. auto.
      * rewrite <- Rperm. 
        pose proof (cells_upd (occ2 n newn fl' nfl) (occ2 n newn fl2 nfl') ks vs (upd ks i (Some k)) (upd vs i (Some v)) M i) as CU.
        specialize (CU ltac:(lia)).
        specialize (CU ltac:(intros j Hj N; rewrite OC by auto; rewrite !zn_upd_other by lia; auto)).
        unfold cell in CU. rewrite OC, O2 in CU by lia.
        rewrite (ent_some ks vs i k' v') in CU by auto.
        rewrite (ent_some (upd ks i (Some k)) _ i k v) in CU by (rewrite zn_upd_same; auto; lia).
        symmetry. exact CU.
      * intros j kk Hj OJ. rewrite zn_upd by lia. destruct (Z.eqb_spec j i) as [->|N].
        -- intros EE. injection EE as <-. eapply reach_mono; [auto|exact MONO|exact Ri].
        -- intros EE. assert (occb nfl j = true).
           { revert OJ. unfold occb. destruct (NBo j ltac:(lia) N) as [_ ->]. auto. }
           eapply reach_mono; [auto|exact MONO|auto].
      * intros j Hj LJ. rewrite LB in LJ by lia. destruct (j =? i); [discriminate|]. auto.
      * assert (cnt (liveb fl2) n = cnt (liveb fl') n - 1).
        { rewrite (cnt_upd (liveb fl') (liveb fl2) n i).
          - rewrite LB by lia. rewrite Z.eqb_refl, L2. lia.
          - lia.
          - intros j Hj N. rewrite LB by lia. destruct (Z.eqb_spec j i); [lia|auto]. }
        pose proof (cnt_nonneg (liveb fl2) n). lia.
    + rewrite wr_ok by auto. cbn [bind]. rewrite wr_ok by auto. cbn [bind]. apply wp_ok.
      assert (OI : occ2 n newn fl' nfl i = false).
      { unfold occ2. rewrite LVE. unfold occb. rewrite Ei. simpl. now rewrite andb_false_r. }
      assert (OI' : occ2 n newn fl' nfl' i = true).
      { unfold occ2, occb. destruct NBi as [_ ->]. replace (i <? newn) with true by lia. now rewrite orb_true_r. }
      assert (OC : forall j, 0 <= j < M -> j <> i -> occ2 n newn fl' nfl' j = occ2 n newn fl' nfl j).
      { intros j Hj N. unfold occ2, occb. destruct (NBo j ltac:(lia) N) as [_ ->]. reflexivity. }
      split; [constructor|].
      * auto.
      * lia.
      * now rewrite zlen_upd.
      * now rewrite zlen_upd.
      * intros j Hj. destruct (Z.eq_dec j i) as [->|N]; [tauto|]. destruct (NBo j ltac:(lia) N) as [-> _]. auto.
      * intros j Hj1 Hj2 LJ. destruct (Z.eq_dec j i) as [->|N].
        { rewrite LJ in LVE. replace (i <? n) with true in LVE by lia. discriminate. }
        destruct (NBo j ltac:(lia) N) as [_ ->]. auto.
      * intros j Hj OJ. rewrite !zn_upd by lia.
        destruct (Z.eqb_spec j i) as [->|N]; [eauto|]. rewrite OC in OJ by auto. auto.
      * rewrite <- Rperm. 
        pose proof (cells_upd (occ2 n newn fl' nfl) (occ2 n newn fl' nfl') ks vs (upd ks i (Some k)) (upd vs i (Some v)) M i) as CU.
        specialize (CU ltac:(lia)).
        specialize (CU ltac:(intros j Hj N; rewrite OC by auto; rewrite !zn_upd_other by lia; auto)).
        unfold cell in CU. rewrite OI, OI' in CU.
        rewrite (ent_some (upd ks i (Some k)) _ i k v) in CU by (rewrite zn_upd_same; auto; lia).
        symmetry. exact CU.
      * intros j kk Hj OJ. rewrite zn_upd by lia. destruct (Z.eqb_spec j i) as [->|N].
        -- intros EE. injection EE as <-. eapply reach_mono; [auto|exact MONO|exact Ri].
        -- intros EE. assert (occb nfl j = true).
           { revert OJ. unfold occb. destruct (NBo j ltac:(lia) N) as [_ ->]. auto. }
           eapply reach_mono; [auto|exact MONO|auto].
      * auto.
  - auto.
  - assert (cnt (liveb fl) n <= n).
    { rewrite <- (cnt_all (fun _ => true) n) at 2 by (auto; lia). apply cnt_le. auto. }
    lia.
Qed.

Lemma rehash_spec E n newn M fl nfl ks vs :
  pow2 newn -> 0 <= n <= M -> newn <= M -> zlen E < newn ->
  ri E n newn M fl nfl ks vs [] ->
  wp (loop (S (Z.to_nat n)) (rehash_body hash n newn) (fl, nfl, ks, vs, 0))
     (fun r => let '(nfl', ks', vs') := r in
        exists fl', ri E n newn M fl' nfl' ks' vs' [] /\
        forall i, 0 <= i < n -> liveb fl' i = false).
Proof.
  intros P Hn Hm HE R0.
  apply wp_loop with
    (I := fun s => let '(fl', nfl', ks', vs', j) := s in 0 <= j <= n /\
            ri E n newn M fl' nfl' ks' vs' [] /\
            forall i, 0 <= i < j -> liveb fl' i = false)
    (mu := fun s => let '(fl', nfl', ks', vs', j) := s in Z.to_nat (n - j)).
  - clear R0 fl nfl ks vs. intros [[[[fl nfl] ks] vs] j] (Hj & R & Low). unfold rehash_body.
    destruct (Z.eqb_spec j n) as [->|N]; cbn [negb].
    + apply wp_ok. exists fl. auto.
    + pose proof R as [Rfl Rnfl Rks Rvs Rdel Rdis Rfull Rperm Rreach].
      destruct (iseither_eq fl j) as (x & Ex & Lx); [lia|apply Rfl; lia|]. rewrite Ex. cbn [bind].
      rewrite Lx. fold (liveb fl j). destruct (liveb fl j) eqn:LJ.
      * assert (O2 : occ2 n newn fl nfl j = true).
        { unfold occ2. replace (j <? n) with true by lia. now rewrite LJ. }
        destruct (Rfull j ltac:(lia) O2) as (k & v & Ek & Ev).
        rewrite (rd_ok ks j k) by (auto; lia). cbn [bind]. rewrite (rd_ok vs j v) by (auto; lia). cbn [bind].
        apply wp_bind. eapply wp_conseq; [apply set_del_spec; [lia|apply Rfl; lia]|]. cbv beta.
        intros fl2 (FL & FB).
        assert (LB : forall i, 0 <= i -> liveb fl2 i = if i =? j then false else liveb fl i).
        { intros i Hi. unfold liveb. destruct (FB i Hi) as [-> ->]. destruct (i =? j); auto. }
        assert (OJ : occ2 n newn fl2 nfl j = false).
        { unfold occ2. rewrite LB by lia. rewrite Z.eqb_refl, andb_false_r. simpl.
          destruct (Z.ltb_spec j newn); auto. unfold occb. rewrite Rdis by (auto; lia). reflexivity. }
        assert (OC : forall i, 0 <= i < M -> i <> j -> occ2 n newn fl2 nfl i = occ2 n newn fl nfl i).
        { intros i Hi Ni. unfold occ2. rewrite LB by lia. destruct (Z.eqb_spec i j); [lia|auto]. }
        apply wp_bind. eapply wp_conseq.
        -- apply kick_spec with (E := E) (M := M); auto. constructor.
           ++ now apply (covers_len fl).
           ++ auto.
           ++ auto.
           ++ auto.
           ++ auto.
           ++ intros i Hi1 Hi2 LI. rewrite LB in LI by lia. destruct (i =? j); [discriminate|auto].
           ++ intros i Hi OI. destruct (Z.eq_dec i j) as [->|Ni]; [congruence|]. rewrite OC in OI by auto. auto.
           ++ rewrite <- Rperm. simpl app at 2.
              pose proof (cells_upd (occ2 n newn fl nfl) (occ2 n newn fl2 nfl) ks vs ks vs M j) as CU.
              specialize (CU ltac:(lia) ltac:(intros; rewrite OC by auto; auto)).
              unfold cell in CU. rewrite O2, OJ in CU. rewrite (ent_some ks vs j k v) in CU by auto.
              symmetry. exact CU.
           ++ auto.
        -- intros [[[fl3 nfl3] ks3] vs3] (R3 & Sub). apply wp_ok. split; [|lia]. split; [lia|]. split; auto.
           intros i Hi. destruct (liveb fl3 i) eqn:L3; auto. apply Sub in L3; [|lia].
           rewrite LB in L3 by lia. destruct (Z.eqb_spec i j); [discriminate|].
           rewrite Low in L3 by lia. discriminate.
      * apply wp_ok. split; [|lia]. split; [lia|]. split; auto.
        intros i Hi. destruct (Z.eq_dec i j) as [->|]; auto. apply Low. lia.
  - split; [lia|]. split; auto. intros; lia.
  - lia.
Qed.

Definition keys_uniq (E : list (K * V)) : Prop :=
  ForallOrdPairs (fun a b => eqb (fst a) (fst b) = false) E.

Lemma FOP_perm {X} (R : X -> X -> Prop) (l l' : list X) : (forall x y, R x y -> R y x) ->
  Permutation l l' -> ForallOrdPairs R l -> ForallOrdPairs R l'.
Proof.
  intros S. induction 1 as [|x l l' P IH|x y l|]; intros F; auto.
  - inversion F; subst. constructor; auto. eapply Permutation_Forall; eauto.
  - inversion F as [|? ? F1 F2]; subst. inversion F2 as [|? ? F3 F4]; subst.
    inversion F1; subst. constructor; [constructor; auto|]. constructor; auto.
Qed.

Lemma keys_uniq_perm E E' : Permutation E E' -> keys_uniq E -> keys_uniq E'.
Proof. intros P. apply FOP_perm; auto. intros x y H. now rewrite eqb_sym. Qed.

Lemma FOP_app {X} (R : X -> X -> Prop) (a b : list X) :
  ForallOrdPairs R a -> ForallOrdPairs R b -> (forall x y, In x a -> In y b -> R x y) ->
  ForallOrdPairs R (a ++ b).
Proof.
  induction 1 as [|x a F1 F2 IH]; intros Fb H; simpl; auto. constructor.
  - apply Forall_app. split; auto. apply Forall_forall. intros y Hy. apply H; [now left|auto].
  - apply IH; auto. intros; apply H; auto. now right.
Qed.
Lemma FOP_app_inv {X} (R : X -> X -> Prop) (a b : list X) :
  ForallOrdPairs R (a ++ b) -> forall x y, In x a -> In y b -> R x y.
Proof.
  induction a as [|z a IH]; simpl; intros F x y Hx Hy; [contradiction|].
  inversion F as [|? ? F1 F2]; subst. destruct Hx as [->|Hx]; auto.
  apply Forall_app in F1. destruct F1 as [_ F1]. rewrite Forall_forall in F1. auto.
Qed.

(** Key uniqueness bucket by bucket is key uniqueness of the entry list. *)
Lemma cells_uniq P ks vs n : 
  (forall i j k k', 0 <= i < n -> 0 <= j < n -> P i = true -> P j = true ->
     zn None ks i = Some k -> zn None ks j = Some k' -> eqb k k' = true -> i = j) ->
  keys_uniq (cells (V := V) P ks vs n).
Proof.
  intros H. unfold cells. pose proof (zseq_nodup n) as ND.
  assert (R : forall i, In i (zseq n) -> 0 <= i < n) by (intros; now apply in_zseq).
  induction (zseq n) as [|a l IH]; simpl; [constructor|].
  inversion ND as [|? ? Na NDl]; subst. apply FOP_app.
  - unfold cell, ent. destruct (P a); [|constructor].
    destruct (zn None ks a), (zn None vs a); repeat constructor.
  - apply IH; auto. intros; apply R; now right.
  - intros [k v] [k' v'] H1 H2. simpl. destruct (eqb k k') eqn:E; auto. exfalso.
    apply in_flat_map in H2. destruct H2 as (j & Hj & H2).
    unfold cell, ent in H1, H2. destruct (P a) eqn:Pa; [|contradiction]. destruct (P j) eqn:Pj; [|contradiction].
    destruct (zn None ks a) eqn:Ka; [|contradiction]. destruct (zn None vs a); [|contradiction].
    destruct (zn None ks j) eqn:Kj; [|contradiction]. destruct (zn None vs j); [|contradiction].
    destruct H1 as [H1|[]]. destruct H2 as [H2|[]]. injection H1 as -> ->. injection H2 as -> ->.
    assert (a = j) by (eapply H; eauto; apply R; [now left|now right]). subst. auto.
Qed.

Lemma uniq_cells P ks vs n : full P ks vs n -> keys_uniq (cells (V := V) P ks vs n) ->
  (forall i j k k', 0 <= i < n -> 0 <= j < n -> P i = true -> P j = true ->
     zn None ks i = Some k -> zn None ks j = Some k' -> eqb k k' = true -> i = j).
Proof.
  intros F U.
  assert (LT : forall i j k k', 0 <= i < n -> 0 <= j < n -> i <> j -> P i = true -> P j = true ->
     zn None ks i = Some k -> zn None ks j = Some k' -> eqb k k' = false).
  { intros i j k k' Hi Hj N Pi Pj Ki Kj.
    destruct (zseq_split n i Hi) as (a & b & E & _ & _).
    unfold cells in U. rewrite E in U.
    assert (PM : Permutation (flat_map (cell P ks vs) (a ++ i :: b)) (cell P ks vs i ++ flat_map (cell P ks vs) (a ++ b))).
    { rewrite !flat_map_app. simpl. rewrite (Permutation_app_comm _ (cell P ks vs i ++ _)), <- app_assoc.
      apply Permutation_app_head, Permutation_app_comm. }
    eapply keys_uniq_perm in U; [|exact PM].
    destruct (F i Hi Pi) as (k1 & v1 & E1 & E1'). rewrite Ki in E1. injection E1 as <-.
    destruct (F j Hj Pj) as (k2 & v2 & E2 & E2'). rewrite Kj in E2. injection E2 as <-.
    apply (FOP_app_inv _ _ _ U (k, v1) (k', v2)).
    - unfold cell. rewrite Pi. rewrite (ent_some _ _ _ k v1); auto. now left.
    - apply in_flat_map. exists j. split.
      + assert (I : In j (a ++ i :: b)) by (rewrite <- E; now apply in_zseq).
        apply in_app_or in I. apply in_or_app. destruct I as [I|[I|I]]; auto. lia.
      + unfold cell. rewrite Pj. rewrite (ent_some _ _ _ k' v2); auto. now left. }
  intros i j k k' Hi Hj Pi Pj Ki Kj EE. destruct (Z.eq_dec i j); auto.
  rewrite (LT i j k k') in EE; auto. discriminate.
Qed.

Lemma wf_keys_uniq t : wf t -> keys_uniq (ents t).
Proof.
  intros [->|W]; [constructor|]. apply cells_uniq. apply W.
Qed.

(** Resizing keeps the entries; when there is room it gives the requested bucket count. *)
Lemma resize_spec t n : wf t -> in64 n ->
  wp (kh_resize hash t n) (fun t' => wf t' /\ Permutation (ents t') (ents t) /\
     (t' = t \/ (wfn t' /\ nb t' = round_up n /\ nocc t' = sz t' /\ sz t' < ub t')) /\
     (sz t < upper (round_up n) -> wfn t' /\ nocc t' < ub t')).
Proof.
  intros Wf Hn. unfold kh_resize. pose proof (round_up_pow2 n Hn) as P. set (newn := round_up n) in *.
  assert (EN : newn = round_up n) by reflexivity. clearbody newn.
  pose proof (pow2_bounds _ P) as PB. pose proof (upper_bounds _ P) as [UB _].
  destruct (Z.leb_spec (upper newn) (sz t)) as [L|L].
  { apply wp_ok. split; auto. split; auto. split; auto. intros; lia. }
  assert (Hnb : 0 <= nb t). { destruct Wf as [->|W]; [simpl; lia|]. pose proof (pow2_bounds _ (w_pow t W)). lia. }
  set (M := Z.max (nb t) newn). assert (EM : M = Z.max (nb t) newn) by reflexivity. clearbody M.
  set (nfl := repeat 2863311530 (Z.to_nat (fsize newn))).
  assert (NF : forall i, 0 <= i < newn -> dbit nfl i = false /\ ebit nfl i = true).
  { intros i Hi. apply fresh_bits; [lia|]. pose proof (fsize_enough newn i P Hi). pose proof (fsize_pos newn P). lia. }
  assert (NFL : zlen nfl = fsize newn).
  { unfold nfl, zlen. rewrite repeat_length. pose proof (fsize_pos newn P). lia. }
  clearbody nfl.
  assert (KL : zlen (keys t) = nb t) by (destruct Wf as [->|W]; [reflexivity|apply W]).
  assert (VL : zlen (vals t) = nb t) by (destruct Wf as [->|W]; [reflexivity|apply W]).
  assert (GR : forall (X : Type) (p : list (option X)), zlen p = nb t ->
     wp (if nb t <? newn then grow p newn else Ok p) (fun q => zlen q = M /\ forall i, 0 <= i < nb t -> zn None q i = zn None p i)).
  { intros X p Hp. destruct (Z.ltb_spec (nb t) newn).
    - eapply wp_conseq; [apply grow_ok; lia|]. cbv beta. intros q (Q1 & Q2). split; [lia|]. intros; apply Q2; lia.
    - apply wp_ok. split; [lia|auto]. }
  apply wp_bind. eapply wp_conseq; [apply GR; auto|]. cbv beta. intros ks (KS1 & KS2).
  apply wp_bind. eapply wp_conseq; [apply GR; auto|]. cbv beta. intros vs (VS1 & VS2).
  assert (OC0 : forall i, 0 <= i < M -> occ2 (nb t) newn (flags t) nfl i = (i <? nb t) && liveb (flags t) i).
  { intros i Hi. unfold occ2. destruct (Z.ltb_spec i newn); [|now rewrite andb_false_l, orb_false_r].
    unfold occb. destruct (NF i ltac:(lia)) as [_ ->]. now rewrite andb_false_r, orb_false_r. }
  assert (R0 : ri (ents t) (nb t) newn M (flags t) nfl ks vs []).
  { constructor; auto.
    - destruct Wf as [->|W]; [intros i Hi; simpl in Hi; lia|]. apply covers_fsize; apply W.
    - intros i Hi. apply NF; auto.
    - intros i Hi1 Hi2 _. apply NF; lia.
    - intros i Hi OI. rewrite OC0 in OI by auto. apply andb_prop in OI. destruct OI as [O1 O2]. apply Z.ltb_lt in O1.
      rewrite KS2, VS2 by lia. destruct Wf as [->|W]; [simpl in O1; lia|]. apply W; auto; lia.
    - simpl app. unfold ents.
      replace (cells (occ2 (nb t) newn (flags t) nfl) ks vs M) with (cells (liveb (flags t)) (keys t) (vals t) (nb t)); auto.
      unfold cells. rewrite (flat_map_cut (cell (occ2 _ _ _ _) _ _) (nb t) M); [|lia|].
      + apply flat_map_ext_in. intros i Hi. apply in_zseq in Hi. unfold cell. rewrite OC0 by lia.
        replace (i <? nb t) with true by lia. simpl. destruct (liveb (flags t) i); auto.
        unfold ent. rewrite KS2, VS2 by lia. reflexivity.
      + intros i Hi. unfold cell. rewrite OC0 by lia. replace (i <? nb t) with false by lia. reflexivity.
    - intros i k Hi OI. unfold occb in OI. destruct (NF i Hi) as [_ EE]. rewrite EE in OI. discriminate. }
  pose proof (wf_sz t Wf) as SZ.
  apply wp_bind. eapply wp_conseq; [apply rehash_spec with (E := ents t) (M := M); auto; try lia|].
  intros [[nfl' ks'] vs'] (fl' & R & Done). 
  destruct R as [Rfl Rnfl Rks Rvs Rdel Rdis Rfull Rperm Rreach].
  assert (OC1 : forall i, 0 <= i < M -> occ2 (nb t) newn fl' nfl' i = (i <? newn) && occb nfl' i).
  { intros i Hi. unfold occ2. destruct (Z.ltb_spec i (nb t)); [|reflexivity]. rewrite Done by lia. reflexivity. }
  assert (LO : forall i, 0 <= i < newn -> liveb nfl' i = occb nfl' i).
  { intros i Hi. unfold liveb, occb. rewrite Rdel by lia. reflexivity. }
  assert (TR : forall (X : Type) (p : list (option X)), zlen p = M ->
     wp (if newn <? nb t then grow p newn else Ok p) (fun q => zlen q = newn /\ forall i, 0 <= i < newn -> zn None q i = zn None p i)).
  { intros X p Hp. destruct (Z.ltb_spec newn (nb t)).
    - apply grow_ok. lia.
    - apply wp_ok. split; [lia|auto]. }
  apply wp_bind. eapply wp_conseq; [apply TR; auto|]. cbv beta. intros ks2 (K1 & K2).
  apply wp_bind. eapply wp_conseq; [apply TR; auto|]. cbv beta. intros vs2 (V1 & V2).
  apply wp_ok. set (t' := T _ _ _ _ _ _ _).
  assert (FU : full (liveb nfl') ks2 vs2 newn).
  { intros i Hi LI. rewrite K2, V2 by auto. apply Rfull; [lia|]. rewrite OC1 by lia. replace (i <? newn) with true by lia.
    simpl. now rewrite <- LO. }
  assert (ET : ents t' = cells (liveb nfl') ks2 vs2 newn) by reflexivity.
  assert (PE : Permutation (ents t') (ents t)).
  { rewrite ET. rewrite <- Rperm. simpl app.
    replace (cells (occ2 (nb t) newn fl' nfl') ks' vs' M) with (cells (liveb nfl') ks2 vs2 newn); auto.
    unfold cells. rewrite (flat_map_cut (cell (occ2 _ _ _ _) _ _) newn M); [|lia|].
    - apply flat_map_ext_in. intros i Hi. apply in_zseq in Hi. unfold cell. rewrite OC1, LO by lia.
      replace (i <? newn) with true by lia. simpl. destruct (occb nfl' i); auto.
      unfold ent. now rewrite K2, V2 by lia.
    - intros i Hi. unfold cell. rewrite OC1 by lia. replace (i <? newn) with false by lia. reflexivity. }
  assert (SZ' : sz t = cnt (liveb nfl') newn).
  { rewrite <- (cells_len _ _ _ _ FU). rewrite SZ.
    rewrite <- ET. unfold zlen. rewrite (Permutation_length PE). reflexivity. }
  assert (W' : wfn t').
  { constructor; unfold t'; cbn [flags keys vals nb sz nocc ub]; auto; try lia.
    - intros i k Hi LI Ek. rewrite K2 in Ek by auto. apply Rreach; auto. now rewrite <- LO.
    - apply (uniq_cells (liveb nfl') ks2 vs2 newn); [exact FU|].
      rewrite <- ET. apply (keys_uniq_perm (ents t)); [symmetry; exact PE|]. now apply wf_keys_uniq.
    - rewrite SZ'. apply cnt_ext. intros; now apply LO. }
  split; [now right|]. split; auto. split.
  - right. split; [exact W'|]. unfold t'; cbn [nb nocc sz ub]. auto.
  - intros _. split; auto. 
Qed.
End Proofs.
