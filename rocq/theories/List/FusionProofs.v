From Coq Require Import List ZArith Lia Bool.
From Verif.Common Require Import Result Int64 Arr Tac.
From Verif.List Require Import SliceSpec SliceModel SliceProofs ListSpec ListModel ListProofs
  ListSliceProofs FusionModel.
Import ListNotations.
Local Open Scope Z_scope.
Local Arguments Z.add : simpl never.
Local Arguments Z.sub : simpl never.
Local Arguments Z.mul : simpl never.
Local Arguments Z.pow : simpl never.

Section P.
Context {A : Type}.
Notation lst := (lst A).
Notation repr := (@repr A).

(** What an operand denotes, given the sequences held by the lists. *)
Definition denote (env : nat -> list A) (o : operand A) : list A :=
  match o with
  | ODefault _ id => env id
  | OSlice _ id s => slice_get (env id) s
  | OLiteral _ xs => xs
  end.

Definition ids (o : operand A) : list nat :=
  match o with ODefault _ id => [id] | OSlice _ id _ => [id] | OLiteral _ _ => [] end.

(** The slices the helpers get right. *)
Definition opd_ok (env : nat -> list A) (o : operand A) : Prop :=
  match o with
  | ODefault _ id => zlen (env id) <= 2^59
  | OSlice _ id s =>
      zlen (env id) <= 2^59 /\ slice64 s /\ py_step s <> 0 /\
      py_step s <= 2^63 - 1 - zlen (env id) /\
      (sl_step s = None -> py_start (zlen (env id)) s <= py_stop (zlen (env id)) s)
  | OLiteral _ _ => True
  end.

(** A heap in which the named lists hold [env]. *)
Definition holds (h : heap A) (env : nat -> list A) (is : list nat) : Prop :=
  forall id, In id is -> exists l, nth_error h id = Some l /\ repr l (env id).

Lemma slice_get_len (xs : list A) s : py_step s <> 0 ->
  zlen (slice_get xs s) = py_count (zlen xs) s.
Proof.
  intros Hk. unfold slice_get. szz. pose proof (zlen_nonneg xs) as NN.
  pose proof (fun x => py_positions_in_bounds (zlen xs) s x NN Hk) as B.
  unfold pick. assert (L : zlen (py_positions (zlen xs) s) = py_count (zlen xs) s).
  { unfold zlen, py_positions. rewrite progression_length. apply Z2Nat.id. apply count_nonneg. }
  rewrite <- L. clear L. induction (py_positions (zlen xs) s) as [|p ps IH]; [reflexivity|].
  simpl flat_map. destruct (ze_some xs p (B p (or_introl eq_refl))) as [x Ex]. unfold ze in Ex. rewrite Ex.
  rewrite zlen_app, !zlen_cons. rewrite IH by (intros; apply B; right; auto).
  change (zlen (@nil A)) with 0. lia.
Qed.

Lemma fetch_ok (h : heap A) env is id : holds h env is -> In id is ->
  exists l, fetch h id = Ok l /\ repr l (env id).
Proof. intros H I. destruct (H id I) as (l & E & R). exists l. unfold fetch. now rewrite E. Qed.

Lemma opd_len_spec h env o : holds h env (ids o) -> opd_ok env o ->
  opd_len h o = Ok (zlen (denote env o)).
Proof.
  intros H OK. destruct o as [e id|e id s|e xs]; simpl in *.
  - destruct (fetch_ok h env _ id H (or_introl eq_refl)) as (l & -> & R). simpl. now rewrite (repr_len _ _ R).
  - destruct (fetch_ok h env _ id H (or_introl eq_refl)) as (l & -> & R). cbn [bind].
    destruct OK as (B & S64 & K & F & G). rewrite (repr_len _ _ R). rewrite slice_get_len by auto.
    pose proof (zlen_nonneg (env id)) as NN.
    destruct (full_slice s) eqn:FS.
    + apply full_slice_step in FS. destruct FS as [F1 F2]. destruct (F2 _ NN) as [F3 F4].
      unfold py_count. rewrite F1, F3, F4. f_equal. symmetry. apply count_unique_pos; lia.
    + rewrite adj by (auto; lia). reflexivity.
  - reflexivity.
Qed.

Lemma memcpy_append_spec (ans v : lst) xs ys start n :
  repr ans xs -> repr v ys -> 0 <= n -> 0 <= start -> start + n <= zlen ys ->
  zlen xs + n <= zlen (cells ans) ->
  wp (memcpy_append ans v start n) (fun a => repr a (xs ++ take n (drop start ys)) /\
     zlen (cells a) = zlen (cells ans)).
Proof.
  intros (R1 & R2 & R3) (V1 & V2 & V3) Hn Hs Hb HC. pose proof (zlen_nonneg xs).
  unfold memcpy_append. rewrite R1. apply wp_bind.
  eapply wp_conseq; [apply memmove_spec; lia|]. intros c (Lc & Ec). apply wp_ok. split; [|simpl; lia].
  split; [|split]; simpl.
  - zsz. lia.
  - zsz. lia.
  - intros i. zsz. intros Hi. rewrite Ec, ze_app by lia. destruct (Z.ltb_spec i (zlen xs)).
    + replace ((zlen xs <=? i) && (i <? zlen xs + n)) with false by lia. apply R3. lia.
    + replace ((zlen xs <=? i) && (i <? zlen xs + n)) with true by lia.
      rewrite ze_take, ze_drop by lia. apply V3. lia.
Qed.

Lemma set_end (ans : lst) xs x : repr ans xs -> zlen xs < zlen (cells ans) ->
  wp (bind (set_ ans (len ans) x) (fun a1 => Ok (L (cells a1) (len a1 + 1))))
     (fun a => repr a (xs ++ [x]) /\ zlen (cells a) = zlen (cells ans)).
Proof.
  intros (R1 & R2 & R3) C. pose proof (zlen_nonneg xs). apply wp_bind. apply set_wp; [lia|].
  apply wp_ok. split; [|simpl; now rewrite zlen_upd]. split; [|split]; simpl.
  - zsz. lia.
  - zsz. lia.
  - intros i. zsz. intros Hi. rewrite zn_upd by lia. rewrite ze_app, ze_cons by lia.
    rewrite R1. zcmp; try lia; auto. apply R3; lia.
Qed.

Lemma literal_append_spec ys : forall (ans : lst) xs, repr ans xs -> zlen xs + zlen ys <= zlen (cells ans) ->
  wp (literal_append ans ys) (fun a => repr a (xs ++ ys) /\ zlen (cells a) = zlen (cells ans)).
Proof.
  induction ys as [|y ys IH]; intros ans xs R C; simpl.
  - rewrite app_nil_r. auto.
  - rewrite zlen_cons in C. pose proof (zlen_nonneg ys).
    pose proof (set_end ans xs y R ltac:(lia)) as H1. apply wp_bind. 
    destruct (set_ ans (len ans) y) as [a1| | |]; simpl in H1; try contradiction.
    apply wp_ok. destruct H1 as [H1 H2]. simpl in H2.
    eapply wp_conseq; [apply (IH _ _ H1); zsz; simpl; lia|]. cbv beta. intros a [Ra Ca].
    rewrite <- app_assoc in Ra. split; [exact Ra|]. simpl in Ca. lia.
Qed.

Lemma slice_loop_append (v ans : lst) ys xs s : repr v ys -> repr ans xs ->
  zlen ys <= 2^59 -> slice64 s -> py_step s <> 0 -> py_step s <= 2^63 - 1 - zlen ys ->
  sl_step s <> None ->
  zlen xs + py_count (zlen ys) s <= zlen (cells ans) ->
  wp (loop (S (Z.to_nat (zlen ys))) (slice_append_body v (py_stop (zlen ys) s) (py_step s))
        (ans, py_start (zlen ys) s))
     (fun a => repr a (xs ++ slice_get ys s) /\ zlen (cells a) = zlen (cells ans)).
Proof.
  intros RV RA HB H64 Hk Hfit HNone HC. pose proof (zlen_nonneg ys) as NN. unfold slice_get. szz.
  set (i := py_start (zlen ys) s). set (j := py_stop (zlen ys) s). set (kk := py_step s) in *.
  unfold py_positions. fold i kk. set (n := py_count (zlen ys) s) in *.
  assert (Hn0 : 0 <= n) by apply count_nonneg.
  assert (INB : forall m, 0 <= m < n -> 0 <= i + m * kk < zlen ys).
  { intros m Hm. apply (py_positions_in_bounds (zlen ys) s); auto.
    unfold py_positions. apply progression_in. exists m. split; [exact Hm|reflexivity]. }
  assert (CND : forall m, 0 <= m -> (if 0 <? kk then i + m * kk <? j else j <? i + m * kk) = (m <? n)).
  { intros m Hm. unfold n, py_count. fold i j kk. destruct (Z.ltb_spec 0 kk).
    - destruct (Z.ltb_spec (i + m * kk) j) as [G|G]; symmetry.
      + apply Z.ltb_lt. now apply count_pos.
      + apply Z.ltb_ge. apply Z.nlt_ge. rewrite count_pos by lia. lia.
    - destruct (Z.ltb_spec j (i + m * kk)) as [G|G]; symmetry.
      + apply Z.ltb_lt. apply count_neg; lia.
      + apply Z.ltb_ge. apply Z.nlt_ge. rewrite count_neg by lia. lia. }
  assert (K64 : in64 kk).
  { unfold kk, py_step. destruct H64 as (_ & _ & H64). destruct (sl_step s); [auto|congruence]. }
  assert (NLE : n <= zlen ys).
  { destruct (Z.eq_dec n 0); [lia|]. pose proof (INB 0 ltac:(lia)). pose proof (INB (n-1) ltac:(lia)).
    destruct (Z_lt_le_dec 0 kk); nia. }
  assert (LP : forall q, 0 <= q <= n -> zlen (pick ys (progression i kk q)) = q).
  { intros q Hq. rewrite <- (Z2Nat.id q) in * by lia. revert Hq. generalize (Z.to_nat q) as w. clear - INB Hn0.
    induction w as [|w IH]; intros Hq; [reflexivity|].
    replace (Z.of_nat (S w)) with (Z.of_nat w + 1) by lia. rewrite progression_snoc by lia.
    rewrite pick_app. destruct (ze_some ys (i + Z.of_nat w * kk) ltac:(apply INB; lia)) as [x Ex].
    rewrite (pick_one _ _ x Ex). zsz. rewrite IH by lia. lia. }
  apply (wp_loop (fun '(o, c) => exists m, 0 <= m <= n /\ (m < n -> c = i + m * kk) /\
        (m = n -> (if 0 <? kk then c <? j else j <? c) = false) /\
        repr o (xs ++ pick ys (progression i kk m)) /\ zlen (cells o) = zlen (cells ans))
      (fun '(o, c) => Z.to_nat (n - (len o - zlen xs)))).
  - intros (o', c) (m & Hm & Hc & He & Ro & Co). unfold slice_append_body.
    destruct (Z.eq_dec m n) as [->|Hne].
    + rewrite He by reflexivity. apply wp_ok. auto.
    + rewrite Hc by lia. rewrite CND by lia. replace (m <? n) with true by lia.
      destruct (getitem_ok v ys (i + m * kk) RV ltac:(apply INB; lia)) as (x & Ex & ->).
      apply wp_bind, wp_ok.
      pose proof (set_end o' _ x Ro ltac:(zsz; rewrite LP by lia; lia)) as SE.
      apply wp_bind. destruct (set_ o' (len o') x) as [a1| | |]; simpl in SE; try contradiction.
      apply wp_ok. destruct SE as [R1 C1]. simpl in C1. apply wp_ok.
      assert (W : w64 (i + m * kk + kk) = i + (m + 1) * kk).
      { pose proof (INB m ltac:(lia)). unfold in64, min64, max64 in K64.
        rewrite w64_small by lia. lia. }
      split.
      * exists (m + 1). split; [lia|]. split; [intros; exact W|]. split; [|split].
        -- intros Em. rewrite W. rewrite CND by lia. lia.
        -- rewrite progression_snoc by lia. rewrite pick_app, (pick_one _ _ x Ex).
           now rewrite app_assoc.
        -- simpl. lia.
      * rewrite (repr_len _ _ R1), (repr_len _ _ Ro).
        zsz. rewrite LP by lia. lia.
  - exists 0. split; [lia|]. split; [intros; lia|]. split; [|split; auto].
    + intros E. replace i with (i + 0 * kk) by lia. rewrite CND by lia. lia.
    + change (pick ys (progression i kk 0)) with (@nil A). now rewrite app_nil_r.
  - rewrite (repr_len _ _ RA). lia.
Qed.

Lemma opd_append_spec h env o ans xs : holds h env (ids o) -> opd_ok env o -> repr ans xs ->
  zlen xs + zlen (denote env o) <= zlen (cells ans) ->
  wp (opd_append h ans o) (fun a => repr a (xs ++ denote env o) /\ zlen (cells a) = zlen (cells ans)).
Proof.
  intros H OK RA HC. destruct o as [e id|e id s|e ys]; simpl in *.
  - destruct (fetch_ok h env _ id H (or_introl eq_refl)) as (l & -> & R). cbn [bind].
    rewrite (repr_len _ _ R). pose proof (zlen_nonneg (env id)).
    eapply wp_conseq; [apply (memcpy_append_spec ans l xs (env id)); auto; lia|].
    cbv beta. rewrite drop_zero, take_all by lia. auto.
  - destruct (fetch_ok h env _ id H (or_introl eq_refl)) as (l & -> & R). cbn [bind].
    destruct OK as (B & S64 & K & F & G). rewrite slice_get_len in HC by auto.
    pose proof (zlen_nonneg (env id)) as NN.
    unfold slice_append. rewrite (repr_len _ _ R).
    destruct (full_slice s) eqn:FS.
    + apply full_slice_step in FS. destruct FS as [F1 F2]. destruct (F2 _ NN) as [F3 F4].
      assert (PC : py_count (zlen (env id)) s = zlen (env id)).
      { unfold py_count. rewrite F1, F3, F4. apply count_unique_pos; lia. }
      eapply wp_conseq; [apply (memcpy_append_spec ans l xs (env id)); auto; lia|].
      cbv beta. rewrite drop_zero, take_all by lia. unfold slice_get. szz.
      rewrite slice_get_seg by auto. rewrite F3, F4, Z.max_r by lia. rewrite pick_zrange by lia.
      rewrite drop_zero, take_all by lia. auto.
    + destruct (sl_step s) as [k|] eqn:SK.
      * rewrite adj by (auto; lia). cbn [bind]. apply slice_loop_append; auto. congruence.
      * rewrite adj by (auto; lia). cbn [bind]. specialize (G eq_refl).
        assert (K1 : py_step s = 1) by (unfold py_step; now rewrite SK).
        pose proof (py_bounds_pos (zlen (env id)) s NN ltac:(lia)) as PB.
        assert (PC : py_count (zlen (env id)) s = py_stop (zlen (env id)) s - py_start (zlen (env id)) s).
        { unfold py_count. rewrite K1. apply count_unique_pos; lia. }
        eapply wp_conseq; [apply (memcpy_append_spec ans l xs (env id)); auto; lia|].
        cbv beta. unfold slice_get. szz. rewrite slice_get_seg by auto. rewrite Z.max_r by lia.
        rewrite pick_zrange by lia. auto.
  - now apply literal_append_spec.
Qed.

(** Effects that leave the named lists alone. *)
Definition quiet (is : list nat) (o : operand A) : Prop :=
  forall h, exists h', opd_setup o h = Ok h' /\ forall id, In id is -> nth_error h' id = nth_error h id.

Lemma holds_quiet is env h h' : holds h env is ->
  (forall id, In id is -> nth_error h' id = nth_error h id) -> holds h' env is.
Proof. intros H E id I. rewrite E by auto. auto. Qed.
Lemma holds_incl is is' env h : holds h env is -> incl is' is -> holds h env is'.
Proof. intros H I id J. apply H. auto. Qed.

Lemma setup_quiet is os : forall h, Forall (quiet is) os ->
  exists h', setup os h = Ok h' /\ forall id, In id is -> nth_error h' id = nth_error h id.
Proof.
  induction os as [|o os IH]; intros h F; simpl; [eauto|].
  inversion F; subst. destruct (H1 h) as (h1 & E & N). rewrite E. simpl.
  destruct (IH h1 H2) as (h2 & E2 & N2). exists h2. split; auto. intros. rewrite N2, N; auto.
Qed.

Lemma lengths_spec h env os : forall n, holds h env (flat_map ids os) -> Forall (opd_ok env) os ->
  lengths h os n = Ok (n + zlen (flat_map (denote env) os)).
Proof.
  induction os as [|o os IH]; intros n H F; simpl in *.
  - f_equal. change (zlen (@nil A)) with 0. lia.
  - inversion F; subst. rewrite (opd_len_spec h env) by (auto; eapply holds_incl; eauto; apply incl_appl, incl_refl).
    cbn [bind]. rewrite IH by (auto; eapply holds_incl; eauto; apply incl_appr, incl_refl).
    rewrite zlen_app. f_equal. lia.
Qed.

Lemma appends_spec h env os : forall ans xs, holds h env (flat_map ids os) -> Forall (opd_ok env) os ->
  repr ans xs -> zlen xs + zlen (flat_map (denote env) os) <= zlen (cells ans) ->
  wp (appends h os ans) (fun a => repr a (xs ++ flat_map (denote env) os)).
Proof.
  induction os as [|o os IH]; intros ans xs H F R C; simpl in *.
  - now rewrite app_nil_r.
  - inversion F; subst. rewrite zlen_app in C. pose proof (zlen_nonneg (flat_map (denote env) os)).
    apply wp_bind. eapply wp_conseq; [apply (opd_append_spec h env o ans xs); auto|].
    + eapply holds_incl; eauto; apply incl_appl, incl_refl.
    + lia.
    + cbv beta. intros a [Ra Ca].
      eapply wp_conseq; [apply (IH a (xs ++ denote env o)); auto|].
      * eapply holds_incl; eauto; apply incl_appr, incl_refl.
      * zsz. lia.
      * cbv beta. intros b Rb. now rewrite app_assoc.
Qed.

Lemma fused_spec e h env : let os := inspect e in
  holds h env (flat_map ids os) -> Forall (opd_ok env) os -> Forall (quiet (flat_map ids os)) os ->
  wp (fused e h) (fun '(h', r) => repr r (flat_map (denote env) os)).
Proof.
  intros os H F Q. unfold fused. fold os.
  destruct (setup_quiet _ os h Q) as (h' & E & N). rewrite E. cbn [bind].
  pose proof (holds_quiet _ _ _ _ H N) as H'.
  rewrite (lengths_spec h' env) by auto. cbn [bind].
  pose proof (zlen_nonneg (flat_map (denote env) os)).
  apply wp_bind. eapply wp_conseq; [apply new_cap_spec; lia|]. intros ans (C & L0).
  apply wp_bind. eapply wp_conseq; [apply (appends_spec h' env os ans []); auto|].
  - now apply empty_repr.
  - change (zlen (@nil A)) with 0. lia.
  - cbv beta. intros r Rr. apply wp_ok. exact Rr.
Qed.

Lemma eval_spec e : forall h env is, incl (flat_map ids (inspect e)) is ->
  holds h env is -> Forall (opd_ok env) (inspect e) -> Forall (quiet is) (inspect e) ->
  wp (eval e h) (fun '(h', v) => holds h' env is /\
     forall h2, holds h2 env is ->
     exists l, deref h2 v = Ok l /\ repr l (flat_map (denote env) (inspect e))).
Proof.
  induction e as [o|a IHa b IHb]; intros h env is I H F Q.
  - simpl in F, Q, I. inversion F; subst. inversion Q; subst. destruct (H4 h) as (h' & E & N).
    pose proof (holds_quiet _ _ _ _ H N) as H'.
    destruct o as [eff id|eff id s|eff xs]; cbn [eval denote inspect flat_map ids opd_setup opd_ok app] in *;
      rewrite E; cbn [bind].
    + split; [assumption|]. intros h2 Hh. rewrite app_nil_r. apply (fetch_ok h2 env is); auto.
      apply I. left; auto.
    + destruct (fetch_ok h' env is id H' (I id (or_introl eq_refl))) as (l & -> & R). cbn [bind].
      destruct H2 as (B & S64 & K & Fi & G).
      apply wp_bind. eapply wp_conseq; [apply (getslice_spec l (env id)); auto|].
      cbv beta. intros r Rr. apply wp_ok. split; [assumption|]. intros h2 _. exists r.
      rewrite app_nil_r. auto.
    + apply wp_bind. eapply wp_conseq; [apply list_new_spec|]. intros l R.
      apply wp_bind. eapply wp_conseq; [apply (extend_spec xs l []); auto|].
      cbv beta. intros r Rr. apply wp_ok. split; [assumption|]. intros h2 _. exists r.
      rewrite app_nil_r. auto.
  - simpl in *. apply Forall_app in F. destruct F as [Fa Fb]. apply Forall_app in Q. destruct Q as [Qa Qb].
    rewrite flat_map_app in I |- *. apply incl_app_inv in I. destruct I as [Ia Ib].
    apply wp_bind. eapply wp_conseq; [apply (IHa h env is); auto|]. intros [h1 va] (H1 & Va).
    apply wp_bind. eapply wp_conseq; [apply (IHb h1 env is); auto|]. intros [h2 vb] (H2 & Vb).
    destruct (Va h2 H2) as (x & -> & Rx). destruct (Vb h2 H2) as (y & -> & Ry). cbn [bind].
    apply wp_bind. eapply wp_conseq; [apply (add_spec x y); eauto|]. cbv beta. intros r Rr.
    apply wp_ok. split; [assumption|]. intros h3 _. exists r. split; auto.
Qed.

End P.
