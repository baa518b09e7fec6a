(** Proofs about pdqsort.codon. *)
From Coq Require Import List ZArith Lia Bool Permutation.
From Verif.Common Require Import Result Arr Ord Tac.
From Verif.Sort Require Import Model InsProofs HeapProofs.
Import ListNotations.
Local Open Scope Z_scope.

Section Pdq.
Context {A : Type} (lt : A -> A -> bool) (d : A).
Notation zn := (@zn A d).
Notation swp := (@swp A d).
Notation same_out := (@same_out A d).
Notation sorted_rng := (@sorted_rng A lt d).

(** Same elements inside [lo,hi), nothing else touched. *)
Definition locperm (a b : list A) (lo hi : Z) : Prop :=
  Permutation a b /\ same_out a b lo hi.

Lemma locperm_refl a lo hi : locperm a a lo hi.
Proof. split; [reflexivity|apply same_out_refl]. Qed.

Lemma locperm_trans a b c lo hi : locperm a b lo hi -> locperm b c lo hi -> locperm a c lo hi.
Proof.
  intros [P1 O1] [P2 O2]. split; [now rewrite P1|].
  apply (same_out_trans d) with (b := b); auto. now apply perm_zlen.
Qed.

Lemma locperm_weaken a b lo hi lo' hi' :
  lo' <= lo -> hi <= hi' -> locperm a b lo hi -> locperm a b lo' hi'.
Proof. intros H1 H2 [P O]. split; auto. eapply same_out_weaken; eauto. Qed.

Lemma locperm_zlen a b lo hi : locperm a b lo hi -> zlen b = zlen a.
Proof. intros [P _]. now apply perm_zlen. Qed.

Lemma locperm_swp a i j lo hi :
  0 <= i < zlen a -> 0 <= j < zlen a -> lo <= i < hi -> lo <= j < hi ->
  locperm a (swp a i j) lo hi.
Proof.
  intros H1 H2 H3 H4. split; [symmetry; now apply swp_perm|].
  intros k Hk Ho. rewrite zn_swp by lia.
  destruct (Z.eqb_spec k j); [lia|]. destruct (Z.eqb_spec k i); [lia|]. reflexivity.
Qed.

Lemma locperm_out a b lo hi k :
  locperm a b lo hi -> 0 <= k < zlen a -> k < lo \/ hi <= k -> zn b k = zn a k.
Proof. intros [_ O] H1 H2. apply O; auto. Qed.

Lemma locperm_forall (P : A -> Prop) a b lo hi lo' hi' :
  locperm a b lo hi -> 0 <= lo' <= hi' -> hi' <= zlen a ->
  (lo' <= lo /\ hi <= hi') \/ (hi' <= lo \/ hi <= lo') ->
  (forall i, lo' <= i < hi' -> P (zn a i)) -> forall i, lo' <= i < hi' -> P (zn b i).
Proof.
  intros L H1 H2 H3 H. destruct H3 as [H3|H3].
  - apply (perm_range_forall d P a b lo' hi'); auto.
    + apply L.
    + destruct L as [_ O]. eapply same_out_weaken; [| |exact O]; lia.
  - intros i Hi. rewrite (locperm_out a b lo hi) by (auto; lia). apply H; lia.
Qed.

(** ** Scans *)
Lemma scan_down_spec p arr i lo :
  0 <= lo < i -> i <= zlen arr -> p (zn arr lo) = false ->
  wp (scan_down p arr i) (fun r => lo <= r < i /\ p (zn arr r) = false /\
                                   forall k, r < k < i -> p (zn arr k) = true).
Proof.
  intros H1 H2 Hp. unfold scan_down.
  apply (wp_loop (fun j => lo < j <= i /\ forall k, j <= k < i -> p (zn arr k) = true)
                 (fun j => Z.to_nat j)).
  - intros j (Hj & Hk). wpr d. wps d; zb; wpr d.
    + split; [lia|]. split; [assumption|]. intros k Hk'. apply Hk; lia.
    + assert (j - 1 <> lo) by (intros Hx; rewrite Hx in *; congruence).
      split; [split|]; [lia| |lia].
      intros k Hk'. destruct (Z.eq_dec k (j-1)) as [->|]; [assumption|apply Hk; lia].
  - split; [lia|]. intros; lia.
  - lia.
Qed.

Lemma scan_up_spec p arr i hi :
  -1 <= i < hi -> hi < zlen arr -> p (zn arr hi) = false ->
  wp (scan_up p arr i) (fun r => i < r <= hi /\ p (zn arr r) = false /\
                                 forall k, i < k < r -> p (zn arr k) = true).
Proof.
  intros H1 H2 Hp. unfold scan_up.
  apply (wp_loop (fun j => i <= j < hi /\ forall k, i < k <= j -> p (zn arr k) = true)
                 (fun j => Z.to_nat (zlen arr - j))).
  - intros j (Hj & Hk). wpr d. wps d; zb; wpr d.
    + split; [lia|]. split; [assumption|]. intros k Hk'. apply Hk; lia.
    + assert (j + 1 <> hi) by (intros Hx; rewrite Hx in *; congruence).
      split; [split|]; [lia| |lia].
      intros k Hk'. destruct (Z.eq_dec k (j+1)) as [->|]; [assumption|apply Hk; lia].
  - split; [lia|]. intros; lia.
  - lia.
Qed.

Lemma scan_up_guarded_spec p arr first last :
  0 <= first <= last -> last < zlen arr ->
  wp (scan_up_guarded p arr first last)
     (fun r => first <= r <= last /\ (forall k, first < k < r -> p (zn arr k) = true) /\
               (r = last \/ (first < r /\ p (zn arr r) = false))).
Proof.
  intros H1 H2. unfold scan_up_guarded.
  apply (wp_loop (fun j => first <= j <= last /\ forall k, first < k <= j -> p (zn arr k) = true)
                 (fun j => Z.to_nat (last - j))).
  - intros j (Hj & Hk). wps d; zb.
    + wpr d. wps d; zb; wpr d.
      * split; [lia|]. split; [intros; apply Hk; lia|]. right. split; [lia|assumption].
      * split; [split|]; [lia| |lia].
        intros k Hk'. destruct (Z.eq_dec k (j+1)) as [->|]; [assumption|apply Hk; lia].
    + wpr d. split; [lia|]. split; [intros; apply Hk; lia|]. left; lia.
  - split; [lia|]. intros; lia.
  - lia.
Qed.

Lemma scan_down_guarded_spec p arr first last :
  0 <= first <= last -> last <= zlen arr ->
  wp (scan_down_guarded p arr first last)
     (fun r => first <= r <= last /\ (forall k, r < k < last -> p (zn arr k) = true) /\
               (r = first \/ (r < last /\ p (zn arr r) = false))).
Proof.
  intros H1 H2. unfold scan_down_guarded.
  apply (wp_loop (fun j => first <= j <= last /\ forall k, j <= k < last -> p (zn arr k) = true)
                 (fun j => Z.to_nat (j - first))).
  - intros j (Hj & Hk). wps d; zb.
    + wpr d. wps d; zb; wpr d.
      * split; [lia|]. split; [intros; apply Hk; lia|]. right. split; [lia|assumption].
      * split; [split|]; [lia| |lia].
        intros k Hk'. destruct (Z.eq_dec k (j-1)) as [->|]; [assumption|apply Hk; lia].
    + wpr d. split; [lia|]. split; [intros; apply Hk; lia|]. left; lia.
  - split; [lia|]. intros; lia.
  - lia.
Qed.

(** ** Partitions *)
Lemma partition_left_spec arr begin end_ :
  0 <= begin < end_ -> end_ <= zlen arr ->
  lt (zn arr begin) (zn arr begin) = false ->
  wp (partition_left lt arr begin end_)
     (fun '(r, pos) => locperm arr r begin end_ /\ begin <= pos < end_ /\
        zn r pos = zn arr begin /\
        (forall k, begin <= k < pos -> lt (zn r pos) (zn r k) = false) /\
        (forall k, pos < k < end_ -> lt (zn r pos) (zn r k) = true)).
Proof.
  intros Hb He Hirr. unfold partition_left. wpr d.
  set (pv := zn arr begin) in *.
  eapply wp_conseq; [apply (scan_down_spec _ arr end_ begin); auto; lia|].
  intros last (Hl1 & Hl2 & Hl3). apply wp_bind.
  apply (wp_conseq _ (fun first => begin <= first <= last + 1 /\
     (forall k, begin < k < first -> lt pv (zn arr k) = false) /\
     (first < last -> begin < first /\ lt pv (zn arr first) = true))).
  { wps d; zb.
    - eapply wp_conseq; [apply scan_up_guarded_spec; lia|].
      intros r (H1 & H2 & H3). split; [lia|]. split.
      + intros k Hk. apply H2 in Hk. now zb.
      + intros Hr. destruct H3 as [H3|[H3 H4]]; [lia|]. zb. auto.
    - eapply wp_conseq; [apply (scan_up_spec _ arr begin (last+1)); try lia|].
      + cbv beta. rewrite (Hl3 (last+1)) by lia. reflexivity.
      + intros r (H1 & H2 & H3). split; [lia|]. split.
        * intros k Hk. apply H3 in Hk. now zb.
        * intros Hr. zb. split; [lia|auto]. }
  intros first (Hf1 & Hf2 & Hf3). apply wp_bind.
  apply (wp_conseq _ (fun '(b, first, last) =>
     locperm arr b (begin+1) end_ /\ begin <= last < end_ /\
     (forall k, begin < k <= last -> lt pv (zn b k) = false) /\
     (forall k, last < k < end_ -> lt pv (zn b k) = true))).
  { apply (wp_loop (fun '(b, first, last) =>
       locperm arr b (begin+1) end_ /\ begin <= last < end_ /\ begin <= first <= last + 1 /\
       lt pv (zn b last) = false /\
       (forall k, begin < k < first -> lt pv (zn b k) = false) /\
       (forall k, last < k < end_ -> lt pv (zn b k) = true) /\
       (first < last -> begin < first /\ lt pv (zn b first) = true))
       (fun '(b, first, last) => Z.to_nat (last - first))).
    - clear - Hb He. intros [[b first] last] (HP & Hl & Hf & Hbl & H1 & H2 & H3).
      pose proof (locperm_zlen _ _ _ _ HP) as HL. unfold pleft_loop.
      wps d; zb.
      + destruct (H3 E) as [H3a H3b]. wpr d.
        set (b1 := swp b first last).
        assert (Hb1 : forall k, 0 <= k -> zn b1 k = if k =? last then zn b first
                      else if k =? first then zn b last else zn b k).
        { intros k Hk. apply zn_swp; lia. }
        assert (HL1 : zlen b1 = zlen b) by apply zlen_swp.
        eapply wp_conseq.
        { apply (scan_down_spec _ b1 last first); try lia.
          rewrite Hb1 by lia. rewrite Z.eqb_refl. destruct (Z.eqb_spec first last); [lia|].
          assumption. }
        intros last1 (Hl1 & Hl2 & Hl3). apply wp_bind.
        eapply wp_conseq.
        { apply (scan_up_spec _ b1 first last); try lia.
          cbv beta. rewrite Hb1 by lia. rewrite Z.eqb_refl. now rewrite H3b. }
        intros first1 (Hf1 & Hf2 & Hf3). wpr d. zb.
        assert (Hord : first1 <= last1 + 1).
        { destruct (Z_le_gt_dec first1 (last1+1)); auto. exfalso.
          specialize (Hf3 (last1+1)). specialize (Hl3 (last1+1)).
          rewrite Hl3 in Hf3 by lia. simpl in Hf3. assert (true = false) by (symmetry; apply Hf3; lia).
          discriminate. }
        split; [|lia]. split.
        { eapply locperm_trans; [exact HP|]. apply locperm_swp; lia. }
        split; [lia|]. split; [lia|]. split; [assumption|]. split.
        { intros k Hk. destruct (Z_lt_le_dec first k).
          - specialize (Hf3 k). destruct (lt pv (zn b1 k)); auto. simpl in Hf3.
            symmetry; apply Hf3; lia.
          - rewrite Hb1 by lia. destruct (Z.eqb_spec k last); [lia|].
            destruct (Z.eqb_spec k first); [assumption|apply H1; lia]. }
        split.
        { intros k Hk. destruct (Z_lt_le_dec k last); [apply Hl3; lia|].
          rewrite Hb1 by lia. destruct (Z.eqb_spec k last); [assumption|].
          destruct (Z.eqb_spec k first); [lia|apply H2; lia]. }
        intros _. split; [lia|assumption].
      + wpr d. split; [exact HP|]. split; [exact Hl|]. split; [|exact H2].
        intros k Hk. destruct (Z.eq_dec k last) as [->|]; [exact Hbl|apply H1; lia].
    - split; [apply locperm_refl|]. repeat (split; auto).
    - pose proof (zlen_nonneg arr). unfold zlen in *. lia. }
  clear - Hb He Hirr.
  intros [[b first] last] (HP & Hl & H1 & H2).
  pose proof (locperm_zlen _ _ _ _ HP) as HL.
  assert (Eb : zn b begin = pv) by (apply (locperm_out _ _ _ _ _ HP); lia).
  wpr d.
  assert (Es : upd (upd b begin (zn b last)) last pv = swp b begin last)
    by (rewrite <- Eb; reflexivity).
  rewrite Es.
  assert (Hs : forall k, 0 <= k -> zn (swp b begin last) k =
            if k =? last then zn b begin else if k =? begin then zn b last else zn b k)
    by (intros; apply zn_swp; lia).
  split.
  { eapply locperm_trans; [eapply locperm_weaken; [| |exact HP]; lia|]. apply locperm_swp; lia. }
  split; [lia|].
  assert (El : zn (swp b begin last) last = pv).
  { rewrite Hs by lia. rewrite Z.eqb_refl. exact Eb. }
  rewrite El. split; [reflexivity|]. split.
  - intros k Hk. rewrite Hs by lia.
    destruct (Z.eqb_spec k last); [lia|].
    destruct (Z.eqb_spec k begin); apply H1; lia.
  - intros k Hk. rewrite Hs by lia.
    destruct (Z.eqb_spec k last); [lia|].
    destruct (Z.eqb_spec k begin); [lia|]. apply H2; lia.
Qed.

Lemma partition_right_spec arr begin end_ :
  0 <= begin < end_ -> end_ <= zlen arr ->
  (exists hi, begin < hi < end_ /\ lt (zn arr hi) (zn arr begin) = false) ->
  wp (partition_right lt arr begin end_)
     (fun '(r, pos, _) => locperm arr r begin end_ /\ begin <= pos < end_ /\
        zn r pos = zn arr begin /\
        (forall k, begin <= k < pos -> lt (zn r k) (zn r pos) = true) /\
        (forall k, pos < k < end_ -> lt (zn r k) (zn r pos) = false)).
Proof.
  intros Hb He (hi & Hhi & Hhi2). unfold partition_right. wpr d.
  set (pv := zn arr begin) in *.
  eapply wp_conseq; [apply (scan_up_spec _ arr begin hi); auto; lia|].
  intros first (Hf1 & Hf2 & Hf3). apply wp_bind.
  apply (wp_conseq _ (fun last => first - 1 <= last <= end_ /\
     (forall k, last < k < end_ -> lt (zn arr k) pv = false) /\
     (first < last -> last < end_ /\ lt (zn arr last) pv = true))).
  { wps d; zb.
    - eapply wp_conseq; [apply scan_down_guarded_spec; lia|].
      intros r (H1 & H2 & H3). split; [lia|]. split.
      + intros k Hk. apply H2 in Hk. now zb.
      + intros Hr. destruct H3 as [H3|[H3 H4]]; [lia|]. zb. auto.
    - eapply wp_conseq; [apply (scan_down_spec _ arr end_ (begin+1)); try lia|].
      + cbv beta. rewrite (Hf3 (begin+1)) by lia. reflexivity.
      + intros r (H1 & H2 & H3).
        assert (Hr1 : first - 1 <= r).
        { destruct (Z_le_gt_dec (first-1) r); auto. exfalso.
          specialize (Hf3 (r+1)). specialize (H3 (r+1)).
          rewrite Hf3 in H3 by lia. simpl in H3.
          assert (false = true) by (apply H3; lia). discriminate. }
        split; [lia|]. split.
        * intros k Hk. apply H3 in Hk. now zb.
        * intros Hr. zb. split; [lia|auto]. }
  intros last (Hl1 & Hl2 & Hl3). apply wp_bind.
  apply (wp_conseq _ (fun '(b, first, last) =>
     locperm arr b (begin+1) end_ /\ begin < first < end_ /\
     (forall k, begin < k < first -> lt (zn b k) pv = true) /\
     (forall k, first <= k < end_ -> lt (zn b k) pv = false))).
  { apply (wp_loop (fun '(b, first, last) =>
       locperm arr b (begin+1) end_ /\ begin < first < end_ /\ first - 1 <= last <= end_ /\
       lt (zn b first) pv = false /\
       (forall k, begin < k < first -> lt (zn b k) pv = true) /\
       (forall k, last < k < end_ -> lt (zn b k) pv = false) /\
       (first < last -> last < end_ /\ lt (zn b last) pv = true))
       (fun '(b, first, last) => Z.to_nat (last - first))).
    - clear - Hb He. intros [[b first] last] (HP & Hf & Hl & Hbf & H1 & H2 & H3).
      pose proof (locperm_zlen _ _ _ _ HP) as HL. unfold pright_loop.
      wps d; zb.
      + destruct (H3 E) as [H3a H3b]. wpr d.
        set (b1 := swp b first last).
        assert (Hb1 : forall k, 0 <= k -> zn b1 k = if k =? last then zn b first
                      else if k =? first then zn b last else zn b k).
        { intros k Hk. apply zn_swp; lia. }
        assert (HL1 : zlen b1 = zlen b) by apply zlen_swp.
        eapply wp_conseq.
        { apply (scan_up_spec _ b1 first last); try lia.
          rewrite Hb1 by lia. rewrite Z.eqb_refl. assumption. }
        intros first1 (Hf1 & Hf2 & Hf3). apply wp_bind.
        eapply wp_conseq.
        { apply (scan_down_spec _ b1 last first); try lia.
          cbv beta. rewrite Hb1 by lia. rewrite Z.eqb_refl.
          destruct (Z.eqb_spec first last); [lia|]. now rewrite H3b. }
        intros last1 (Hl1 & Hl2 & Hl3). wpr d. zb.
        assert (Hord : first1 - 1 <= last1).
        { destruct (Z_le_gt_dec (first1-1) last1); auto. exfalso.
          specialize (Hf3 (last1+1)). specialize (Hl3 (last1+1)).
          rewrite Hf3 in Hl3 by lia. simpl in Hl3. assert (false = true) by (apply Hl3; lia).
          discriminate. }
        split; [|lia]. split.
        { eapply locperm_trans; [exact HP|]. apply locperm_swp; lia. }
        split; [lia|]. split; [lia|]. split; [assumption|]. split.
        { intros k Hk. destruct (Z_lt_le_dec first k); [apply Hf3; lia|].
          rewrite Hb1 by lia. destruct (Z.eqb_spec k last); [lia|].
          destruct (Z.eqb_spec k first); [assumption|apply H1; lia]. }
        split.
        { intros k Hk. destruct (Z_lt_le_dec k last).
          - specialize (Hl3 k). destruct (lt (zn b1 k) pv); auto. simpl in Hl3.
            symmetry; apply Hl3; lia.
          - rewrite Hb1 by lia. destruct (Z.eqb_spec k last); [assumption|].
            destruct (Z.eqb_spec k first); [lia|apply H2; lia]. }
        intros _. split; [lia|assumption].
      + wpr d. split; [exact HP|]. split; [exact Hf|]. split; [exact H1|].
        intros k Hk. destruct (Z.eq_dec k first) as [->|]; [exact Hbf|apply H2; lia].
    - split; [apply locperm_refl|]. split; [lia|]. repeat (split; auto).
    - pose proof (zlen_nonneg arr). unfold zlen in *. lia. }
  clear - Hb He.
  intros [[b f1] l1] (HP & Hf & H1 & H2).
  pose proof (locperm_zlen _ _ _ _ HP) as HL.
  assert (Eb : zn b begin = pv) by (apply (locperm_out _ _ _ _ _ HP); lia).
  wpr d.
  set (pos := f1 - 1).
  assert (Es : upd (upd b begin (zn b pos)) pos pv = swp b begin pos)
    by (rewrite <- Eb; reflexivity).
  rewrite Es.
  assert (Hs : forall k, 0 <= k -> zn (swp b begin pos) k =
            if k =? pos then zn b begin else if k =? begin then zn b pos else zn b k)
    by (intros; apply zn_swp; lia).
  split.
  { eapply locperm_trans; [eapply locperm_weaken; [| |exact HP]; lia|]. apply locperm_swp; lia. }
  split; [lia|].
  assert (El : zn (swp b begin pos) pos = pv).
  { rewrite Hs by lia. rewrite Z.eqb_refl. exact Eb. }
  rewrite El. split; [reflexivity|]. split.
  - intros k Hk. rewrite Hs by lia.
    destruct (Z.eqb_spec k pos); [lia|].
    destruct (Z.eqb_spec k begin); apply H1; lia.
  - intros k Hk. rewrite Hs by lia.
    destruct (Z.eqb_spec k pos); [lia|].
    destruct (Z.eqb_spec k begin); [lia|]. apply H2; lia.
Qed.

(** ** Pivot selection *)
Section Asym.
Context (asym : forall x y, lt x y = true -> lt y x = false).

Lemma lt_irrefl x : lt x x = false.
Proof. destruct (lt x x) eqn:E; auto. pose proof (asym _ _ E); congruence. Qed.

Lemma sort2_spec arr i j lo hi :
  0 <= lo -> hi <= zlen arr -> lo <= i < hi -> lo <= j < hi -> i <> j ->
  wp (sort2 lt arr i j) (fun r => locperm arr r lo hi /\
     lt (zn r j) (zn r i) = false /\ (forall k, 0 <= k -> k <> i -> k <> j -> zn r k = zn arr k) /\
     ((zn r i = zn arr i /\ zn r j = zn arr j) \/
      (zn r i = zn arr j /\ zn r j = zn arr i /\ lt (zn arr j) (zn arr i) = true))).
Proof.
  intros H1 H2 H3 H4 Hne. unfold sort2. wpr d. wps d.
  - wpr d. split; [apply locperm_swp; lia|].
    rewrite !zn_swp by lia. rewrite !Z.eqb_refl.
    destruct (Z.eqb_spec i j); [lia|].
    split; [apply asym; assumption|]. split; [|right; auto].
    intros k Hk Hki Hkj. rewrite zn_swp by lia.
    destruct (Z.eqb_spec k j); [lia|]. destruct (Z.eqb_spec k i); [lia|]. reflexivity.
  - wpr d. split; [apply locperm_refl|]. auto.
Qed.

Lemma sort3_spec arr i j k lo hi :
  0 <= lo -> hi <= zlen arr -> lo <= i < hi -> lo <= j < hi -> lo <= k < hi ->
  i <> j -> j <> k -> i <> k ->
  wp (sort3 lt arr i j k) (fun r => locperm arr r lo hi /\ lt (zn r k) (zn r j) = false).
Proof.
  intros H1 H2 Hi Hj Hk Hij Hjk Hik. unfold sort3. apply wp_bind.
  eapply wp_conseq; [apply (sort2_spec arr i j lo hi); auto|].
  intros a1 (L1 & N1 & O1 & C1). apply wp_bind.
  pose proof (locperm_zlen _ _ _ _ L1) as Z1.
  eapply wp_conseq; [apply (sort2_spec a1 j k lo hi); auto; lia|].
  intros a2 (L2 & N2 & O2 & C2).
  pose proof (locperm_zlen _ _ _ _ L2) as Z2.
  eapply wp_conseq; [apply (sort2_spec a2 i j lo hi); auto; lia|].
  intros a3 (L3 & N3 & O3 & C3).
  split.
  { eapply locperm_trans; [exact L1|]. eapply locperm_trans; eauto. }
  rewrite (O3 k) by lia.
  destruct C3 as [[E1 E2]|(E1 & E2 & E3)].
  - rewrite E2. exact N2.
  - rewrite E2. rewrite (O2 i) by lia.
    destruct C2 as [[F1 F2]|(F1 & F2 & F3)].
    + (* nothing swapped in step 2: then step 3 cannot swap *)
      rewrite F1 in E3. rewrite (O2 i) in E3 by lia. congruence.
    + rewrite F2. exact N1.
Qed.

Lemma choose_pivot_spec arr begin end_ :
  0 <= begin -> end_ <= zlen arr -> 24 <= end_ - begin ->
  wp (choose_pivot lt arr begin end_) (fun r => locperm arr r begin end_ /\
     exists hi, begin < hi < end_ /\ lt (zn r hi) (zn r begin) = false).
Proof.
  intros H1 H2 H3. unfold choose_pivot, NINTHER_THRESHOLD.
  set (s := (end_ - begin) / 2).
  assert (Hs : 2 * s <= end_ - begin <= 2 * s + 1).
  { unfold s. pose proof (Z.div_mod (end_ - begin) 2). pose proof (Z.mod_pos_bound (end_ - begin) 2). lia. }
  clearbody s. wps d; zb.
  - apply wp_bind. eapply wp_conseq; [apply (sort3_spec arr _ _ _ begin end_); lia|].
    intros a1 [L1 _]. pose proof (locperm_zlen _ _ _ _ L1). apply wp_bind.
    eapply wp_conseq; [apply (sort3_spec a1 _ _ _ begin end_); lia|].
    intros a2 [L2 _]. pose proof (locperm_zlen _ _ _ _ L2). apply wp_bind.
    eapply wp_conseq; [apply (sort3_spec a2 _ _ _ begin end_); lia|].
    intros a3 [L3 _]. pose proof (locperm_zlen _ _ _ _ L3). apply wp_bind.
    eapply wp_conseq; [apply (sort3_spec a3 _ _ _ begin end_); lia|].
    intros a4 [L4 N]. pose proof (locperm_zlen _ _ _ _ L4).
    wpr d. split.
    + eapply locperm_trans; [exact L1|]. eapply locperm_trans; [exact L2|].
      eapply locperm_trans; [exact L3|]. eapply locperm_trans; [exact L4|].
      apply locperm_swp; lia.
    + exists (begin + (s + 1)). split; [lia|]. rewrite !zn_swp by lia.
      rewrite Z.eqb_refl.
      destruct (Z.eqb_spec (begin + (s+1)) (begin + s)); [lia|].
      destruct (Z.eqb_spec (begin + (s+1)) begin); [lia|].
      destruct (Z.eqb_spec begin (begin + s)); [lia|]. exact N.
  - eapply wp_conseq; [apply (sort3_spec arr _ _ _ begin end_); lia|].
    intros r [L N]. split; [exact L|]. exists (end_ - 1). split; [lia|exact N].
Qed.

(** ** Shuffles and partial insertion sort *)
Ltac sw := apply wp_bind; match goal with
  | |- wp (aswap ?a ?i ?j) _ => rewrite (aswap_ok d a i j) by (rewrite ?zlen_swp; lia); apply wp_ok end.

Lemma shuffle_left_spec arr begin pos :
  0 <= begin <= pos -> pos <= zlen arr ->
  wp (shuffle_left arr begin pos) (fun r => locperm arr r begin pos).
Proof.
  intros H1 H2. unfold shuffle_left, INSERTION_SORT_THRESHOLD, NINTHER_THRESHOLD.
  set (l := pos - begin). set (q := l / 4).
  assert (Hq : 4 * q <= l <= 4 * q + 3).
  { unfold q. pose proof (Z.div_mod l 4). pose proof (Z.mod_pos_bound l 4). lia. }
  clearbody q. wps d; zb; [|wpr d; apply locperm_refl].
  wpr d. wps d; zb; wpr d;
    repeat (eapply locperm_trans; [|apply locperm_swp; rewrite ?zlen_swp; lia]);
    apply locperm_refl.
Qed.

Lemma shuffle_right_spec arr pos end_ :
  0 <= pos < end_ -> end_ <= zlen arr ->
  wp (shuffle_right arr pos end_) (fun r => locperm arr r (pos+1) end_).
Proof.
  intros H1 H2. unfold shuffle_right, INSERTION_SORT_THRESHOLD, NINTHER_THRESHOLD.
  set (l := end_ - (pos + 1)). set (q := l / 4).
  assert (Hq : 4 * q <= l <= 4 * q + 3).
  { unfold q. pose proof (Z.div_mod l 4). pose proof (Z.mod_pos_bound l 4). lia. }
  clearbody q. wps d; zb; [|wpr d; apply locperm_refl].
  wpr d. wps d; zb; wpr d;
    repeat (eapply locperm_trans; [|apply locperm_swp; rewrite ?zlen_swp; lia]);
    apply locperm_refl.
Qed.

Lemma pins_inner_spec arr begin cur :
  0 <= begin < cur -> cur < zlen arr -> lt (zn arr cur) (zn arr (cur-1)) = true ->
  wp (loop (S (Z.to_nat (cur - begin))) (pins_inner lt begin (zn arr cur)) (arr, cur))
     (fun '(b, s) => begin <= s < cur /\ zlen b = zlen arr /\
        Permutation arr (upd b s (zn arr cur)) /\
        (forall k, 0 <= k < zlen arr -> k < s -> zn b k = zn arr k) /\
        (forall k, s < k <= cur -> zn b k = zn arr (k-1) /\ lt (zn arr cur) (zn b k) = true) /\
        (forall k, cur < k < zlen arr -> zn b k = zn arr k) /\
        (begin < s -> lt (zn arr cur) (zn b (s-1)) = false)).
Proof.
  intros H1 H2 Hlt. set (x := zn arr cur) in *.
  apply (wp_loop (fun '(b, s) => begin < s <= cur /\ zlen b = zlen arr /\
        Permutation arr (upd b s x) /\
        (forall k, 0 <= k < zlen arr -> k < s -> zn b k = zn arr k) /\
        (forall k, s < k <= cur -> zn b k = zn arr (k-1) /\ lt x (zn b k) = true) /\
        (forall k, cur < k < zlen arr -> zn b k = zn arr k) /\
        lt x (zn arr (s-1)) = true)
        (fun '(b, s) => Z.to_nat (s - begin))).
  - intros [b s] (Hs & HL & HP & G1 & G2 & G3 & G4). unfold pins_inner. wpr d.
    assert (Hprev : zn b (s-1) = zn arr (s-1)) by (apply G1; lia).
    assert (Hperm : Permutation arr (upd (upd b s (zn b (s-1))) (s-1) x)).
    { rewrite hole_move_perm by lia. exact HP. }
    assert (F1 : forall k, 0 <= k < zlen arr -> k < s - 1 ->
               zn (upd b s (zn b (s-1))) k = zn arr k).
    { intros k Hk1 Hk2. rewrite zn_upd_other by lia. apply G1; lia. }
    assert (F2 : forall k, s - 1 < k <= cur -> zn (upd b s (zn b (s-1))) k = zn arr (k-1) /\
               lt x (zn (upd b s (zn b (s-1))) k) = true).
    { intros k Hk. rewrite (zn_upd d) by lia. destruct (Z.eqb_spec k s) as [->|].
      - rewrite Hprev. split; auto.
      - apply G2; lia. }
    assert (F3 : forall k, cur < k < zlen arr -> zn (upd b s (zn b (s-1))) k = zn arr k).
    { intros k Hk. rewrite zn_upd_other by lia. apply G3; lia. }
    wps d; zb.
    + wpr d. rewrite zlen_upd. repeat (split; [first [lia | assumption]|]). lia.
    + wpr d. wps d; zb; wpr d; rewrite zlen_upd.
      * repeat (split; [first [lia | assumption]|]). intros _.
        assumption.
      * rewrite F1 in E0 by lia.
        split; [|lia].
        repeat (split; [first [lia | assumption]|]). assumption.
  - assert (E : upd arr cur x = arr) by (apply upd_self; lia). rewrite E.
    repeat split; auto; lia.
  - lia.
Qed.

Lemma partial_insertion_sort_spec arr begin end_ :
  0 <= begin <= end_ -> end_ <= zlen arr ->
  wp (partial_insertion_sort lt arr begin end_)
     (fun '(ok, r) => locperm arr r begin end_ /\
        (strict_weak lt -> ok = true -> sorted_rng r begin end_)).
Proof.
  intros Hb He. unfold partial_insertion_sort. wps d; zb.
  { wpr d. split; [apply locperm_refl|]. intros _ _ i j Hi Hj. lia. }
  apply (wp_loop (fun '(b, limit, cur) => begin + 1 <= cur <= end_ /\
      locperm arr b begin end_ /\ (strict_weak lt -> sorted_rng b begin cur))
      (fun '(b, limit, cur) => Z.to_nat (end_ - cur))).
  - intros [[b limit] cur] (Hc & HP & HS). unfold pins_outer.
    pose proof (locperm_zlen _ _ _ _ HP) as HL.
    wps d; zb.
    + wps d; zb.
      { wpr d. split; [exact HP|discriminate]. }
      wpr d. wps d.
      * wps d. eapply wp_conseq; [apply pins_inner_spec; auto; lia|].
        intros [b1 s] (Hs & HL1 & HP1 & G1 & G2 & G3 & Hstop). wpr d.
        split; [|lia]. split; [lia|]. split.
        -- eapply locperm_trans; [exact HP|]. split; [exact HP1|].
           intros k Hk Hout. rewrite zn_upd_other by lia.
           destruct (Z_lt_le_dec k s); [apply G1; lia|apply G3; lia].
        -- intros W. specialize (HS W). intros p q Hpq Hq.
           rewrite !(zn_upd d) by lia.
           destruct (Z.eqb_spec q s) as [->|Hq'].
           { destruct (Z.eqb_spec p s); [lia|].
             destruct (Z.eq_dec p (s-1)) as [->|].
             - apply Hstop. lia.
             - apply (sw_negtrans lt W) with (y := zn b1 (s-1)); [apply Hstop; lia|].
               rewrite !G1 by lia. apply HS; lia. }
           destruct (Z.eqb_spec p s) as [->|Hp'].
           { destruct (G2 q) as [_ Hx]; [lia|]. now apply (sw_asym lt W). }
           destruct (Z_lt_le_dec q s).
           { rewrite !G1 by lia. apply HS; lia. }
           destruct (G2 q) as [Eq2 _]; [lia|]. rewrite Eq2.
           destruct (Z_lt_le_dec p s).
           { rewrite G1 by lia. apply HS; lia. }
           destruct (G2 p) as [Eq3 _]; [lia|]. rewrite Eq3. apply HS; lia.
      * wpr d. split; [|lia]. split; [lia|]. split; [exact HP|].
        intros W. specialize (HS W). intros p q Hpq Hq.
        destruct (Z.eq_dec q cur) as [->|]; [|apply HS; lia].
        destruct (Z.eq_dec p (cur-1)) as [->|]; [assumption|].
        apply (sw_negtrans lt W) with (y := zn b (cur-1)); [assumption|apply HS; lia].
    + wpr d. split; [exact HP|]. intros W _. assert (cur = end_) by lia. subst. auto.
  - split; [lia|]. split; [apply locperm_refl|]. intros _ i j Hi Hj. lia.
  - lia.
Qed.

(** ** Putting sorted parts together *)
Lemma sorted_join (W : strict_weak lt) r begin pos end_ :
  begin <= pos < end_ ->
  sorted_rng r begin pos -> sorted_rng r (pos+1) end_ ->
  (forall k, begin <= k < pos -> lt (zn r pos) (zn r k) = false) ->
  (forall k, pos < k < end_ -> lt (zn r k) (zn r pos) = false) ->
  sorted_rng r begin end_.
Proof.
  intros Hp S1 S2 L R i j Hi Hj.
  destruct (Z_lt_le_dec j pos); [apply S1; lia|].
  destruct (Z_lt_le_dec pos i); [apply S2; lia|].
  destruct (Z.eq_dec j pos) as [->|]; [apply L; lia|].
  destruct (Z.eq_dec i pos) as [->|]; [apply R; lia|].
  apply (sw_negtrans lt W) with (y := zn r pos); [apply R|apply L]; lia.
Qed.

Definition pdq_post arr begin end_ (leftmost : bool) r : Prop :=
  locperm arr r begin end_ /\
  (strict_weak lt ->
   (leftmost = false -> forall k, begin <= k < end_ -> lt (zn arr k) (zn arr (begin-1)) = false) ->
   sorted_rng r begin end_).

(** The two recursive calls after a partition at [pos]. *)
Lemma pdq_continue fuel arr0 arr begin end_ pos bad leftmost :
  (forall arr begin end_ bad leftmost,
     0 <= begin <= end_ -> end_ <= zlen arr -> (Z.to_nat (end_ - begin) < fuel)%nat ->
     (leftmost = false -> 1 <= begin) ->
     wp (pdq_sort_rec lt fuel arr begin end_ bad leftmost) (pdq_post arr begin end_ leftmost)) ->
  0 <= begin <= pos -> pos < end_ -> end_ <= zlen arr0 -> (Z.to_nat (end_ - begin) <= fuel)%nat ->
  (leftmost = false -> 1 <= begin) ->
  locperm arr0 arr begin end_ ->
  (forall k, begin <= k < pos -> lt (zn arr k) (zn arr pos) = true) ->
  (forall k, pos < k < end_ -> lt (zn arr k) (zn arr pos) = false) ->
  wp (bind (pdq_sort_rec lt fuel arr begin pos bad leftmost)
        (fun arr => pdq_sort_rec lt fuel arr (pos+1) end_ bad false))
     (pdq_post arr0 begin end_ leftmost).
Proof.
  intros IH Hb Hp He Hf Hlm HP HLt HRt.
  pose proof (locperm_zlen _ _ _ _ HP) as HL.
  apply wp_bind.
  eapply wp_conseq; [apply IH; auto; lia|].
  intros r1 [P1 S1]. pose proof (locperm_zlen _ _ _ _ P1) as HL1.
  eapply wp_conseq; [apply IH; auto; lia|].
  intros r2 [P2 S2]. pose proof (locperm_zlen _ _ _ _ P2) as HL2.
  assert (Epos1 : zn r1 pos = zn arr pos) by (apply (locperm_out _ _ _ _ _ P1); lia).
  assert (Epos2 : zn r2 pos = zn r1 pos) by (apply (locperm_out _ _ _ _ _ P2); lia).
  split.
  { eapply locperm_trans; [exact HP|].
    eapply locperm_trans; [eapply locperm_weaken; [| |exact P1]; lia|].
    eapply locperm_weaken; [| |exact P2]; lia. }
  intros W Hprev.
  assert (L1 : forall k, begin <= k < pos -> lt (zn r1 k) (zn arr pos) = true).
  { apply (locperm_forall (fun x => lt x (zn arr pos) = true) arr r1 begin pos); auto; lia. }
  assert (R1 : forall k, pos+1 <= k < end_ -> lt (zn r1 k) (zn arr pos) = false).
  { apply (locperm_forall (fun x => lt x (zn arr pos) = false) arr r1 begin pos); auto; try lia.
    intros; apply HRt; lia. }
  assert (R2 : forall k, pos+1 <= k < end_ -> lt (zn r2 k) (zn arr pos) = false).
  { apply (locperm_forall (fun x => lt x (zn arr pos) = false) r1 r2 (pos+1) end_); auto; try lia. }
  assert (L2 : forall k, begin <= k < pos -> zn r2 k = zn r1 k).
  { intros k Hk. apply (locperm_out _ _ _ _ _ P2); lia. }
  apply (sorted_join W _ begin pos end_); try lia.
  - apply (sorted_rng_ext lt d r1); [exact L2|].
    apply S1; auto. intros Hlf k Hk.
    assert (Eb : zn arr (begin-1) = zn arr0 (begin-1)).
    { specialize (Hlm Hlf). apply (locperm_out _ _ _ _ _ HP); lia. }
    rewrite Eb.
    apply (locperm_forall (fun x => lt x (zn arr0 (begin-1)) = false) arr0 arr begin end_ begin end_);
      auto; lia.
  - apply S2; auto. intros _ k Hk. replace (pos+1-1) with pos by lia.
    rewrite Epos1. apply R1; lia.
  - intros k Hk. rewrite Epos2, Epos1, L2 by lia. apply (sw_asym lt W). apply L1; lia.
  - intros k Hk. rewrite Epos2, Epos1. apply R2; lia.
Qed.

Theorem pdq_rec_spec fuel : forall arr begin end_ bad leftmost,
  0 <= begin <= end_ -> end_ <= zlen arr -> (Z.to_nat (end_ - begin) < fuel)%nat ->
  (leftmost = false -> 1 <= begin) ->
  wp (pdq_sort_rec lt fuel arr begin end_ bad leftmost) (pdq_post arr begin end_ leftmost).
Proof.
  induction fuel as [|fuel IH]; intros arr begin end_ bad leftmost Hb He Hf Hlm; [lia|].
  cbn [pdq_sort_rec]. unfold INSERTION_SORT_THRESHOLD at 1. wps d; zb.
  { eapply wp_conseq; [apply (insertion_sort_spec lt d); lia|].
    intros r (P & O & S). split; [split; assumption|]. intros W _. apply (S W). }
  apply wp_bind. eapply wp_conseq; [apply choose_pivot_spec; lia|].
  intros a1 (P1 & hi & Hhi & Hhi2). pose proof (locperm_zlen _ _ _ _ P1) as HL1.
  apply wp_bind.
  apply (wp_conseq _ (fun g => g = true -> leftmost = false /\
                        lt (zn a1 (begin-1)) (zn a1 begin) = false)).
  { destruct leftmost; [wpr d; discriminate|].
    specialize (Hlm eq_refl). wpr d. intros Hg. zb. auto. }
  intros g Hg. wps d.
  - (* partition_left: everything up to the pivot is equal *)
    destruct (Hg E0) as [-> Hpq]. clear Hg E0. specialize (Hlm eq_refl).
    apply wp_bind. eapply wp_conseq; [apply partition_left_spec; try lia; apply lt_irrefl|].
    intros [a2 pos] (P2 & Hpos & Epos & L & R).
    pose proof (locperm_zlen _ _ _ _ P2) as HL2.
    eapply wp_conseq; [apply IH; auto; lia|].
    intros r [P3 S3]. pose proof (locperm_zlen _ _ _ _ P3) as HL3.
    assert (P02 : locperm arr a2 begin end_) by (eapply locperm_trans; eauto).
    split.
    { eapply locperm_trans; [exact P02|]. eapply locperm_weaken; [| |exact P3]; lia. }
    intros W Hprev. specialize (Hprev eq_refl).
    assert (Eprev1 : zn a1 (begin-1) = zn arr (begin-1)) by (apply (locperm_out _ _ _ _ _ P1); lia).
    assert (Hge : forall k, begin <= k < end_ -> lt (zn a2 k) (zn arr (begin-1)) = false).
    { apply (locperm_forall (fun x => lt x (zn arr (begin-1)) = false) arr a2 begin end_);
        auto; try lia. }
    assert (Elow : forall k, begin <= k <= pos -> zn r k = zn a2 k).
    { intros k Hk. apply (locperm_out _ _ _ _ _ P3); lia. }
    assert (Ehigh : forall k, pos+1 <= k < end_ -> lt (zn a2 pos) (zn r k) = true).
    { apply (locperm_forall (fun x => lt (zn a2 pos) x = true) a2 r (pos+1) end_); auto; try lia.
      intros k Hk. apply R; lia. }
    apply (sorted_join W _ begin pos end_); try lia.
    + intros i j Hi Hj. rewrite !Elow by lia.
      apply (sw_negtrans lt W) with (y := zn a2 pos); [|apply L; lia].
      apply (sw_negtrans lt W) with (y := zn arr (begin-1)); [apply Hge; lia|].
      rewrite Epos. rewrite <- Eprev1. exact Hpq.
    + apply S3; auto. intros _ k Hk. replace (pos+1-1) with pos by lia.
      apply (sw_asym lt W). apply R; lia.
    + intros k Hk. rewrite !Elow by lia. apply L; lia.
    + intros k Hk. rewrite (Elow pos) by lia. apply (sw_asym lt W). apply Ehigh; lia.
  - clear Hg E0 g. apply wp_bind.
    eapply wp_conseq; [apply partition_right_spec; try lia; eauto|].
    intros [[a2 pos] already] (P2 & Hpos & Epos & L & R).
    pose proof (locperm_zlen _ _ _ _ P2) as HL2.
    assert (P02 : locperm arr a2 begin end_) by (eapply locperm_trans; eauto).
    assert (CONT : forall b bad', locperm arr b begin end_ ->
       (forall k, begin <= k < pos -> lt (zn b k) (zn b pos) = true) ->
       (forall k, pos < k < end_ -> lt (zn b k) (zn b pos) = false) ->
       wp (bind (pdq_sort_rec lt fuel b begin pos bad' leftmost)
             (fun arr => pdq_sort_rec lt fuel arr (pos+1) end_ bad' false))
          (pdq_post arr begin end_ leftmost)).
    { intros b bad' Pb Lb Rb. apply pdq_continue; auto; lia. }
    cbv zeta. wps d.
    + wps d; zb.
      * eapply wp_conseq; [apply (heap_sort_spec lt d); lia|].
        intros r (P & O & S). split.
        { eapply locperm_trans; [exact P02|]. split; assumption. }
        intros W _. apply (S W).
      * apply wp_bind. eapply wp_conseq; [apply shuffle_left_spec; lia|].
        intros a3 P3. pose proof (locperm_zlen _ _ _ _ P3) as HL3. apply wp_bind.
        eapply wp_conseq; [apply shuffle_right_spec; lia|].
        intros a4 P4. pose proof (locperm_zlen _ _ _ _ P4) as HL4.
        assert (Ep4 : zn a4 pos = zn a2 pos).
        { rewrite (locperm_out _ _ _ _ pos P4) by lia. apply (locperm_out _ _ _ _ _ P3); lia. }
        apply CONT.
        -- eapply locperm_trans; [exact P02|].
           eapply locperm_trans; [eapply locperm_weaken; [| |exact P3]; lia|].
           eapply locperm_weaken; [| |exact P4]; lia.
        -- rewrite Ep4.
           apply (locperm_forall (fun x => lt x (zn a2 pos) = true) a3 a4 (pos+1) end_); auto; try lia.
           apply (locperm_forall (fun x => lt x (zn a2 pos) = true) a2 a3 begin pos); auto; lia.
        -- rewrite Ep4. intros k Hk. assert (Hk' : pos+1 <= k < end_) by lia. revert k Hk' Hk.
           cut (forall k, pos+1 <= k < end_ -> lt (zn a4 k) (zn a2 pos) = false); [auto|].
           apply (locperm_forall (fun x => lt x (zn a2 pos) = false) a3 a4 (pos+1) end_); auto; try lia.
           apply (locperm_forall (fun x => lt x (zn a2 pos) = false) a2 a3 begin pos); auto; try lia.
           intros k Hk. apply R; lia.
    + wps d.
      * apply wp_bind. eapply wp_conseq; [apply partial_insertion_sort_spec; lia|].
        intros [ok1 a3] (P3 & S3). pose proof (locperm_zlen _ _ _ _ P3) as HL3.
        assert (Ep3 : zn a3 pos = zn a2 pos) by (apply (locperm_out _ _ _ _ _ P3); lia).
        assert (P03 : locperm arr a3 begin end_).
        { eapply locperm_trans; [exact P02|]. eapply locperm_weaken; [| |exact P3]; lia. }
        assert (L3 : forall k, begin <= k < pos -> lt (zn a3 k) (zn a3 pos) = true).
        { rewrite Ep3.
          apply (locperm_forall (fun x => lt x (zn a2 pos) = true) a2 a3 begin pos); auto; lia. }
        assert (R3 : forall k, pos < k < end_ -> lt (zn a3 k) (zn a3 pos) = false).
        { rewrite Ep3. intros k Hk. rewrite (locperm_out _ _ _ _ k P3) by lia. apply R; lia. }
        wps d; [|apply CONT; auto].
        apply wp_bind. eapply wp_conseq; [apply partial_insertion_sort_spec; lia|].
        intros [ok2 a4] (P4 & S4). pose proof (locperm_zlen _ _ _ _ P4) as HL4.
        assert (Ep4 : zn a4 pos = zn a3 pos) by (apply (locperm_out _ _ _ _ _ P4); lia).
        assert (P04 : locperm arr a4 begin end_).
        { eapply locperm_trans; [exact P03|]. eapply locperm_weaken; [| |exact P4]; lia. }
        assert (L4 : forall k, begin <= k < pos -> lt (zn a4 k) (zn a4 pos) = true).
        { rewrite Ep4. intros k Hk. rewrite (locperm_out _ _ _ _ k P4) by lia. apply L3; lia. }
        assert (R4 : forall k, pos < k < end_ -> lt (zn a4 k) (zn a4 pos) = false).
        { rewrite Ep4. intros k Hk. assert (Hk' : pos+1 <= k < end_) by lia. revert k Hk' Hk.
          cut (forall k, pos+1 <= k < end_ -> lt (zn a4 k) (zn a3 pos) = false); [auto|].
          apply (locperm_forall (fun x => lt x (zn a3 pos) = false) a3 a4 (pos+1) end_); auto; try lia.
          intros; apply R3; lia. }
        wps d; [|apply CONT; auto].
        wpr d. split; [exact P04|]. intros W _.
        apply (sorted_join W _ begin pos end_); try lia; auto.
        -- apply (sorted_rng_ext lt d a3); [|apply S3; auto].
           intros k Hk. apply (locperm_out _ _ _ _ _ P4); lia.
      * apply CONT; auto.
Qed.

Lemma floor_log2_ok n : 0 <= n -> wp (floor_log2 n) (fun _ => True).
Proof.
  intros Hn. unfold floor_log2.
  apply (wp_loop (fun '(m, _) => 0 <= m) (fun '(m, _) => Z.to_nat m)).
  - intros [m log] Hm. cbv zeta. wps d; zb; wpr d; [exact I|].
    pose proof (Z.div_mod m 2). pose proof (Z.mod_pos_bound m 2).
    pose proof (Z.div_pos m 2). split; lia.
  - exact Hn.
  - lia.
Qed.

Theorem pdq_sort_array_spec arr size :
  0 <= size <= zlen arr ->
  wp (pdq_sort_array lt arr size)
     (fun r => locperm arr r 0 size /\ (strict_weak lt -> sorted_rng r 0 size)).
Proof.
  intros Hs. unfold pdq_sort_array. apply wp_bind.
  eapply wp_conseq; [apply floor_log2_ok; lia|]. intros log _.
  eapply wp_conseq; [apply pdq_rec_spec; try lia; discriminate|].
  intros r [P S]. split; [exact P|]. intros W. apply S; [exact W|discriminate].
Qed.

End Asym.
End Pdq.
