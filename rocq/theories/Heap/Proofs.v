(** Proofs about the heap operations. *)
From Coq Require Import List ZArith Lia Bool Permutation ZifyBool.
From Verif.Common Require Import Result Arr Ord Tac.
From Verif.Heap Require Import Model Spec.
Import ListNotations.
Local Open Scope Z_scope.
Local Arguments Z.mul : simpl never.
Local Arguments Z.add : simpl never.
Local Arguments Z.sub : simpl never.
Local Arguments Z.div : simpl never.

Section Heap.
Context {A : Type} (lt : A -> A -> bool) (d : A).
Notation zn := (@zn A d).

Definition par (i : Z) : Z := (i - 1) / 2.
Lemma par_shiftr i : Z.shiftr (i - 1) 1 = par i.
Proof. unfold par. rewrite Z.shiftr_div_pow2 by lia. reflexivity. Qed.
Lemma par_iff i p : par i = p <-> i = 2 * p + 1 \/ i = 2 * p + 2.
Proof. unfold par. pose proof (Z.div_mod (i-1) 2). pose proof (Z.mod_pos_bound (i-1) 2). lia. Qed.
Lemma par_lt i : 0 < i -> 0 <= par i < i.
Proof. unfold par. pose proof (Z.div_mod (i-1) 2). pose proof (Z.mod_pos_bound (i-1) 2). lia. Qed.
Lemma par_mono s i : 0 <= s -> s <= par i -> s < i.
Proof. unfold par. pose proof (Z.div_mod (i-1) 2). pose proof (Z.mod_pos_bound (i-1) 2). lia. Qed.

Inductive desc (s : Z) : Z -> Prop :=
| desc_refl : desc s s
| desc_step p : s < p -> desc s (par p) -> desc s p.
Lemma desc_le s p : desc s p -> s <= p.
Proof. induction 1; lia. Qed.
Lemma desc_par s p : desc s p -> s < p -> desc s (par p).
Proof. destruct 1; [lia|auto]. Qed.
Lemma desc_zero p : 0 <= p -> desc 0 p.
Proof.
  intros H. revert p H. apply (Zlt_0_ind (desc 0)). intros p IH Hp.
  destruct (Z.eq_dec p 0) as [->|]; [constructor|]. apply desc_step; [lia|]. apply IH. apply par_lt. lia.
Qed.

Definition edge (a : list A) (i : Z) : Prop := lt (zn a i) (zn a (par i)) = false.
Definition heap_from (s : Z) (a : list A) : Prop := forall i, s <= par i -> i < zlen a -> edge a i.

Lemma siftdown_spec h s p : 0 <= s -> desc s p -> p < zlen h ->
  wp (siftdown lt h s p) (fun r => Permutation h r /\
    (strict_weak lt ->
     (forall i, s <= par i -> i < zlen h -> i <> p -> edge h i) ->
     (s <= par p -> forall c, par c = p -> c < zlen h -> lt (zn h c) (zn h (par p)) = false) ->
     heap_from s r)).
Proof.
  intros Hs Hd Hp. pose proof (desc_le _ _ Hd) as Hsp. unfold siftdown. wpr d.
  set (x := zn h p).
  apply (wp_conseq _ (fun r => let '(a, q) := r in 0 <= q < zlen a /\ zlen a = zlen h /\ Permutation h (upd a q x) /\
    (strict_weak lt ->
     (forall i, s <= par i -> i < zlen h -> i <> p -> edge h i) ->
     (s <= par p -> forall c, par c = p -> c < zlen h -> lt (zn h c) (zn h (par p)) = false) ->
     heap_from s (upd a q x)))).
  2:{ intros [a q] (Hq & L & P & H). rewrite aset_ok by lia. apply wp_ok. auto. }
  apply (wp_loop
    (fun '(a, q) => desc s q /\ q < zlen a /\ zlen a = zlen h /\ Permutation h (upd a q x) /\
     (strict_weak lt ->
      (forall i, s <= par i -> i < zlen h -> i <> p -> edge h i) ->
      (s <= par p -> forall c, par c = p -> c < zlen h -> lt (zn h c) (zn h (par p)) = false) ->
      (forall i, s <= par i -> i < zlen h -> i <> q -> edge (upd a q x) i) /\
      (s <= par q -> forall c, par c = q -> c < zlen h -> lt (zn (upd a q x) c) (zn (upd a q x) (par q)) = false)))
    (fun '(a, q) => Z.to_nat q)).
  - intros [a q] (Dq & Hq & L & P & H). pose proof (desc_le _ _ Dq) as Hsq. unfold siftdown_body.
    rewrite par_shiftr.
    wps d; zb.
    + pose proof (par_lt q ltac:(lia)) as Hpq. pose proof (desc_par _ _ Dq ltac:(lia)) as Dp. pose proof (desc_le _ _ Dp) as Hsp'.
      wps d. wps d. wps d.
      * (* the parent moves down *)
        wpr d. split; [|lia]. rewrite zlen_upd. split; auto. split; [lia|]. split; auto.
        assert (S : upd (upd a q (zn a (par q))) (par q) x = upd (upd a q (zn a (par q))) (par q) x) by auto.
        split. { rewrite P. symmetry. apply hole_move_perm; lia. }
        intros W H1 H2. destruct (H W H1 H2) as (E1 & E2). clear H S.
        set (b := upd a q x) in *.
        assert (Vq : forall k, 0 <= k < zlen a -> zn (upd (upd a q (zn a (par q))) (par q) x) k =
            if k =? par q then x else if k =? q then zn a (par q) else zn a k).
        { intros k Hk. rewrite zn_upd by (rewrite ?zlen_upd; lia). destruct (k =? par q); auto. rewrite zn_upd by lia. reflexivity. }
        assert (Vb : forall k, 0 <= k < zlen a -> zn b k = if k =? q then x else zn a k).
        { intros k Hk. unfold b. rewrite zn_upd by lia. reflexivity. }
        split.
        { intros i Hi1 Hi2 Hi3. pose proof (par_mono _ _ Hs Hi1) as Hi0. pose proof (par_lt i ltac:(lia)).
          unfold edge. rewrite !Vq by lia. replace (i =? par q) with false by lia.
          destruct (Z.eqb_spec i q) as [->|Niq].
          - rewrite Z.eqb_refl. apply (sw_asym lt W). auto.
          - specialize (E1 i Hi1 Hi2 Niq). unfold edge in E1. rewrite !Vb in E1 by lia. replace (i =? q) with false in E1 by lia.
            destruct (Z.eqb_spec (par i) (par q)) as [Ep|Np].
            + rewrite Ep in E1. replace (par q =? q) with false in E1 by lia.
              apply (sw_negtrans lt W) with (y := zn a (par q)); auto. apply (sw_asym lt W). auto.
            + destruct (Z.eqb_spec (par i) q) as [Eq|Nq]; auto.
              specialize (E2 ltac:(lia) i Eq Hi2). rewrite !Vb in E2 by lia.
              replace (i =? q) with false in E2 by lia. replace (par q =? q) with false in E2 by lia. auto. }
        { intros Hpp c Hc1 Hc2. pose proof (par_mono _ _ Hs Hpp) as Hi0. pose proof (par_lt (par q) ltac:(lia)).
          assert (par q < c). { apply par_iff in Hc1. lia. }
          rewrite !Vq by lia. replace (c =? par q) with false by lia.
          replace (par (par q) =? par q) with false by lia. replace (par (par q) =? q) with false by lia.
          assert (Epq : lt (zn a (par q)) (zn a (par (par q))) = false).
          { specialize (E1 (par q) Hpp ltac:(lia) ltac:(lia)). unfold edge in E1. rewrite !Vb in E1 by lia.
            replace (par q =? q) with false in E1 by lia. replace (par (par q) =? q) with false in E1 by lia. auto. }
          destruct (Z.eqb_spec c q) as [->|Ncq]; auto.
          assert (Ec := E1 c ltac:(lia) Hc2 Ncq). unfold edge in Ec. rewrite !Vb in Ec by lia.
          replace (c =? q) with false in Ec by lia. rewrite Hc1 in Ec. replace (par q =? q) with false in Ec by lia.
          apply (sw_negtrans lt W) with (y := zn a (par q)); auto. }
      * wpr d. split; [lia|]. split; auto. split; auto. intros W H1 H2. destruct (H W H1 H2) as (E1' & E2').
        intros i Hi1 Hi2. rewrite zlen_upd in Hi2. destruct (Z.eq_dec i q) as [->|]; [|apply E1'; lia].
        unfold edge. rewrite !zn_upd by lia. rewrite Z.eqb_refl. replace (par q =? q) with false by lia. auto.
    + wpr d. split; [lia|]. split; auto. split; auto. intros W H1 H2. destruct (H W H1 H2) as (E1' & E2').
      intros i Hi1 Hi2. rewrite zlen_upd in Hi2. destruct (Z.eq_dec i q) as [->|]; [|apply E1'; lia].
      exfalso. pose proof (par_mono _ _ Hs Hi1). lia.
  - assert (U : upd h p x = h) by (apply upd_self; lia).
    split; auto. split; auto. split; auto. rewrite U. split; auto.
  - lia.
Qed.

Lemma siftup_spec h p : 0 <= p < zlen h ->
  wp (siftup lt h p) (fun r => Permutation h r /\
    (strict_weak lt -> (forall i, p < par i -> i < zlen h -> edge h i) -> heap_from p r)).
Proof.
  intros Hp. unfold siftup. wpr d. set (x := zn h p). set (n := zlen h).
  apply (wp_conseq _ (fun r => let '(a, q) := r in desc p q /\ q < n /\ n <= 2 * q + 1 /\ zlen a = n /\
    Permutation h (upd a q x) /\
    (strict_weak lt -> (forall i, p < par i -> i < zlen h -> edge h i) ->
      forall i, p <= par i -> i < n -> i <> q -> par i <> q -> edge a i))).
  2:{ intros [a q] (Dq & Hq & Hl & L & P & H). pose proof (desc_le _ _ Dq). wps d. wps d.
      eapply wp_conseq. { apply (siftdown_spec (upd a q x) p q); auto; try rewrite zlen_upd; lia. }
      intros r (P2 & H2). cbv beta. split; [now rewrite P|]. intros W E. rewrite zlen_upd in H2. apply H2; auto.
      - intros i Hi1 Hi2 Hi3. pose proof (par_mono p i ltac:(lia) Hi1). pose proof (par_lt i ltac:(lia)).
        assert (NQ : par i <> q). { intros Eq. apply par_iff in Eq. lia. }
        specialize (H W E i Hi1 ltac:(lia) Hi3 NQ). unfold edge in *. rewrite !zn_upd by lia.
        replace (i =? q) with false by lia. replace (par i =? q) with false by lia. auto.
      - intros _ c Hc1 Hc2. exfalso. apply par_iff in Hc1. lia. }
  apply (wp_loop
    (fun '(a, q, c) => c = 2 * q + 1 /\ desc p q /\ q < n /\ zlen a = n /\ Permutation h (upd a q x) /\
     (strict_weak lt -> (forall i, p < par i -> i < zlen h -> edge h i) ->
      (forall i, p <= par i -> i < n -> i <> q -> par i <> q -> edge a i) /\
      (q <> p -> forall c, par c = q -> c < n -> lt (zn a c) (zn a (par q)) = false)))
    (fun '(a, q, c) => Z.to_nat (n - q))).
  - intros [[a q] c] (-> & Dq & Hq & L & P & H). pose proof (desc_le _ _ Dq). unfold siftup_body.
    wps d; zb.
    + (* choose the smaller child *)
      apply wp_bind.
      apply (wp_conseq _ (fun right : bool =>
        let c := if right then 2 * q + 1 + 1 else 2 * q + 1 in
        c < n /\ (strict_weak lt -> forall i, par i = q -> i < n -> i <> c -> lt (zn a i) (zn a c) = false))).
      { wps d; zb.
        - wpr d. destruct (lt (zn a (2 * q + 1)) (zn a (2 * q + 1 + 1))) eqn:El; cbn [negb]; cbv zeta; split; try lia;
            intros W i Hi1 Hi2 Hi3; apply par_iff in Hi1.
          + replace i with (2 * q + 1 + 1) by lia. now apply (sw_asym lt W).
          + replace i with (2 * q + 1) by lia. auto.
        - wpr d. cbv zeta. split; [lia|]. intros W i Hi1 Hi2 Hi3. apply par_iff in Hi1. lia. }
      intros right (Hc & Hmin). cbv zeta in *. set (c := if right then 2 * q + 1 + 1 else 2 * q + 1) in *.
      assert (Pc : par c = q) by (apply par_iff; unfold c; destruct right; lia). clearbody c. clear right.
      assert (Hqc : q < c) by (apply par_iff in Pc; lia).
      wpr d. split; [|lia]. split; auto. rewrite zlen_upd. split; [apply desc_step; [lia|now rewrite Pc]|].
      split; [lia|]. split; [lia|]. split. { rewrite P. symmetry. apply hole_move_perm; lia. }
      intros W E0. destruct (H W E0) as (E1 & E2). specialize (Hmin W).
      split.
      * intros i Hi1 Hi2 Hi3 Hi4. pose proof (par_mono p i ltac:(lia) Hi1). pose proof (par_lt i ltac:(lia)).
        unfold edge. rewrite !zn_upd by lia. destruct (Z.eqb_spec i q) as [->|Niq].
        -- replace (par q =? q) with false by lia. apply E2; auto. lia.
        -- destruct (Z.eqb_spec (par i) q) as [Ep|Np]; [apply Hmin; auto|]. apply E1; auto.
      * intros _ k Hk1 Hk2. assert (c < k) by (apply par_iff in Hk1; lia).
        rewrite Pc. rewrite !zn_upd by lia. rewrite Z.eqb_refl. replace (k =? q) with false by lia.
        specialize (E1 k). unfold edge in E1. rewrite Hk1 in E1. apply E1; lia.
    + wpr d. split; auto. split; auto. split; [lia|]. split; auto. split; auto. intros W E0. now destruct (H W E0).
  - assert (U : upd h p x = h) by (apply upd_self; lia). split; auto. split; [constructor|]. split; [unfold n; lia|].
    split; auto. rewrite U. split; auto. intros W E. split; [|lia]. intros i Hi1 Hi2 Hi3 Hi4. apply E; unfold n in *; lia.
  - unfold n. lia.
Qed.

Lemma heap_spec_iff (h : list A) : heap_from 0 h <-> is_heap lt h.
Proof.
  split.
  - intros H k c x y Hc Hx Hy. assert (c < length h)%nat by (apply nth_error_Some; congruence).
    specialize (H (Z.of_nat c)). unfold edge, Arr.zn in H.
    assert (P : par (Z.of_nat c) = Z.of_nat k) by (apply par_iff; lia). rewrite P, !Nat2Z.id in H.
    rewrite (nth_error_nth _ _ d Hx), (nth_error_nth _ _ d Hy) in H. apply H; [lia|unfold zlen; lia].
  - intros H i Hi1 Hi2. pose proof (par_mono 0 i ltac:(lia) Hi1). pose proof (par_lt i ltac:(lia)).
    assert (P : par i = par i) by auto. apply par_iff in P. unfold edge, Arr.zn, zlen in *.
    apply (H (Z.to_nat (par i)) (Z.to_nat i)); [lia|apply nth_error_nth'; lia|apply nth_error_nth'; lia].
Qed.

Lemma heap_root (W : strict_weak lt) (h : list A) : heap_from 0 h -> 0 < zlen h ->
  forall y, In y h -> lt y (zn h 0) = false.
Proof.
  intros H L y Hy. destruct (In_nth h y d Hy) as (k & Hk & <-).
  assert (G : forall j, 0 <= j -> j < zlen h -> lt (zn h j) (zn h 0) = false).
  { apply (Zlt_0_ind (fun j => j < zlen h -> lt (zn h j) (zn h 0) = false)). intros j IH Hj0 Hj.
    destruct (Z.eq_dec j 0) as [->|Hne]; [apply (sw_irrefl lt W)|]. pose proof (par_lt j ltac:(lia)).
    apply (sw_negtrans lt W) with (y := zn h (par j)); [apply H; lia|apply IH; lia]. }
  specialize (G (Z.of_nat k)). unfold Arr.zn in *. rewrite Nat2Z.id in G. apply G; unfold zlen; lia.
Qed.

Lemma zn_app1 (h : list A) x i : 0 <= i < zlen h -> zn (h ++ [x]) i = zn h i.
Proof. intros H. unfold Arr.zn, zlen in *. apply app_nth1. lia. Qed.
Lemma zlen_app1 (h : list A) x : zlen (h ++ [x]) = zlen h + 1.
Proof. unfold zlen. rewrite app_length. simpl. lia. Qed.

Lemma heappush_spec h x : wp (heappush lt h x) (fun r => Permutation (x :: h) r /\
  (strict_weak lt -> heap_from 0 h -> heap_from 0 r)).
Proof.
  unfold heappush. cbv zeta. rewrite zlen_app1. pose proof (zlen_nonneg h).
  eapply wp_conseq. { apply (siftdown_spec (h ++ [x]) 0 (zlen h + 1 - 1)); [lia|apply desc_zero; lia|rewrite zlen_app1; lia]. }
  intros r (P & H1). cbv beta. split. { rewrite <- P. apply Permutation_cons_append. }
  intros W HH. rewrite zlen_app1 in H1. apply H1; auto.
  - intros i Hi1 Hi2 Hi3. pose proof (par_mono 0 i ltac:(lia) Hi1). pose proof (par_lt i ltac:(lia)).
    unfold edge. rewrite !zn_app1 by lia. apply HH; lia.
  - intros _ c Hc1 Hc2. exfalso. apply par_iff in Hc1. lia.
Qed.

Lemma set_root_spec h x : 0 < zlen h ->
  wp (siftup lt (upd h 0 x) 0) (fun r => Permutation (zn h 0 :: r) (x :: h) /\
    (strict_weak lt -> heap_from 0 h -> heap_from 0 r)).
Proof.
  intros L. eapply wp_conseq. { apply siftup_spec. rewrite zlen_upd. lia. }
  intros r (P & H). cbv beta. split. { rewrite <- P. apply upd_perm_cons. lia. }
  intros W HH. apply H; auto. intros i Hi1 Hi2. rewrite zlen_upd in Hi2. pose proof (par_mono 0 i ltac:(lia) ltac:(lia)).
  unfold edge. rewrite !zn_upd by lia. replace (i =? 0) with false by lia. replace (par i =? 0) with false by lia. apply HH; lia.
Qed.

Lemma heapreplace_spec h x : 0 < zlen h ->
  wp (heapreplace lt h x) (fun '(m, r) => m = zn h 0 /\ Permutation (m :: r) (x :: h) /\
    (strict_weak lt -> heap_from 0 h -> heap_from 0 r)).
Proof.
  intros L. unfold heapreplace. replace (zlen h =? 0) with false by lia. wpr d.
  eapply wp_conseq; [apply set_root_spec; auto|]. intros r (P & H). cbv beta. apply wp_ok. auto.
Qed.

Lemma heappop_spec h : 0 < zlen h ->
  wp (heappop lt h) (fun '(m, r) => m = zn h 0 /\ Permutation (m :: r) h /\
    (strict_weak lt -> heap_from 0 h -> heap_from 0 r)).
Proof.
  intros L. unfold heappop. replace (zlen h =? 0) with false by lia.
  destruct (exists_last (l := h)) as (t & x & ->); [intros ->; change (zlen (@nil A)) with 0 in L; lia|].
  rewrite zlen_app1 in *. pose proof (zlen_nonneg t).
  rewrite (aget_ok d) by (rewrite zlen_app1; lia). cbn [bind]. rewrite removelast_last.
  assert (Ex : zn (t ++ [x]) (zlen t + 1 - 1) = x).
  { unfold Arr.zn, zlen. rewrite app_nth2 by lia. replace (_ - _)%nat with 0%nat by lia. reflexivity. }
  rewrite Ex. destruct (Z.eqb_spec (zlen t) 0) as [Z0|Z0]; cbn [negb].
  - apply wp_ok. destruct t; [|unfold zlen in Z0; simpl in Z0; lia]. simpl. split; auto. split; auto.
    intros _ _ i Hi1 Hi2. change (zlen (@nil A)) with 0 in Hi2. pose proof (par_mono 0 i ltac:(lia) Hi1). lia.
  - wpr d. eapply wp_conseq; [apply set_root_spec; lia|]. intros r (P & H'). cbv beta. apply wp_ok.
    split. { rewrite zn_app1 by lia. auto. }
    split. { rewrite P. apply Permutation_cons_append. }
    intros W HH. apply H'; auto. intros i Hi1 Hi2. pose proof (par_mono 0 i ltac:(lia) Hi1). pose proof (par_lt i ltac:(lia)).
    specialize (HH i Hi1 ltac:(rewrite zlen_app1; lia)). unfold edge in *. rewrite !zn_app1 in HH by lia. auto.
Qed.

Lemma heapify_loop_spec n : forall h, 2 * Z.of_nat n <= zlen h ->
  wp (heapify_loop lt n h) (fun r => Permutation h r /\
    (strict_weak lt -> (forall i, Z.of_nat n <= par i -> i < zlen h -> edge h i) -> heap_from 0 r)).
Proof.
  induction n as [|n IH]; intros h L; cbn [heapify_loop].
  - apply wp_ok. split; auto.
  - apply wp_bind. eapply wp_conseq. { apply (siftup_spec h (Z.of_nat n)). lia. }
    intros h1 (P1 & H1). cbv beta.
    pose proof (perm_zlen _ _ P1) as L1. eapply wp_conseq. { apply IH. rewrite L1. lia. }
    intros r (P & H). cbv beta. split; [now rewrite P1|]. intros W E. apply H; auto.
    apply H1; auto. intros i Hi1 Hi2. apply E; lia.
Qed.

Lemma heapify_spec h : wp (heapify lt h) (fun r => Permutation h r /\ (strict_weak lt -> heap_from 0 r)).
Proof.
  unfold heapify. pose proof (zlen_nonneg h). pose proof (Z.div_mod (zlen h) 2). pose proof (Z.mod_pos_bound (zlen h) 2).
  eapply wp_conseq. { apply heapify_loop_spec. rewrite Z2Nat.id by lia. lia. }
  intros r (P & H'). cbv beta. split; auto. intros W. apply H'; auto.
  intros i Hi1 Hi2. exfalso. rewrite Z2Nat.id in Hi1 by lia. unfold par in Hi1.
  pose proof (Z.div_mod (i-1) 2). pose proof (Z.mod_pos_bound (i-1) 2). lia.
Qed.
End Heap.
