(** The runtime's algorithms meet the contracts, for every number of threads, every
    chunk size and every interleaving of requests. *)
From Coq Require Import ZArith List Bool Lia Permutation.
From Verif.Common Require Import Result Int64.
From Verif.List Require Import SliceSpec.
From Verif.Par Require Import LoopSpec LoopModel Loop LoopTeam.
Import ListNotations.
Local Open Scope Z_scope.

Lemma concat_segs (c : Z -> Z) T : 0 <= T -> (forall t, 0 <= t < T -> c t <= c (t + 1)) ->
  concat (map (fun t => seg (c t) (c (t + 1))) (seg 0 T)) = seg (c 0) (c T) /\ c 0 <= c T.
Proof.
  intros HT. remember (Z.to_nat T) as k eqn:E. revert T HT E.
  induction k as [|k IH]; intros T HT E Hc.
  - assert (T = 0) by lia. subst. rewrite (seg_nil 0 0) by lia. simpl.
    split; [now rewrite seg_nil by lia|lia].
  - destruct (IH (T - 1)) as [H1 H2]; try lia. { intros. apply Hc. lia. }
    specialize (Hc (T - 1) ltac:(lia)). replace (T - 1 + 1) with T in Hc by lia.
    rewrite (seg_last 0 T) by lia. rewrite map_app, concat_app, H1. simpl.
    replace (T - 1 + 1) with T by lia. rewrite app_nil_r.
    split; [symmetry; apply seg_app|]; lia.
Qed.

Lemma partition_perm {A} (own : A -> Z) xs T :
  (forall x, In x xs -> 0 <= own x < T) ->
  Permutation (concat (map (fun t => filter (fun x => own x =? t) xs) (seg 0 T))) xs.
Proof.
  induction xs as [|x xs IH]; intros H.
  - assert (Z : forall ts : list Z, concat (map (fun t => filter (fun x : A => own x =? t) []) ts) = [])
      by (induction ts; simpl; auto).
    rewrite Z. constructor.
  - specialize (IH (fun y Hy => H y (or_intror Hy))).
    pose proof (H x (or_introl eq_refl)) as Hx. set (o := own x) in *.
    rewrite (seg_app 0 o T), (seg_cons o T) in * by lia.
    rewrite map_app, concat_app in *. cbn [map concat] in *.
    assert (E : forall a b, ~ a <= o < b ->
      map (fun t => filter (fun x => own x =? t) (x :: xs)) (seg a b) =
      map (fun t => filter (fun x => own x =? t) xs) (seg a b)).
    { intros a b Hab. apply map_ext_in. intros t Ht. rewrite seg_in in Ht. simpl.
      fold o. replace (o =? t) with false by lia. reflexivity. }
    rewrite !E by lia. simpl. fold o. rewrite Z.eqb_refl. simpl.
    symmetry. apply Permutation_cons_app. symmetry. exact IH.
Qed.

Lemma part_segs (ps : Z -> part) (c : Z -> Z) ts :
  (forall t, In t ts -> part_indices (ps t) = seg (c t) (c (t + 1))) ->
  map part_indices (map ps ts) = map (fun t => seg (c t) (c (t + 1))) ts.
Proof. intros H. rewrite map_map. apply map_ext_in. exact H. Qed.

Lemma kmp_static_contract nth n : 0 < nth -> 0 <= n ->
  static_contract n (map (fun t => kmp_static nth t 1 (n - 1)) (seg 0 nth)).
Proof.
  intros Ht Hn.
  assert (C : exists c, c 0 = 0 /\ c nth = n /\
    forall t, 0 <= t < nth -> c t <= c (t + 1) /\
      part_indices (kmp_static nth t 1 (n - 1)) = seg (c t) (c (t + 1)) /\
      let p := kmp_static nth t 1 (n - 1) in
      0 <= p_lower p <= p_upper p + 1 /\ p_upper p + 1 <= n /\
      (p_last p = true <-> In (n - 1) (part_indices p))).
  { destruct (Z.eq_dec n 0) as [->|Hn0].
    - exists (fun _ => 0). do 2 (split; [reflexivity|]). intros t T. split; [lia|].
      unfold kmp_static, part_indices. change (0 - 1 + 1 <=? 0) with true.
      cbn [p_lower p_upper p_last]. split; [reflexivity|].
      do 2 (split; [lia|]). rewrite seg_in. split; [discriminate|intros; lia].
    - destruct (Z.ltb_spec n nth) as [Hlt|Hge].
      + exists (fun t => Z.min t n). do 2 (split; [lia|]). intros t T. split; [lia|].
        unfold kmp_static. replace (n - 1 + 1 <=? 0) with false by lia.
        replace (n - 1 + 1 <? nth) with true by lia.
        unfold part_indices. destruct (Z.ltb_spec t (n - 1 + 1)); cbn [p_lower p_upper p_last].
        * split; [f_equal; lia|]. do 2 (split; [lia|]). rewrite seg_in. lia.
        * split; [f_equal; lia|]. do 2 (split; [lia|]). rewrite seg_in. lia.
      + pose proof (Z.div_mod n nth ltac:(lia)) as DM.
        pose proof (Z.mod_pos_bound n nth ltac:(lia)) as MB.
        set (q := n / nth) in *. set (e := n mod nth) in *.
        assert (1 <= q) by nia.
        exists (fun t => t * q + Z.min t e). split; [lia|]. split; [nia|]. intros t T.
        split; [nia|].
        assert (E : kmp_static nth t 1 (n - 1) =
          Part (t =? nth - 1) (t * q + Z.min t e) ((t + 1) * q + Z.min (t + 1) e - 1) n).
        { unfold kmp_static. replace (n - 1 + 1) with n by lia. fold q e.
          replace (n <=? 0) with false by lia. replace (n <? nth) with false by lia.
          destruct (Z.ltb_spec t e); f_equal; lia. }
        rewrite E. unfold part_indices. cbn [p_lower p_upper p_last].
        split; [f_equal; lia|].
        assert (t * q + Z.min t e <= (t + 1) * q + Z.min (t + 1) e <= nth * q + e) by nia.
        split; [nia|]. split; [nia|]. rewrite seg_in. split; intros X.
        * assert (t = nth - 1) by lia. subst t. split; [|nia].
          assert ((nth - 1) * q + Z.min (nth - 1) e <= n - 1) by nia. lia.
        * destruct (Z.eqb_spec t (nth - 1)); auto. exfalso.
          assert ((t + 1) * q + Z.min (t + 1) e <= (nth - 1) * q + Z.min (nth - 1) e) by nia.
          assert ((nth - 1) * q + Z.min (nth - 1) e <= n - 1) by nia. lia. }
  destruct C as (c & C0 & CT & C). split.
  - apply Forall_forall. intros p Hp. apply in_map_iff in Hp as (t & <- & Hx).
    rewrite seg_in in Hx. apply C. lia.
  - rewrite (part_segs _ c).
    + destruct (concat_segs c nth) as [-> _]; try lia. { intros. now apply C. }
      now rewrite C0, CT.
    + intros t Hx. rewrite seg_in in Hx. apply C. lia.
Qed.

(** Number of chunks. *)
Lemma nchunks_spec n c : 0 < n -> 0 < c ->
  let K := n / c + (if n mod c =? 0 then 0 else 1) in
  0 < K /\ (K - 1) * c < n <= K * c /\ (n - 1) / c = K - 1.
Proof.
  intros Hn Hc K. pose proof (Z.div_mod n c ltac:(lia)) as DM.
  pose proof (Z.mod_pos_bound n c ltac:(lia)) as MB.
  assert (B : (K - 1) * c < n <= K * c).
  { unfold K. destruct (Z.eqb_spec (n mod c) 0); nia. }
  split; [nia|]. split; [exact B|].
  symmetry. apply Z.div_unique with (r := n - 1 - c * (K - 1)); lia.
Qed.

Lemma cyclic_owner c T t x : 0 < c -> 0 <= t < T -> 0 <= x ->
  ((c * t <=? x) && ((x - c * t) mod (c * T) <=? c - 1)) = ((x / c) mod T =? t).
Proof.
  intros Hc Ht Hx.
  pose proof (Z.div_mod x c ltac:(lia)) as D1. pose proof (Z.mod_pos_bound x c ltac:(lia)) as B1.
  pose proof (Z.div_mod (x / c) T ltac:(lia)) as D2.
  pose proof (Z.mod_pos_bound (x / c) T ltac:(lia)) as B2.
  assert (0 <= x / c) by (apply Z.div_pos; lia).
  assert (A0 : 0 <= x / c / T) by (apply Z.div_pos; lia).
  set (a := x / c / T) in *. set (b := (x / c) mod T) in *. set (d := x mod c) in *.
  assert (E : x - c * t = (c * (b - t) + d) + a * (c * T)).
  { transitivity (c * (x / c) + d - c * t); [lia|]. rewrite D2. ring. }
  assert (NN : 0 <= a * (c * T)) by (apply Z.mul_nonneg_nonneg; nia).
  rewrite E, Z_mod_plus_full.
  destruct (Z.lt_trichotomy b t) as [Hb|[Hb|Hb]].
  - replace (b =? t) with false by lia.
    replace (c * (b - t) + d) with (c * (b - t + T) + d + (-1) * (c * T)) by ring.
    rewrite Z_mod_plus_full, Z.mod_small by nia.
    apply andb_false_iff. right. apply Z.leb_gt. nia.
  - replace (b =? t) with true by lia. subst t. rewrite Z.sub_diag, Z.mul_0_r, Z.add_0_l.
    rewrite Z.mod_small by nia. apply andb_true_iff. split; [apply Z.leb_le; lia|lia].
  - replace (b =? t) with false by lia.
    rewrite Z.mod_small by nia.
    apply andb_false_iff. right. apply Z.leb_gt. nia.
Qed.

Lemma concat_nil {A B} (f : A -> list B) l : (forall x, In x l -> f x = []) -> concat (map f l) = [].
Proof.
  induction l as [|x l IH]; intros H; simpl; auto. rewrite H by now left. simpl. apply IH.
  intros. apply H. now right.
Qed.

Lemma kmp_chunked_contract nth n chunk : 0 < nth -> 0 <= n ->
  chunked_contract n (map (fun t => kmp_chunked nth t chunk (n - 1)) (seg 0 nth)).
Proof.
  intros Ht Hn. destruct (Z.eq_dec n 0) as [->|Hn0].
  - split.
    + apply Forall_forall. intros p Hp. apply in_map_iff in Hp as (t & <- & Hx).
      unfold kmp_chunked. change (0 - 1 + 1 <=? 0) with true. cbn [p_lower p_upper p_stride p_last].
      do 4 (split; [lia|]). split; [discriminate|].
      unfold cyclic_indices. rewrite seg_nil by lia. simpl. tauto.
    + rewrite map_map, concat_nil; [now rewrite seg_nil by lia|].
      intros t _. unfold cyclic_indices. now rewrite (seg_nil 0 0) by lia.
  - set (c := if chunk <? 1 then 1 else if n <? chunk then n else chunk).
    assert (Hc : 1 <= c <= n).
    { unfold c. destruct (Z.ltb_spec chunk 1); [lia|]. destruct (Z.ltb_spec n chunk); lia. }
    set (K := n / c + (if n mod c =? 0 then 0 else 1)).
    destruct (nchunks_spec n c ltac:(lia) ltac:(lia)) as (HK & HB & HQ). fold K in HK, HB, HQ.
    set (T := Z.min nth K).
    assert (LQ : (K - 1) mod nth = (K - 1) mod T).
    { unfold T. destruct (Z.le_gt_cases nth K).
      - now rewrite Z.min_l by lia.
      - rewrite Z.min_r by lia. rewrite !Z.mod_small by lia. reflexivity. }
    assert (E : forall t, 0 <= t < nth -> kmp_chunked nth t chunk (n - 1) =
      if t <? T then Part (t =? (K - 1) mod T) (c * t) (c * t + c - 1) (c * T)
      else Part (t =? (K - 1) mod T) n (n - 1) (c * T)).
    { intros t T'. unfold kmp_chunked. replace (n - 1 + 1) with n by lia.
      replace (n <=? 0) with false by lia. fold c. fold K. rewrite <- LQ. unfold T.
      destruct (Z.ltb_spec K nth).
      - rewrite Z.min_r by lia. reflexivity.
      - rewrite Z.min_l by lia. replace (t <? nth) with true by lia. reflexivity. }
    assert (C : forall t, 0 <= t < nth -> cyclic_indices n (kmp_chunked nth t chunk (n - 1)) =
      filter (fun x => (x / c) mod T =? t) (seg 0 n)).
    { intros t T'. rewrite E by lia. unfold cyclic_indices. destruct (Z.ltb_spec t T).
      - cbn [p_lower p_upper p_stride]. apply filter_ext_in. intros x Hx. rewrite seg_in in Hx.
        replace (c * t + c - 1 - c * t) with (c - 1) by lia. apply cyclic_owner; lia.
      - cbn [p_lower p_upper p_stride]. rewrite !filter_none; auto; intros x Hx; rewrite seg_in in Hx.
        + pose proof (Z.mod_pos_bound (x / c) T ltac:(lia)). lia.
        + lia. }
    assert (HM : 0 <= (K - 1) mod T < T) by (apply Z.mod_pos_bound; lia).
    split.
    + apply Forall_forall. intros p Hp. apply in_map_iff in Hp as (t & <- & Hx).
      rewrite seg_in in Hx. rewrite C by lia. rewrite filter_In, seg_in, HQ.
      rewrite E by lia. destruct (Z.ltb_spec t T); cbn [p_lower p_upper p_stride p_last].
      * do 4 (split; [nia|]). lia.
      * do 4 (split; [nia|]). lia.
    + rewrite map_map.
      rewrite (map_ext_in _ (fun t => filter (fun x => (x / c) mod T =? t) (seg 0 n))).
      2:{ intros t Hx. rewrite seg_in in Hx. apply C. lia. }
      apply partition_perm. intros x Hx.
      pose proof (Z.mod_pos_bound (x / c) T ltac:(lia)). lia.
Qed.

Lemma flat_map_perm {A B} (f : A -> list B) l l' :
  Permutation l l' -> Permutation (concat (map f l)) (concat (map f l')).
Proof.
  induction 1; simpl; auto.
  - now apply Permutation_app_head.
  - rewrite !app_assoc. apply Permutation_app_tail. apply Permutation_app_comm.
  - eapply Permutation_trans; eassumption.
Qed.

Lemma seq_seg K : 0 <= K -> map Z.of_nat (seq 0 (Z.to_nat K)) = seg 0 K.
Proof.
  intros H. unfold seg, progression. replace (K - 0) with K by lia.
  apply map_ext. intros x. lia.
Qed.

Lemma kmp_dynamic_contract nth n chunk who : 0 < nth -> 0 <= n ->
  (forall j, 0 <= who j < nth) ->
  dynamic_contract n (map (fun t => kmp_dynamic who t chunk (n - 1)) (seg 0 nth)).
Proof.
  intros Ht Hn Hw. set (c := Z.max 1 chunk).
  set (K := n / c + (if n mod c =? 0 then 0 else 1)).
  assert (HK : 0 <= K /\ n <= K * c /\ (0 < n -> (K - 1) * c < n) /\ (n = 0 -> K = 0)).
  { destruct (Z.eq_dec n 0) as [->|].
    - assert (K = 0). { unfold K. rewrite Z.div_0_l, Z.mod_0_l by lia. reflexivity. } lia.
    - destruct (nchunks_spec n c ltac:(lia) ltac:(lia)) as (H1 & H2 & _). fold K in H1, H2. lia. }
  set (P := fun j : nat => let lo := Z.of_nat j * c in let hi := Z.min (lo + c - 1) (n - 1) in
                Part (hi =? n - 1) lo hi 1).
  assert (E : forall t, kmp_dynamic who t chunk (n - 1) =
    map P (filter (fun j => who j =? t) (seq 0 (Z.to_nat K)))).
  { intros t. unfold kmp_dynamic. replace (n - 1 + 1) with n by lia. reflexivity. }
  split.
  - apply Forall_forall. intros ps Hp. apply in_map_iff in Hp as (t & <- & _).
    rewrite E. apply Forall_forall. intros p Hp. apply in_map_iff in Hp as (j & <- & Hj).
    apply filter_In in Hj as [Hj _]. apply in_seq in Hj. unfold P, part_indices.
    cbn [p_lower p_upper p_last]. rewrite seg_in.
    assert (Z.of_nat j * c <= (K - 1) * c) by nia.
    destruct (Z.eq_dec n 0); [lia|].
    assert (Z.of_nat j * c < n) by lia.
    split; [lia|]. split; [lia|]. lia.
  - rewrite map_map.
    rewrite (map_ext _ (fun t => concat (map (fun j => part_indices (P j))
       (filter (fun j => who j =? t) (seq 0 (Z.to_nat K)))))).
    2:{ intros t. now rewrite E, map_map. }
    assert (F : forall ts, concat (map (fun t => concat (map (fun j => part_indices (P j))
        (filter (fun j => who j =? t) (seq 0 (Z.to_nat K))))) ts) =
      concat (map (fun j => part_indices (P j)) (concat (map (fun t =>
        filter (fun j => who j =? t) (seq 0 (Z.to_nat K))) ts)))).
    { induction ts as [|t ts IH]; simpl; auto. now rewrite map_app, concat_app, IH. }
    rewrite F. rewrite (flat_map_perm _ _ _ (partition_perm who _ nth (fun x _ => Hw x))).
    rewrite (map_ext _ (fun j => seg (Z.min (Z.of_nat j * c) n) (Z.min ((Z.of_nat j + 1) * c) n))).
    2:{ intros j. unfold P, part_indices. cbn [p_lower p_upper].
        destruct (Z.le_gt_cases (Z.of_nat j * c) n); [f_equal; lia|]. rewrite !seg_nil by lia. reflexivity. }
    rewrite <- (map_map Z.of_nat (fun j => seg (Z.min (j * c) n) (Z.min ((j + 1) * c) n))).
    rewrite seq_seg by lia.
    destruct (concat_segs (fun j => Z.min (j * c) n) K) as [H1 _]; try lia.
    rewrite H1. replace (Z.min (0 * c) n) with 0 by lia. replace (Z.min (K * c) n) with n by lia.
    reflexivity.
Qed.
