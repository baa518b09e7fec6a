(** Proofs about the sorted list: an invariant and what each operation does to the contents. *)
From Coq Require Import List ZArith Lia Bool Permutation Sorted ZifyBool.
From Verif.Common Require Import Result Int64 Arr Ord Stable Tac.
From Verif.Heap Require Import Model BisectProofs Properties SortedListModel.
Import ListNotations.
Local Open Scope Z_scope.

(** ** Sequence operations at a known split *)
Section Seq.
Context {B : Type}.
Lemma zlen_app (a b : list B) : zlen (a ++ b) = zlen a + zlen b.
Proof. unfold zlen. rewrite app_length. lia. Qed.
Lemma zlen_cons (x : B) a : zlen (x :: a) = 1 + zlen a.
Proof. unfold zlen. cbn [length]. lia. Qed.
Lemma to_nat_zlen (a : list B) : Z.to_nat (zlen a) = length a.
Proof. unfold zlen. lia. Qed.
Lemma lget_at (a : list B) x b : lget (a ++ x :: b) (zlen a) = Ok x.
Proof.
  unfold lget. pose proof (zlen_nonneg a). pose proof (zlen_nonneg b).
  replace (zlen a <? 0) with false by lia. rewrite zlen_app, zlen_cons.
  replace ((zlen a <? 0) || (zlen a + (1 + zlen b) <=? zlen a)) with false by lia.
  unfold aget. replace (zlen a <? 0) with false by lia. rewrite to_nat_zlen, nth_error_app2, Nat.sub_diag by lia. reflexivity.
Qed.
Lemma lget_last (a : list B) x : lget (a ++ [x]) (-1) = Ok x.
Proof.
  unfold lget. pose proof (zlen_nonneg a). rewrite zlen_app. change (zlen [x]) with 1.
  replace (-1 <? 0) with true by lia. replace (-1 + (zlen a + 1)) with (zlen a) by lia.
  replace ((zlen a <? 0) || (zlen a + 1 <=? zlen a)) with false by lia.
  unfold aget. replace (zlen a <? 0) with false by lia. rewrite to_nat_zlen, nth_error_app2, Nat.sub_diag by lia. reflexivity.
Qed.
Lemma lset_at (a : list B) x b y : lset (a ++ x :: b) (zlen a) y = Ok (a ++ y :: b).
Proof.
  unfold lset. pose proof (zlen_nonneg a). pose proof (zlen_nonneg b).
  replace (zlen a <? 0) with false by lia. rewrite zlen_app, zlen_cons.
  replace ((zlen a <? 0) || (zlen a + (1 + zlen b) <=? zlen a)) with false by lia.
  rewrite aset_ok by (rewrite zlen_app, zlen_cons; lia). f_equal. unfold upd. rewrite to_nat_zlen.
  rewrite upd_nat_split by (rewrite app_length; cbn [length]; lia).
  rewrite firstn_app, firstn_all, Nat.sub_diag. cbn [firstn]. rewrite app_nil_r. f_equal. f_equal.
  rewrite skipn_app. rewrite skipn_all2 by lia. replace (S (length a) - length a)%nat with 1%nat by lia. reflexivity.
Qed.
Lemma ldel_at (a : list B) x b : ldel (a ++ x :: b) (zlen a) = Ok (a ++ b).
Proof.
  unfold ldel. pose proof (zlen_nonneg a). pose proof (zlen_nonneg b).
  replace (zlen a <? 0) with false by lia. rewrite zlen_app, zlen_cons.
  replace ((zlen a <? 0) || (zlen a + (1 + zlen b) <=? zlen a)) with false by lia. rewrite to_nat_zlen.
  rewrite firstn_app, firstn_all, Nat.sub_diag. cbn [firstn]. rewrite app_nil_r. f_equal. f_equal.
  rewrite skipn_app. rewrite skipn_all2 by lia. replace (S (length a) - length a)%nat with 1%nat by lia. reflexivity.
Qed.
Lemma lget_hd (x : B) b : lget (x :: b) 0 = Ok x.
Proof. exact (lget_at [] x b). Qed.
Lemma lset_hd (x : B) b y : lset (x :: b) 0 y = Ok (y :: b).
Proof. exact (lset_at [] x b y). Qed.
Lemma ldel_hd (x : B) b : ldel (x :: b) 0 = Ok b.
Proof. exact (ldel_at [] x b). Qed.
Lemma lget_snd (x y : B) b : lget (x :: y :: b) 1 = Ok y.
Proof. exact (lget_at [x] y b). Qed.
Lemma ldel_snd (x y : B) b : ldel (x :: y :: b) 1 = Ok (x :: b).
Proof. exact (ldel_at [x] y b). Qed.
Lemma insert_after (a : list B) x b y : insert_at (a ++ x :: b) (zlen a + 1) y = a ++ x :: y :: b.
Proof.
  unfold insert_at. cbv zeta. pose proof (zlen_nonneg a). pose proof (zlen_nonneg b). rewrite zlen_app, zlen_cons.
  replace (zlen a + 1 <? 0) with false by lia. replace (zlen a + (1 + zlen b) <? zlen a + 1) with false by lia.
  replace (Z.to_nat (zlen a + 1)) with (length a + 1)%nat by (unfold zlen; lia).
  rewrite firstn_app_2, skipn_app, (skipn_all2 a) by lia. replace (length a + 1 - length a)%nat with 1%nat by lia.
  cbn. rewrite <- app_assoc. reflexivity.
Qed.
Lemma split_at (l : list B) i : 0 <= i < zlen l -> exists a x b, l = a ++ x :: b /\ zlen a = i.
Proof.
  intros H. unfold zlen in H. destruct (nth_error l (Z.to_nat i)) as [x|] eqn:E.
  - apply nth_error_split in E. destruct E as (a & b & -> & E). exists a, x, b. split; auto. unfold zlen. lia.
  - apply nth_error_None in E. lia.
Qed.
Lemma last_of (l : list B) : l <> [] -> exists p m, l = p ++ [m].
Proof. intros N. destruct (exists_last N) as (p & m & ->). eauto. Qed.
End Seq.

Section Inv.
Context {A : Type} (lt : A -> A -> bool) (W : strict_weak lt).
Notation slist := (slist A).

Lemma Forall2_len {X Y} (R : X -> Y -> Prop) a b : Forall2 R a b -> length a = length b.
Proof. induction 1; cbn; auto. Qed.
Definition has_max (l : list A) (m : A) : Prop := exists p, l = p ++ [m].

(** The maxima are the last elements of the sublists (which are therefore not empty), the
    concatenation is sorted, and no sublist is longer than twice the load factor. *)
Record Inv (s : slist) : Prop := {
  iv_load : 1 <= sl_load s;
  iv_max : Forall2 has_max (sl_lists s) (sl_maxes s);
  iv_sorted : sorted_by lt (concat (sl_lists s));
  iv_len : sl_len s = zlen (concat (sl_lists s));
  iv_size : Forall (fun l => zlen l <= 2 * sl_load s) (sl_lists s) }.

Lemma Forall2_split {X Y} (R : X -> Y -> Prop) a x b ys : Forall2 R (a ++ x :: b) ys ->
  exists a' x' b', ys = a' ++ x' :: b' /\ zlen a' = zlen a /\ Forall2 R a a' /\ R x x' /\ Forall2 R b b'.
Proof.
  intros H. apply Forall2_app_inv_l in H. destruct H as (a' & l' & H1 & H2 & ->).
  inversion H2; subst. do 3 eexists. split; eauto. split; auto. apply Forall2_len in H1. unfold zlen. lia.
Qed.
Lemma has_max_zlen l m : has_max l m -> 1 <= zlen l.
Proof. intros (p & ->). rewrite zlen_app. change (zlen [m]) with 1. pose proof (zlen_nonneg p). lia. Qed.

(** [_expand] keeps the contents, and the invariant if only this sublist may be too long. *)
Lemma expand_ok len load L1 l L2 M1 m M2 :
  1 <= load -> zlen M1 = zlen L1 ->
  Forall2 has_max L1 M1 -> has_max l m -> Forall2 has_max L2 M2 ->
  zlen l <= 3 * load ->
  Forall (fun l => zlen l <= 2 * load) L1 -> Forall (fun l => zlen l <= 2 * load) L2 ->
  exists s', sl_expand (mk_slist len load (L1 ++ l :: L2) (M1 ++ m :: M2)) (zlen L1) = Ok s' /\
    concat (sl_lists s') = concat (L1 ++ l :: L2) /\ sl_len s' = len /\ sl_load s' = load /\
    Forall2 has_max (sl_lists s') (sl_maxes s') /\ Forall (fun l => zlen l <= 2 * load) (sl_lists s').
Proof.
  intros HL EM F1 Hm F2 B B1 B2. unfold sl_expand. cbn [sl_lists sl_load sl_maxes sl_len]. rewrite lget_at. cbn [bind].
  destruct (zlen l >? 2 * load) eqn:E.
  - set (k := Z.to_nat load). assert (Ek : Z.of_nat k = load) by (unfold k; lia).
    unfold slice_from, del_from. fold k. rewrite lset_at. cbn [bind].
    assert (N1 : firstn k l <> []). { intros N. apply (f_equal (@length A)) in N. rewrite firstn_length in N. cbn in N. unfold zlen in E. lia. }
    assert (N2 : skipn k l <> []). { intros N. apply (f_equal (@length A)) in N. rewrite skipn_length in N. cbn in N. unfold zlen in E. lia. }
    destruct (last_of _ N1) as (p1 & m1 & E1). destruct (last_of _ N2) as (p2 & m2 & E2).
    assert (S1 : zlen (firstn k l) <= 2 * load) by (unfold zlen in *; rewrite firstn_length; lia).
    assert (S2 : zlen (skipn k l) <= 2 * load) by (unfold zlen in *; rewrite skipn_length; lia).
    replace (lget (firstn k l) (-1)) with (Ok m1) by (rewrite E1, lget_last; reflexivity). cbn [bind].
    rewrite <- EM, lset_at. cbn [bind].
    replace (lget (skipn k l) (-1)) with (Ok m2) by (rewrite E2, lget_last; reflexivity). cbn [bind].
    rewrite EM, insert_after. rewrite <- EM, insert_after.
    eexists. split; [reflexivity|]. cbn [sl_lists sl_maxes sl_len sl_load].
    split; [|split; [|split; [|split]]]; auto.
    + rewrite !concat_app. cbn [concat]. rewrite (app_assoc (firstn k l)), firstn_skipn. reflexivity.
    + apply Forall2_app; auto. constructor; [exists p1; auto|]. constructor; [exists p2; auto|auto].
    + apply Forall_app. split; auto.
  - eexists. split; [reflexivity|]. cbn [sl_lists sl_maxes sl_len sl_load].
    split; [|split; [|split; [|split]]]; auto.
    + apply Forall2_app; auto.
    + apply Forall_app. split; auto. constructor; auto. lia.
Qed.

Lemma sorted_app (a b : list A) : sorted_by lt (a ++ b) <->
  sorted_by lt a /\ sorted_by lt b /\ (forall x y, In x a -> In y b -> lt y x = false).
Proof.
  unfold sorted_by. induction a as [|x a IH]; cbn [app].
  - split; [intros H; repeat split; auto; [constructor|intros ? ? []]|tauto].
  - split.
    + intros H. inversion H as [|? ? H1 H2]; subst. apply IH in H1. destruct H1 as (H3 & H4 & H5).
      rewrite Forall_app in H2. destruct H2 as [H2 H2']. split; [constructor; auto|]. split; auto.
      intros u v [<-|Hu] Hv; auto. rewrite Forall_forall in H2'. auto.
    + intros (H1 & H2 & H3). inversion H1; subst. constructor.
      * apply IH. repeat split; auto. intros u v Hu Hv. apply H3; auto. now right.
      * apply Forall_app. split; auto. apply Forall_forall. intros v Hv. apply H3; auto. now left.
Qed.

Lemma In_concat_max L M : Forall2 has_max L M -> sorted_by lt (concat L) ->
  forall x, In x (concat L) -> exists m, In m M /\ lt m x = false.
Proof.
  induction 1 as [|l m L M H H' IH]; intros S x Hx; [destruct Hx|].
  cbn [concat] in *. apply sorted_app in S. destruct S as (S1 & S2 & S3). apply in_app_or in Hx. destruct Hx as [Hx|Hx].
  - exists m. split; [now left|]. destruct H as (p & ->). apply in_app_or in Hx.
    destruct Hx as [Hx|[<-|[]]]; [|apply (sw_irrefl lt W)].
    apply sorted_app in S1. destruct S1 as (_ & _ & S4). apply S4; auto. now left.
  - destruct (IH S2 x Hx) as (m' & H1 & H2). exists m'. split; auto. now right.
Qed.
Lemma In_max_concat L M : Forall2 has_max L M -> forall m, In m M -> In m (concat L).
Proof.
  induction 1 as [|l m L M (p & ->) H' IH]; intros x; [intros []|].
  cbn [concat]. intros [<-|Hx]; apply in_or_app; [left; apply in_or_app; right; now left|right; auto].
Qed.
Lemma maxes_sorted L M : Forall2 has_max L M -> sorted_by lt (concat L) -> sorted_by lt M.
Proof.
  induction 1 as [|l m L M H H' IH]; intros S; [constructor|]. cbn [concat] in S.
  apply sorted_app in S. destruct S as (S1 & S2 & S3). constructor; [apply IH; auto|].
  apply Forall_forall. intros y Hy. apply S3; [destruct H as (p & ->); apply in_or_app; right; now left|].
  eapply In_max_concat; eauto.
Qed.
Lemma maxes_len (L : list (list A)) M : Forall2 has_max L M -> zlen M <= zlen (concat L).
Proof.
  induction 1 as [|l m L M H H' IH]; [unfold zlen; cbn; lia|]. cbn [concat]. rewrite zlen_app, zlen_cons.
  apply has_max_zlen in H. lia.
Qed.
Lemma sub_len (L1 L2 : list (list A)) l : zlen l <= zlen (concat (L1 ++ l :: L2)).
Proof. rewrite concat_app. cbn [concat]. rewrite !zlen_app. pose proof (zlen_nonneg (concat L1)). pose proof (zlen_nonneg (concat L2)). lia. Qed.

(** [bisect_right] on a sorted list. *)
Lemma bisect_right_split (a : list A) x : sorted_by lt a -> zlen a <= 2^62 ->
  exists p s, a = p ++ s /\ bisect_right lt a x 0 None = Ok (zlen p) /\
    (forall y, In y p -> lt x y = false) /\ (forall y, In y s -> lt x y = true).
Proof.
  intros S L. pose proof (zlen_nonneg a) as Z0. unfold bisect_right. rewrite bisect_default.
  pose proof (bisect_by_spec (fun y => negb (lt x y)) x a 0 (zlen a) ltac:(lia) ltac:(lia) L) as H.
  apply wp_inv in H. destruct H as (i & E & Hi & H).
  assert (SR : sorted_rng lt x a 0 (zlen a)) by (now apply sorted_rng_sorted_by).
  specialize (H (right_mono lt W x x a 0 (zlen a) ltac:(lia) SR)).
  exists (firstn (Z.to_nat i) a), (skipn (Z.to_nat i) a). split; [now rewrite firstn_skipn|]. split; [|split].
  - rewrite E. f_equal. unfold zlen in *. rewrite firstn_length. lia.
  - intros y Hy. destruct (In_nth _ _ x Hy) as (k & Hk & <-). rewrite firstn_length in Hk.
    specialize (H (Z.of_nat k)). unfold zn in H. rewrite Nat2Z.id in H. unfold zlen in *.
    specialize (H ltac:(lia)). rewrite <- (firstn_skipn (Z.to_nat i) a), app_nth1 in H by (rewrite firstn_length; lia). apply negb_true_iff. rewrite H. lia.
  - intros y Hy. destruct (In_nth _ _ x Hy) as (k & Hk & <-). rewrite skipn_length in Hk.
    specialize (H (Z.of_nat (Z.to_nat i + k))). unfold zn in H. rewrite Nat2Z.id in H. unfold zlen in *.
    specialize (H ltac:(lia)). rewrite <- (firstn_skipn (Z.to_nat i) a), app_nth2 in H by (rewrite firstn_length; lia).
    rewrite firstn_length in H. replace (Z.to_nat i + k - Nat.min (Z.to_nat i) (length a))%nat with k in H by lia. apply negb_false_iff. rewrite H. lia.
Qed.

Lemma Forall2_In_l {X Y} (R : X -> Y -> Prop) a b : Forall2 R a b -> forall x, In x a -> exists y, In y b /\ R x y.
Proof.
  induction 1; intros u []; [subst; eexists; split; [left; reflexivity|auto]|].
  destruct (IHForall2 _ H1) as (v & ? & ?). exists v. split; auto. now right.
Qed.

Lemma add_ok s v : Inv s -> sl_len s < 2^62 ->
  exists s' a b, sl_add lt s v = Ok s' /\ sl_load s' = sl_load s /\ Inv s' /\
    sl_iter s = a ++ b /\ sl_iter s' = a ++ v :: b /\
    (forall x, In x a -> lt v x = false) /\ (forall x, In x b -> lt v x = true).
Proof.
  intros [HL HM HS HN HB] BD. destruct s as [len load lists maxes]. unfold sl_iter. cbn [sl_load sl_lists sl_maxes sl_len] in *.
  apply (f_equal (Z.add 0)) in HN. unfold sl_add. cbn [sl_maxes sl_lists sl_len sl_load].
  assert (FIN : forall a b, concat lists = a ++ b -> (forall x, In x a -> lt v x = false) -> (forall x, In x b -> lt v x = true) ->
    sorted_by lt (a ++ v :: b)).
  { intros a b E Ha Hb. rewrite E in HS. apply sorted_app in HS. destruct HS as (S1 & S2 & S3). apply sorted_app.
    split; auto. split.
    - constructor; auto. apply Forall_forall. intros y Hy. apply (sw_asym lt W). auto.
    - intros x y Hx [<-|Hy]; auto. }
  destruct maxes as [|m0 M0].
  - inversion HM; subst. cbn in HN. replace len with 0 by (change (zlen (@nil A)) with 0 in HN; lia). exists (mk_slist (0 + 1) load [[v]] [v]), [], []. cbn.
    split; auto. split; auto. split.
    + split; cbn [sl_load sl_lists sl_maxes sl_len concat app]; auto.
      * constructor; [exists []; reflexivity|constructor].
      * constructor; constructor.
      * constructor; [change (zlen [v]) with 1; lia|constructor].
    + repeat split; auto; intros ? [].
  - set (maxes := m0 :: M0) in *. assert (NE : maxes <> []) by discriminate. clearbody maxes. clear m0 M0.
    pose proof (maxes_len _ _ HM) as ML.
    destruct (bisect_right_split maxes v (maxes_sorted _ _ HM HS) ltac:(lia)) as (P & Q & EQ & EB & HP & HQ).
    rewrite EB. cbn [bind].
    destruct Q as [|m M2].
    + (* not below any maximum: at the very end *)
      rewrite app_nil_r in EQ. subst P. replace (zlen maxes =? zlen maxes) with true by lia.
      destruct (last_of _ NE) as (M1 & m & EM).
      assert (Z1 : zlen maxes - 1 = zlen M1) by (rewrite EM, zlen_app; change (zlen [m]) with 1; lia).
      rewrite Z1. rewrite EM in HM. apply Forall2_app_inv_r in HM. destruct HM as (L1 & LL & F1 & F2 & EL).
      inversion F2 as [|l m' LL' ? Hm F3]; subst m' LL. inversion F3; subst LL'. clear F2 F3.
      assert (ZL : zlen M1 = zlen L1) by (apply Forall2_len in F1; unfold zlen; lia).
      rewrite EL, EM, ZL, lget_at. cbn [bind]. rewrite lset_at. cbn [bind]. rewrite <- ZL, lset_at. cbn [bind].
      rewrite EL in HB. apply Forall_app in HB. destruct HB as [B1 B2]. inversion B2; subst.
      destruct (expand_ok len load L1 (l ++ [v]) [] M1 v []) as (s' & E' & C' & N' & D' & F' & G'); auto.
      { exists l. auto. }
      { rewrite zlen_app. change (zlen [v]) with 1. lia. }
      rewrite ZL, E'. cbn [bind].
      exists (mk_slist (sl_len s' + 1) (sl_load s') (sl_lists s') (sl_maxes s')), (concat (L1 ++ [l])), []. cbn [sl_load sl_lists].
      assert (HA : forall x, In x (concat (L1 ++ [l])) -> lt v x = false).
      { intros x Hx. destruct (In_concat_max (L1 ++ [l]) (M1 ++ [m]) ltac:(apply Forall2_app; auto) HS x Hx) as (y & Hy & Ey).
        apply (sw_negtrans lt W) with (y := y); auto. }
      assert (CC : concat (sl_lists s') = concat (L1 ++ [l]) ++ [v]).
      { rewrite C', !concat_app. cbn [concat]. rewrite !app_nil_r, <- app_assoc. reflexivity. }
      split; auto. split; auto. split.
      * split; cbn [sl_load sl_lists sl_maxes sl_len]; auto; try congruence.
        -- rewrite CC. apply FIN; auto; try (now rewrite app_nil_r); intros ? [].
        -- rewrite CC, zlen_app, N'. change (zlen [v]) with 1. lia.
        -- rewrite D'. auto.
      * rewrite app_nil_r. repeat split; auto.
    + (* inside the sublist of the first greater maximum *)
      replace (zlen P =? zlen maxes) with false by (rewrite EQ, zlen_app, zlen_cons; pose proof (zlen_nonneg M2); lia).
      rewrite EQ in HM. apply Forall2_app_inv_r in HM. destruct HM as (L1 & LL & F1 & F2 & EL).
      inversion F2 as [|l m' L2 ? Hm F3]; subst m' LL. clear F2.
      assert (ZL : zlen P = zlen L1) by (apply Forall2_len in F1; unfold zlen; lia).
      subst lists. rewrite ZL, lget_at. cbn [bind].
      rewrite concat_app in HS. cbn [concat] in HS. apply sorted_app in HS. destruct HS as (S1 & S2 & S3).
      apply sorted_app in S2. destruct S2 as (S2 & S4 & S5).
      pose proof (sub_len L1 L2 l) as SL.
      destruct (C13_insort A lt W l v S2 ltac:(lia)) as (_ & p & q & EI & Epq & SI & Hp & Hq).
      rewrite EI. cbn [bind]. rewrite lset_at. cbn [bind]. rewrite EQ.
      assert (ltv : lt v m = true) by (apply HQ; now left).
      assert (Hmax : has_max (p ++ v :: q) m).
      { destruct Hm as (r & Er). rewrite Epq in Er. destruct q as [|y q] using rev_ind.
        - rewrite app_nil_r in Er. subst p. specialize (Hp m ltac:(apply in_or_app; right; now left)). congruence.
        - clear IHq. rewrite app_assoc in Er. apply app_inj_tail in Er. destruct Er as [<- <-].
          exists (p ++ v :: q). rewrite <- app_assoc. reflexivity. }
      apply Forall_app in HB. destruct HB as [B1 B2]. inversion B2; subst x l0.
      destruct (expand_ok len load L1 (p ++ v :: q) L2 P m M2) as (s' & E' & C' & N' & D' & F' & G'); auto.
      { rewrite zlen_app, zlen_cons. rewrite Epq, zlen_app in *. lia. }
      rewrite E'. cbn [bind].
      exists (mk_slist (sl_len s' + 1) (sl_load s') (sl_lists s') (sl_maxes s')), (concat L1 ++ p), (q ++ concat L2). cbn [sl_load sl_lists].
      assert (HA : forall x, In x (concat L1 ++ p) -> lt v x = false).
      { intros x Hx. apply in_app_or in Hx. destruct Hx as [Hx|Hx]; auto.
        destruct (In_concat_max L1 P F1 S1 x Hx) as (y & Hy & Ey). apply (sw_negtrans lt W) with (y := y); auto. }
      assert (HB' : forall x, In x (q ++ concat L2) -> lt v x = true).
      { intros x Hx. apply in_app_or in Hx. destruct Hx as [Hx|Hx]; auto.
        destruct (lt v x) eqn:Ex; auto. exfalso.
        assert (lt x m = false). { apply S5; auto. destruct Hm as (r & ->). apply in_or_app. right. now left. }
        rewrite (sw_negtrans lt W v x m) in ltv; auto. discriminate. }
      assert (CE : concat (L1 ++ l :: L2) = (concat L1 ++ p) ++ q ++ concat L2).
      { rewrite concat_app. cbn [concat]. rewrite Epq, <- !app_assoc. reflexivity. }
      assert (CC : concat (sl_lists s') = (concat L1 ++ p) ++ v :: q ++ concat L2).
      { rewrite C', concat_app. cbn [concat]. rewrite <- !app_assoc. reflexivity. }
      split; auto. split; auto. split.
      * split; cbn [sl_load sl_lists sl_maxes sl_len]; auto; try congruence.
        -- rewrite CC. apply FIN; auto.
        -- rewrite CC, N'. rewrite CE in HN. rewrite !zlen_app in *. rewrite zlen_cons. rewrite ?zlen_app in *. lia.
        -- rewrite D'. auto.
      * repeat split; auto.
Qed.

(** [_delete] removes the element at the given place and nothing else. *)
Lemma delete_ok s pos idx : Inv s ->
  forall L1 l L2, sl_lists s = L1 ++ l :: L2 -> zlen L1 = pos -> 0 <= idx < zlen l ->
  exists s' a x b, sl_delete s pos idx = Ok s' /\ sl_load s' = sl_load s /\ Inv s' /\
    sl_iter s = a ++ x :: b /\ sl_iter s' = a ++ b /\ zlen a = zlen (concat L1) + idx.
Proof.
  intros [HL HM HS HN HB] L1 l L2 EL EP Hi. destruct s as [len load lists maxes]. unfold sl_iter.
  cbn [sl_load sl_lists sl_maxes sl_len] in *. subst lists pos. apply (f_equal (Z.add 0)) in HN.
  destruct (split_at l idx Hi) as (p & x & q & -> & Ei). subst idx.
  destruct (Forall2_split _ _ _ _ _ HM) as (M1 & m & M2 & -> & ZM & F1 & Hm & F2).
  apply Forall_app in HB. destruct HB as [B1 B2]. inversion B2 as [|? ? B3 B4]; subst.
  assert (CE : concat (L1 ++ (p ++ x :: q) :: L2) = (concat L1 ++ p) ++ x :: q ++ concat L2).
  { rewrite concat_app. cbn [concat]. rewrite <- !app_assoc. reflexivity. }
  assert (SO : sorted_by lt ((concat L1 ++ p) ++ q ++ concat L2)).
  { rewrite CE in HS. apply sorted_app in HS. destruct HS as (S1 & S2 & S3). inversion S2; subst. apply sorted_app.
    split; auto. split; auto. intros u w Hu Hw. apply S3; auto. now right. }
  assert (ZN : zlen (concat (L1 ++ (p ++ x :: q) :: L2)) - 1 = zlen ((concat L1 ++ p) ++ q ++ concat L2)).
  { rewrite CE. rewrite !zlen_app, zlen_cons, zlen_app. lia. }
  unfold sl_delete. cbn [sl_lists sl_maxes sl_len sl_load]. rewrite lget_at. cbn [bind]. rewrite ldel_at. cbn [bind].
  rewrite lset_at. cbn [bind].
  assert (GOAL : forall s', sl_load s' = load -> sl_len s' = len - 1 -> Forall2 has_max (sl_lists s') (sl_maxes s') ->
     concat (sl_lists s') = (concat L1 ++ p) ++ q ++ concat L2 -> Forall (fun l => zlen l <= 2 * load) (sl_lists s') ->
     exists s'' a x0 b, Ok s' = Ok s'' /\ sl_load s'' = load /\ Inv s'' /\
       concat (L1 ++ (p ++ x :: q) :: L2) = a ++ x0 :: b /\ concat (sl_lists s'') = a ++ b /\ zlen a = zlen (concat L1) + zlen p).
  { intros s' G1 G2 G3 G4 G5. exists s', (concat L1 ++ p), x, (q ++ concat L2). split; auto. split; auto. split.
    - split; auto; try lia; [rewrite G4; auto|rewrite G2, G4; lia|rewrite G1; auto].
    - split; auto. split; auto. rewrite zlen_app. lia. }
  assert (LE : zlen (p ++ q) < zlen (p ++ x :: q)) by (rewrite !zlen_app, zlen_cons; lia).
  destruct (zlen (p ++ q) >? load / 2) eqn:E1.
  { (* still more than half the load *)
    assert (NE : p ++ q <> []). { intros N. rewrite N in E1. change (zlen (@nil A)) with 0 in E1. pose proof (Z.div_pos load 2). lia. }
    destruct (last_of _ NE) as (r & m' & Er). replace (lget (p ++ q) (-1)) with (Ok m') by (rewrite Er, lget_last; reflexivity). cbn [bind]. rewrite <- ZM, lset_at. cbn [bind].
    apply GOAL; cbn [sl_lists sl_maxes sl_len sl_load]; auto.
    - apply Forall2_app; auto. constructor; auto. exists r. auto.
    - rewrite concat_app. cbn [concat]. rewrite <- !app_assoc. reflexivity.
    - apply Forall_app. split; auto. constructor; auto. lia. }
  assert (HD : load / 2 <= load) by (apply Z.div_le_upper_bound; lia).
  destruct (zlen (L1 ++ (p ++ q) :: L2) >? 1) eqn:E2.
  { (* merge with a neighbour *)
    destruct (zlen L1 =? 0) eqn:E0.
    - (* the first sublist: merge the second into it *)
      assert (L1 = []) by (destruct L1; [auto|]; rewrite zlen_cons in E0; pose proof (zlen_nonneg L1); lia). subst L1.
      assert (M1 = []) by (inversion F1; auto). subst M1. cbn [app concat] in *.
      destruct L2 as [|l2 L2]; [rewrite zlen_cons in E2; change (zlen (@nil (list A))) with 0 in E2; lia|].
      inversion F2 as [|? m2 ? M2' Hm2 F3]; subst. inversion B4 as [|? ? B5 B6]; subst.
      change (zlen (@nil (list A)) + 1 - 1) with 0. change (zlen (@nil (list A)) + 1) with 1.
      rewrite lget_hd. cbn [bind]. rewrite lget_snd. cbn [bind]. rewrite lset_hd. cbn [bind].
      destruct Hm2 as (r2 & ->). rewrite !app_assoc. rewrite lget_last. cbn [bind].
      rewrite lset_hd. cbn [bind]. rewrite ldel_snd. cbn [bind]. rewrite ?ldel_snd. cbn [bind].
      destruct (expand_ok (len - 1) load [] (((p ++ q) ++ r2) ++ [m2]) L2 [] m2 M2') as (s' & E' & C' & N' & D' & F' & G'); auto.
      { exists ((p ++ q) ++ r2). auto. }
      { rewrite zlen_app in B5. rewrite !zlen_app in *. lia. }
      cbn [app] in E'. change (zlen (@nil (list A))) with 0 in E'. rewrite E'. apply GOAL; auto. rewrite C'. cbn [concat app]. rewrite <- !app_assoc. reflexivity.
    - destruct (last_of L1) as (L0 & l0 & ->). { intros ->. discriminate. }
      apply Forall2_app_inv_l in F1. destruct F1 as (M0 & MM & F0 & F1 & ->). inversion F1 as [|? m0 ? MM' Hm0 F3]; subst.
      inversion F3; subst. clear F1 F3. apply Forall_app in B1. destruct B1 as [B1 B1']. inversion B1' as [|? ? B5 B6]; subst.
      assert (ZM0 : zlen M0 = zlen L0) by (apply Forall2_len in F0; unfold zlen; lia).
      replace (zlen (L0 ++ [l0]) - 1) with (zlen L0) by (rewrite zlen_app; change (zlen [l0]) with 1; lia).
      set (CC := concat ((L0 ++ [l0]) ++ (p ++ x :: q) :: L2)) in *. set (C1 := concat (L0 ++ [l0])) in *.
      rewrite <- !app_assoc. cbn [app].
      rewrite lget_at. cbn [bind].
      assert (EG : lget (L0 ++ l0 :: (p ++ q) :: L2) (zlen (L0 ++ [l0])) = Ok (p ++ q)).
      { change (L0 ++ l0 :: (p ++ q) :: L2) with (L0 ++ [l0] ++ (p ++ q) :: L2). rewrite app_assoc. apply lget_at. }
      rewrite EG. cbn [bind]. rewrite lset_at. cbn [bind].
      destruct Hm0 as (r0 & ->).
      assert (HX : exists m', has_max ((r0 ++ [m0]) ++ p ++ q) m').
      { destruct (last_of ((r0 ++ [m0]) ++ p ++ q)) as (r & m' & Er); [|exists m', r; auto].
        intros N. apply app_eq_nil in N. destruct N as [N _]. apply app_eq_nil in N. destruct N; discriminate. }
      destruct HX as (m' & HX). pose proof HX as (r & Er). replace (lget ((r0 ++ [m0]) ++ p ++ q) (-1)) with (Ok m') by (rewrite Er, lget_last; reflexivity). cbn [bind].
      rewrite <- ZM0, lset_at. cbn [bind].
      assert (D1 : forall z, ldel (L0 ++ z :: (p ++ q) :: L2) (zlen (L0 ++ [r0 ++ [m0]])) = Ok (L0 ++ z :: L2)).
      { intros z. change (L0 ++ z :: (p ++ q) :: L2) with (L0 ++ [z] ++ (p ++ q) :: L2). rewrite app_assoc.
        replace (zlen (L0 ++ [r0 ++ [m0]])) with (zlen (L0 ++ [z])) by (rewrite !zlen_app; reflexivity).
        rewrite ldel_at, <- app_assoc. reflexivity. }
      rewrite D1. cbn [bind].
      assert (D2 : ldel (M0 ++ m' :: m :: M2) (zlen (L0 ++ [r0 ++ [m0]])) = Ok (M0 ++ m' :: M2)).
      { change (M0 ++ m' :: m :: M2) with (M0 ++ [m'] ++ m :: M2). rewrite app_assoc.
        replace (zlen (L0 ++ [r0 ++ [m0]])) with (zlen (M0 ++ [m'])) by (rewrite !zlen_app, ZM0; reflexivity).
        rewrite ldel_at, <- app_assoc. reflexivity. }
      rewrite D2. cbn [bind]. rewrite ZM0.
      destruct (expand_ok (len - 1) load L0 ((r0 ++ [m0]) ++ p ++ q) L2 M0 m' M2) as (s' & E' & C' & N' & D' & F' & G'); auto.
      { rewrite zlen_app. lia. }
      rewrite E'. apply GOAL; auto. unfold C1. rewrite C', !concat_app. cbn [concat]. rewrite <- !app_assoc. cbn [app]. rewrite <- ?app_assoc. reflexivity. }
  (* the only sublist *)
  assert (EE : L1 = [] /\ L2 = []).
  { rewrite zlen_app, zlen_cons in E2. pose proof (zlen_nonneg L1). pose proof (zlen_nonneg L2).
    split; [destruct L1|destruct L2]; auto; rewrite zlen_cons in E2; [pose proof (zlen_nonneg L1)|pose proof (zlen_nonneg L2)]; lia. }
  destruct EE as [-> ->]. inversion F1; subst M1. inversion F2; subst M2. cbn [app] in *.
  destruct (zlen (p ++ q) =? 0) eqn:E3; cbn [negb].
  - change (zlen (@nil (list A))) with 0. rewrite ldel_hd. cbn [bind]. rewrite ldel_hd. cbn [bind].
    apply GOAL; cbn [sl_lists sl_maxes sl_len sl_load]; auto.
    cbn [concat app]. rewrite app_nil_r. destruct (p ++ q); auto. rewrite zlen_cons in E3. pose proof (zlen_nonneg l). lia.
  - assert (NE : p ++ q <> []). { intros N. rewrite N in E3. discriminate. }
    destruct (last_of _ NE) as (r & m' & Er). replace (lget (p ++ q) (-1)) with (Ok m') by (rewrite Er, lget_last; reflexivity). cbn [bind].
    change (zlen (@nil (list A))) with 0. rewrite lset_hd. cbn [bind].
    apply GOAL; cbn [sl_lists sl_maxes sl_len sl_load]; auto.
    + constructor; auto. exists r. auto.
    + cbn [concat app]. rewrite !app_nil_r. reflexivity.
    + constructor; auto. lia.
Qed.

Lemma clear_ok s : Inv s -> Inv (sl_clear s).
Proof. intros [HL _ _ _ _]. split; cbn; auto; constructor. Qed.
Lemma new_ok load : 1 <= load -> Inv (sl_new load).
Proof. intros H. split; cbn; auto; constructor. Qed.
End Inv.
