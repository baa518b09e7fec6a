(** Proofs about timsort. *)
From Coq Require Import List ZArith Lia Bool Permutation.
From Verif.Common Require Import Result Arr Ord Tac.
From Verif.Sort Require Import Model InsProofs PdqProofs TModel.
Import ListNotations.
Local Open Scope Z_scope.

Section Tim.
Context {A : Type} (lt ge : A -> A -> bool) (d : A).
Notation zn := (@zn A d).
Notation swp := (@swp A d).
Notation same_out := (@same_out A d).
Notation sorted_rng := (@sorted_rng A lt d).
Notation locperm := (@locperm A d).

(** The order is a strict weak order and [>=] is the negation of [<]. *)
Definition ord : Prop := strict_weak lt /\ forall x y, ge x y = negb (lt x y).

(** ** gallop *)

Lemma half_bounds x : 0 < x -> 0 <= Z.shiftr x 1 < x.
Proof.
  intros H. rewrite Z.shiftr_div_pow2 by lia. change (2^1) with 2.
  split; [apply Z.div_pos; lia|apply Z.div_lt; lia].
Qed.

Definition gkey (arr : list A) (b : Z * Z) (left : bool) : A :=
  if left then zn arr (fst b + snd b - 1) else zn arr (fst b).

Lemma gallop_spec arr a0 a1 b0 b1 hint left :
  0 <= a0 -> 0 < a1 -> a0 + a1 <= zlen arr ->
  0 <= b0 -> 0 < b1 -> b0 + b1 <= zlen arr -> 0 <= hint < a1 ->
  wp (gallop lt ge arr (a0, a1) (b0, b1) hint left)
     (fun r => 0 <= r <= a1 /\
        (r < a1 -> modified_comp lt ge (gkey arr (b0, b1) left) (zn arr (a0 + r)) left = true) /\
        (0 < r -> modified_comp lt ge (gkey arr (b0, b1) left) (zn arr (a0 + (r - 1))) left = false)).
Proof.
  intros Ha0 Ha1 Ha Hb0 Hb1 Hb Hh. unfold gallop. wps d. wps d. wps d.
  eapply wp_conseq with (P := fun key => key = gkey arr (b0, b1) left).
  { destruct left; unfold gkey; simpl; wpr d; reflexivity. }
  intros key ->. set (key := gkey arr (b0, b1) left).
  set (C := fun k => modified_comp lt ge key (zn arr (a0 + k)) left).
  wps d. wps d. wps d.
  eapply wp_conseq with (P := fun '(o, l) => -1 <= l < o /\ o <= a1 /\
     (l = -1 \/ C l = false) /\ (o = a1 \/ C o = true)).
  - wps d.
    + wps d.
      eapply wp_conseq.
      { apply (wp_loop (fun '(ofs, lastofs) => 0 <= lastofs < ofs /\ lastofs <= hint /\
                  C (hint - lastofs) = true)
                (fun '(ofs, lastofs) => Z.to_nat (hint + 1 - ofs))
                _
                (fun '(ofs, lastofs) => 0 <= lastofs < ofs /\ lastofs <= hint /\
                  C (hint - lastofs) = true /\ (hint + 1 <= ofs \/ C (hint - ofs) = false))).
        - intros [ofs lastofs] (H1 & H2 & H3). wps d; zb.
          + wpr d. replace (a0 + hint - ofs) with (a0 + (hint - ofs)) by lia.
            fold (C (hint - ofs)). wps d; wpr d.
            * repeat split; try lia; assumption.
            * repeat split; try lia; auto.
          + wpr d. repeat split; try lia; auto.
        - repeat split; try lia. rewrite Z.sub_0_r. exact E.
        - lia. }
      intros [ofs lastofs] (H1 & H2 & H3 & H4). cbv beta iota zeta. wpr d.
      destruct (Z.ltb_spec (hint + 1) ofs).
      * repeat split; try lia; auto.
      * repeat split; try lia; auto.
        destruct H4 as [H4|H4]; auto. left; lia.
    + wps d.
      eapply wp_conseq.
      { apply (wp_loop (fun '(ofs, lastofs) => 0 <= lastofs < ofs /\ hint + lastofs < a1 /\
                  C (hint + lastofs) = false)
                (fun '(ofs, lastofs) => Z.to_nat (a1 - hint - ofs))
                _
                (fun '(ofs, lastofs) => 0 <= lastofs < ofs /\ hint + lastofs < a1 /\
                  C (hint + lastofs) = false /\ (a1 - hint <= ofs \/ C (hint + ofs) = true))).
        - intros [ofs lastofs] (H1 & H2 & H3). wps d; zb.
          + wpr d. replace (a0 + hint + ofs) with (a0 + (hint + ofs)) by lia.
            fold (C (hint + ofs)). wps d; wpr d.
            * repeat split; try lia; auto.
            * repeat split; try lia; assumption.
          + wpr d. repeat split; try lia; auto.
        - repeat split; try lia. rewrite Z.add_0_r. exact E.
        - lia. }
      intros [ofs lastofs] (H1 & H2 & H3 & H4). cbv beta iota zeta. wpr d.
      destruct (Z.ltb_spec (a1 - hint) ofs).
      * repeat split; try lia; auto. right. now rewrite Z.add_comm.
      * repeat split; try lia; auto.
        -- right. now rewrite Z.add_comm.
        -- destruct H4 as [H4|H4]; [left; lia|right; now rewrite Z.add_comm].
  - intros [o l] (H1 & H2 & H3 & H4). cbv beta iota.
    apply (wp_loop (fun '(l, o) => 0 <= l <= o /\ o <= a1 /\
              (l = 0 \/ C (l - 1) = false) /\ (o = a1 \/ C o = true))
            (fun '(l, o) => Z.to_nat (o - l))).
    + clear l o H1 H2 H3 H4. intros [l o] (H1 & H2 & H3 & H4). wps d; zb.
      * cbv zeta. pose proof (half_bounds (o - l)) as Hh2.
        set (m := l + Z.shiftr (o - l) 1).
        assert (l <= m < o) by (unfold m; lia).
        wpr d. fold (C m). wps d; wpr d; repeat split; try lia; auto.
        right. replace (m + 1 - 1) with m by lia. assumption.
      * wpr d. assert (l = o) by lia. subst l. repeat split; try lia; intros.
        -- destruct H4; [lia|assumption].
        -- destruct H3; [lia|assumption].
    + repeat split; try lia; auto.
      destruct H3 as [H3|H3]; [left; lia|]. right. now replace (l + 1 - 1) with l by lia.
    + lia.
Qed.

(** ** Copies of runs *)

Lemma zn_app_l (x y : list A) i : 0 <= i < zlen x -> zn (x ++ y) i = zn x i.
Proof. intros H. unfold Arr.zn, zlen in *. apply app_nth1. lia. Qed.

Lemma zn_app_r (x y : list A) i : 0 <= i -> zn (x ++ y) (zlen x + i) = zn y i.
Proof.
  intros H. unfold Arr.zn, zlen in *. rewrite app_nth2 by lia. f_equal. lia.
Qed.

Lemma zlen_app (x y : list A) : zlen (x ++ y) = zlen x + zlen y.
Proof. unfold zlen. rewrite app_length. lia. Qed.

Lemma zlen_zsub (a : list A) lo hi : 0 <= lo <= hi -> hi <= zlen a -> zlen (zsub a lo hi) = hi - lo.
Proof. intros. unfold zlen at 1. rewrite zsub_length by lia. lia. Qed.

Lemma zsub_nil (a : list A) lo : zsub a lo lo = [].
Proof. unfold zsub. rewrite Z.sub_diag. reflexivity. Qed.

Lemma zsub_cons (a : list A) lo hi :
  0 <= lo < hi -> hi <= zlen a -> zsub a lo hi = zn a lo :: zsub a (lo + 1) hi.
Proof.
  intros H1 H2. apply (list_eq_zn d).
  - unfold zlen. simpl. rewrite !zsub_length by lia. lia.
  - rewrite zlen_zsub by lia. intros i Hi. rewrite (zn_zsub d) by lia.
    destruct (Z.eq_dec i 0) as [->|Hn].
    + rewrite Z.add_0_r. reflexivity.
    + unfold Arr.zn at 2. replace (Z.to_nat i) with (S (Z.to_nat (i - 1))) by lia. simpl.
      change (nth (Z.to_nat (i-1)) (zsub a (lo+1) hi) d) with (zn (zsub a (lo+1) hi) (i-1)).
      rewrite (zn_zsub d) by lia. f_equal. lia.
Qed.

Lemma zsub_app (a : list A) lo mid hi :
  0 <= lo <= mid -> mid <= hi -> hi <= zlen a -> zsub a lo hi = zsub a lo mid ++ zsub a mid hi.
Proof.
  intros H1 H2 H3. apply (list_eq_zn d).
  - rewrite zlen_app, !zlen_zsub by lia. lia.
  - rewrite zlen_zsub by lia. intros i Hi. rewrite (zn_zsub d) by lia.
    destruct (Z_lt_le_dec i (mid - lo)).
    + rewrite zn_app_l by (rewrite zlen_zsub; lia). now rewrite (zn_zsub d) by lia.
    + replace i with (zlen (zsub a lo mid) + (i - (mid - lo))) at 2 by (rewrite zlen_zsub; lia).
      rewrite zn_app_r by lia. rewrite (zn_zsub d) by lia. f_equal. lia.
Qed.

Lemma zsub_upd_snoc (a : list A) lo k x :
  0 <= lo <= k -> k < zlen a -> zsub (upd a k x) lo (k + 1) = zsub a lo k ++ [x].
Proof.
  intros H1 H2. rewrite (zsub_app _ lo k (k+1)) by (rewrite ?zlen_upd; lia). f_equal.
  - apply (zsub_ext d); rewrite ?zlen_upd; try lia. intros i Hi. now rewrite zn_upd_other by lia.
  - rewrite zsub_cons by (rewrite ?zlen_upd; lia). rewrite zn_upd_same by lia.
    now rewrite zsub_nil.
Qed.

Lemma zsub_all (a : list A) : zsub a 0 (zlen a) = a.
Proof.
  unfold zsub. simpl. rewrite Z.sub_0_r. apply firstn_all2. unfold zlen. lia.
Qed.

(** ** merging *)

Section Merge.
Context (arr0 : list A) (a0 la lb : Z).
Context (Ha0 : 0 <= a0) (Hla : 0 < la) (Hlb : 0 < lb) (Hn : a0 + la + lb <= zlen arr0).

Let RA := zsub arr0 a0 (a0 + la).
Let RB := zsub arr0 (a0 + la) (a0 + la + lb).
Let comb := RA ++ RB.

Lemma lenA : zlen RA = la.
Proof. unfold RA. rewrite zlen_zsub; lia. Qed.
Lemma lenB : zlen RB = lb.
Proof. unfold RB. rewrite zlen_zsub; lia. Qed.
Lemma lenC : zlen comb = la + lb.
Proof. unfold comb. rewrite zlen_app, lenA, lenB. reflexivity. Qed.
Lemma combA i : 0 <= i < la -> zn comb i = zn RA i.
Proof. intros. unfold comb. apply zn_app_l. rewrite lenA. lia. Qed.
Lemma combB j : 0 <= j -> zn comb (la + j) = zn RB j.
Proof. intros. unfold comb. rewrite <- lenA at 1. now apply zn_app_r. Qed.

(** What holds of runs handed to [_merge_with_gallop] by [_merge_at]. *)
Definition mord : Prop :=
  ord /\ sorted_rng RA 0 la /\ sorted_rng RB 0 lb /\
  lt (zn RB 0) (zn RA 0) = true /\ lt (zn RB (lb - 1)) (zn RA (la - 1)) = true.

Definition MI (arr : list A) (i j k : Z) : Prop :=
  0 <= i <= la /\ 0 <= j <= lb /\ k = a0 + i + j /\ zlen arr = zlen arr0 /\
  same_out arr0 arr a0 (a0 + la + lb) /\
  Permutation (zsub arr a0 k ++ zsub RA i la ++ zsub RB j lb) (RA ++ RB) /\
  (mord ->
     sorted_rng arr a0 k /\
     (forall p q, a0 <= p < k -> i <= q < la -> lt (zn RA q) (zn arr p) = false) /\
     (forall p q, a0 <= p < k -> j <= q < lb -> lt (zn RB q) (zn arr p) = false) /\
     (forall c, filter (eqv lt c) (zsub arr a0 k) ++ filter (eqv lt c) (zsub RA i la) ++
                filter (eqv lt c) (zsub RB j lb) = filter (eqv lt c) (RA ++ RB))).

Lemma MI_init : MI arr0 0 0 a0.
Proof.
  repeat split; try lia.
  - rewrite zsub_nil. rewrite <- lenA at 1. rewrite <- lenB at 1. rewrite !zsub_all. reflexivity.
  - intros p q H1 H2. lia.
  - intros c. rewrite zsub_nil. rewrite <- lenA at 1. rewrite <- lenB at 1.
    rewrite !zsub_all. rewrite filter_app. reflexivity.
Qed.

Lemma sorted_snoc arr k x :
  k < zlen arr -> 0 <= a0 <= k -> sorted_rng arr a0 k ->
  (forall p, a0 <= p < k -> lt x (zn arr p) = false) ->
  sorted_rng (upd arr k x) a0 (k + 1).
Proof.
  intros H1 H2 Hs Hx p q Hp Hq. rewrite !(zn_upd d) by lia.
  destruct (Z.eqb_spec p k); [lia|]. destruct (Z.eqb_spec q k).
  - apply Hx. lia.
  - apply Hs; lia.
Qed.

Lemma MI_put_a arr i j k :
  MI arr i j k -> i < la ->
  (mord -> forall q, j <= q < lb -> lt (zn RB q) (zn RA i) = false) ->
  MI (upd arr k (zn RA i)) (i + 1) j (k + 1).
Proof.
  intros (H1 & H2 & H3 & H4 & H5 & H6 & H7) Hi HB.
  assert (Hk : zsub (upd arr k (zn RA i)) a0 (k+1) = zsub arr a0 k ++ [zn RA i])
    by (apply zsub_upd_snoc; lia).
  assert (HRA : zsub RA i la = zn RA i :: zsub RA (i+1) la)
    by (apply zsub_cons; rewrite ?lenA; lia).
  split; [lia|]. split; [lia|]. split; [lia|]. split; [now rewrite zlen_upd|].
  split; [|split].
  - intros p Hp Ho. rewrite zn_upd_other by lia. apply H5; lia.
  - rewrite Hk, <- H6, HRA. rewrite <- app_assoc. reflexivity.
  - intros M. destruct (H7 M) as (S1 & S2 & S3 & S4).
    specialize (HB M). destruct M as (O & SA & SB & _).
    split; [|split; [|split]].
    + apply sorted_snoc; try lia; auto. intros p Hp. apply S2; lia.
    + intros p q Hp Hq. rewrite (zn_upd d) by lia.
      destruct (Z.eqb_spec p k); [apply SA; lia|apply S2; lia].
    + intros p q Hp Hq. rewrite (zn_upd d) by lia.
      destruct (Z.eqb_spec p k); [apply HB; auto|apply S3; lia].
    + intros c. rewrite <- S4, Hk, HRA.
      change (zn RA i :: zsub RA (i+1) la) with ([zn RA i] ++ zsub RA (i+1) la).
      rewrite !filter_app, <- !app_assoc. reflexivity.
Qed.

Lemma filter_none (p : A -> bool) l : (forall x, In x l -> p x = false) -> filter p l = [].
Proof.
  induction l as [|x l IH]; intros H; auto. simpl. rewrite H by (left; auto).
  apply IH. intros; apply H; now right.
Qed.

Lemma MI_put_b arr i j k :
  MI arr i j k -> j < lb ->
  (mord -> forall q, i <= q < la -> lt (zn RB j) (zn RA q) = true) ->
  MI (upd arr k (zn RB j)) i (j + 1) (k + 1).
Proof.
  intros (H1 & H2 & H3 & H4 & H5 & H6 & H7) Hj HA.
  assert (Hk : zsub (upd arr k (zn RB j)) a0 (k+1) = zsub arr a0 k ++ [zn RB j])
    by (apply zsub_upd_snoc; lia).
  assert (HRB : zsub RB j lb = zn RB j :: zsub RB (j+1) lb)
    by (apply zsub_cons; rewrite ?lenB; lia).
  split; [lia|]. split; [lia|]. split; [lia|]. split; [now rewrite zlen_upd|].
  split; [|split].
  - intros p Hp Ho. rewrite zn_upd_other by lia. apply H5; lia.
  - rewrite Hk, <- H6, HRB. rewrite <- app_assoc. apply Permutation_app_head.
    simpl. apply Permutation_middle.
  - intros M. destruct (H7 M) as (S1 & S2 & S3 & S4). specialize (HA M).
    destruct M as (O & SA & SB & _). destruct O as [W GE].
    split; [|split; [|split]].
    + apply sorted_snoc; try lia; auto. intros p Hp. apply S3; lia.
    + intros p q Hp Hq. rewrite (zn_upd d) by lia.
      destruct (Z.eqb_spec p k); [|apply S2; lia].
      apply (sw_asym lt W). apply HA; lia.
    + intros p q Hp Hq. rewrite (zn_upd d) by lia.
      destruct (Z.eqb_spec p k); [apply SB; lia|apply S3; lia].
    + intros c. rewrite <- S4, Hk, HRB.
      change (zn RB j :: zsub RB (j+1) lb) with ([zn RB j] ++ zsub RB (j+1) lb).
      rewrite !filter_app, <- !app_assoc. f_equal.
      destruct (eqv lt c (zn RB j)) eqn:Ec; simpl; rewrite Ec; simpl; [|reflexivity].
      rewrite (filter_none _ (zsub RA i la)); [reflexivity|].
      intros x Hx. apply (in_zsub d) in Hx; [|lia|rewrite lenA; lia].
      destruct Hx as (q & Hq & <-). specialize (HA q Hq).
      unfold eqv in *. apply andb_true_iff in Ec. destruct Ec as [E1 E2].
      apply negb_true_iff in E1, E2.
      destruct (lt (zn RA q) c) eqn:E3; [reflexivity|].
      destruct (lt c (zn RA q)) eqn:E4; [reflexivity|].
      exfalso. pose proof (sw_negtrans lt W _ _ _ E1 E4). congruence.
Qed.

Lemma copy_a_spec arr i j k stop :
  MI arr i j k -> stop <= la -> (mord -> j = lb \/ stop <= i) ->
  wp (copy_run comb 0 stop arr i k)
     (fun '(arr', i', k') => MI arr' i' j k' /\ i' = Z.max i stop /\ k' = k + (i' - i)).
Proof.
  intros HM Hs Hv. unfold copy_run.
  apply (wp_loop (fun '(arr', i', k') => MI arr' i' j k' /\ i <= i' <= Z.max i stop /\ k' = k + (i' - i))
     (fun '(arr', i', k') => Z.to_nat (stop - i'))).
  - intros [[arr' i'] k'] (M & H1 & H2).
    assert (M' := M). destruct M' as (B1 & B2 & B3 & B4 & _).
    wps d; zb.
    + wps d. rewrite (aget_ok d) by (rewrite lenC; lia). wpr d.
      rewrite Z.add_0_l. rewrite combA by lia. split; [|lia].
      split; [|lia]. apply MI_put_a; auto; try lia.
      intros M0 q Hq. destruct (Hv M0); lia.
    + wpr d. split; [auto|lia].
  - split; [assumption|]. split; lia.
  - lia.
Qed.

Lemma copy_b_spec arr i j k stop :
  MI arr i j k -> stop <= lb -> (mord -> i = la \/ stop <= j) ->
  wp (copy_run comb la stop arr j k)
     (fun '(arr', j', k') => MI arr' i j' k' /\ j' = Z.max j stop /\ k' = k + (j' - j)).
Proof.
  intros HM Hs Hv. unfold copy_run.
  apply (wp_loop (fun '(arr', j', k') => MI arr' i j' k' /\ j <= j' <= Z.max j stop /\ k' = k + (j' - j))
     (fun '(arr', j', k') => Z.to_nat (stop - j'))).
  - intros [[arr' j'] k'] (M & H1 & H2).
    assert (M' := M). destruct M' as (B1 & B2 & B3 & B4 & _).
    wps d; zb.
    + wps d. rewrite (aget_ok d) by (rewrite lenC; lia). wpr d.
      rewrite combB by lia. split; [|lia].
      split; [|lia]. apply MI_put_b; auto; try lia.
      intros M0 q Hq. destruct (Hv M0); lia.
    + wpr d. split; [auto|lia].
  - split; [assumption|]. split; lia.
  - lia.
Qed.

Lemma merge_inner_spec mg arr i j k :
  MI arr i j k -> i < la -> j < lb ->
  wp (loop (S (Z.to_nat (la + lb))) (merge_inner lt comb la lb mg) (arr, i, j, k, 0, 0))
     (fun '(arr', i', j', k') => MI arr' i' j' k' /\ i + j < i' + j').
Proof.
  intros HM Hi Hj.
  assert (HMI0 := HM). destruct HMI0 as (Bi & Bj & _).
  apply (wp_loop (fun '(arr', i', j', k', ac, bc) => MI arr' i' j' k' /\
            (i + j < i' + j' \/ (i' = i /\ j' = j)))
     (fun '(arr', i', j', k', ac, bc) => Z.to_nat (la + lb - i' - j'))).
  - clear arr k HM. intros [[[[[arr i'] j'] k] ac] bc] (M & H1).
    assert (M' := M). destruct M' as (B1 & B2 & B3 & B4 & _).
    unfold merge_inner. wps d; zb.
    + wps d. rewrite (aget_ok d) by (rewrite lenC; lia). wps d.
      wps d. rewrite (aget_ok d) by (rewrite lenC; lia). wps d.
      rewrite (combA i') by lia. rewrite (combB j') by lia. wps d.
      * wps d. wps d.
        assert (MI (upd arr k (zn RB j')) i' (j' + 1) (k + 1)).
        { apply MI_put_b; auto. intros (O & SA & SB & _) q Hq.
          destruct O as [W _].
          destruct (Z.eq_dec q i') as [->|]; auto.
          destruct (lt (zn RB j') (zn RA q)) eqn:F; auto.
          pose proof (sw_negtrans lt W _ _ _ F (SA i' q ltac:(lia) ltac:(lia))).
          congruence. }
        wps d; wpr d; (split; [|lia]); auto. split; [auto|lia].
      * wps d. wps d.
        assert (MI (upd arr k (zn RA i')) (i' + 1) j' (k + 1)).
        { apply MI_put_a; auto. intros (O & SA & SB & _) q Hq.
          destruct O as [W _].
          destruct (Z.eq_dec q j') as [->|]; auto.
          eapply (sw_negtrans lt W); [apply (SB j' q); lia|exact E]. }
        wps d; wpr d; (split; [|lia]); auto. split; [auto|lia].
    + wpr d. split; auto.
      apply andb_false_iff in E. destruct E; zb; lia.
  - split; [assumption|lia].
  - lia.
Qed.

(** Under [mord] the galloping calls find nothing to copy. *)
Lemma sorted_first (W : strict_weak lt) l n q x :
  sorted_rng l 0 n -> 0 <= q < n -> lt x (zn l 0) = true -> lt x (zn l q) = true.
Proof.
  intros Hs Hq Hx. destruct (Z.eq_dec q 0) as [->|]; auto.
  destruct (lt x (zn l q)) eqn:F; auto.
  pose proof (sw_negtrans lt W _ _ _ F (Hs 0 q ltac:(lia) ltac:(lia))). congruence.
Qed.

Lemma sorted_last (W : strict_weak lt) l n q x :
  sorted_rng l 0 n -> 0 <= q < n -> lt (zn l (n-1)) x = true -> lt (zn l q) x = true.
Proof.
  intros Hs Hq Hx. destruct (Z.eq_dec q (n-1)) as [->|]; auto.
  destruct (lt (zn l q) x) eqn:F; auto.
  pose proof (sw_negtrans lt W _ _ _ (Hs q (n-1) ltac:(lia) ltac:(lia)) F). congruence.
Qed.

Lemma merge_gallop_spec mg arr i j k :
  MI arr i j k ->
  wp (loop (S (Z.to_nat (la + lb))) (merge_gallop lt ge comb la lb) (arr, i, j, k, mg))
     (fun '(arr', i', j', k', _) => MI arr' i' j' k' /\ i + j <= i' + j').
Proof.
  intros HM.
  assert (HMI0 := HM). destruct HMI0 as (B1 & B2 & _).
  apply (wp_loop (fun '(arr', i', j', k', _) => MI arr' i' j' k' /\ i + j <= i' + j')
     (fun '(arr', i', j', k', _) => Z.to_nat (la + lb - i' - j'))).
  - clear arr k HM mg. intros [[[[arr i'] j'] k] mg] (M & H1).
    assert (M' := M). destruct M' as (C1 & C2 & C3 & C4 & _).
    unfold merge_gallop. wps d; zb.
    + wps d. eapply wp_conseq.
      { apply gallop_spec; rewrite ?lenC; lia. }
      intros acount (HA1 & HA2 & HA3). cbv beta in *.
      assert (HA0 : mord -> acount = 0).
      { intros ((W & GE) & SA & SB & F1 & F2).
        destruct (Z.eq_dec acount 0) as [->|Hne]; auto.
        specialize (HA3 ltac:(lia)). unfold gkey, modified_comp in HA3. simpl in HA3.
        assert (HB0 : zn comb la = zn RB 0) by (rewrite <- combB by lia; f_equal; lia).
        rewrite HB0 in HA3. rewrite (combA (acount - 1)) in HA3 by lia.
        rewrite (sorted_first W RA la (acount - 1)) in HA3 by (auto; lia). discriminate. }
      wps d.
      eapply wp_conseq with (P := fun '(arr', i2, j2, k2) => MI arr' i2 j2 k2 /\
          i' + j' <= i2 + j2 /\ (acount <> 0 -> i' + j' < i2 + j2)).
      { wps d; zb.
        - wps d. eapply wp_conseq.
          { eapply copy_a_spec; [eassumption|lia|intros M0; specialize (HA0 M0); lia]. }
          intros [[arr2 i2] k2] (M2 & E2 & E3). cbv beta iota.
          assert (M' := M2). destruct M' as (D1 & D2 & D3 & D4 & _).
          wps d. rewrite (aget_ok d) by (rewrite lenC; lia). wpr d.
          rewrite combB by lia. split; [|lia].
          apply MI_put_b; [assumption|lia|intros M0; specialize (HA0 M0); lia].
        - wpr d. split; [auto|]. split; lia. }
      clear arr k M C3 C4. intros [[[arr i2] j2] k] (M & H2 & H3). cbv beta iota.
      assert (M' := M). destruct M' as (D1 & D2 & D3 & D4 & _).
      wps d; zb.
      * wpr d. split; [auto|lia].
      * wps d. eapply wp_conseq.
        { apply gallop_spec; rewrite ?lenC; lia. }
        intros b_end (HB1 & HB2 & HB3). cbv beta in *.
        assert (HB0 : mord -> b_end = lb).
        { intros ((W & GE) & SA & SB & F1 & F2).
          destruct (Z.eq_dec b_end lb) as [->|Hne]; auto.
          specialize (HB2 ltac:(lia)). unfold gkey, modified_comp in HB2. simpl in HB2.
          rewrite (combB b_end) in HB2 by lia. rewrite (combA (la - 1)) in HB2 by lia.
          rewrite GE in HB2.
          rewrite (sorted_last W RB lb b_end) in HB2 by (auto; lia). discriminate. }
        cbv zeta. wps d.
        eapply wp_conseq with (P := fun '(arr', i3, j3, k3) => MI arr' i3 j3 k3 /\
            i2 + j2 <= i3 + j3 /\ (lb - b_end <> 0 -> i2 + j2 < i3 + j3)).
        { wps d; zb.
          - wps d. eapply wp_conseq.
            { eapply copy_b_spec; [eassumption|lia|intros M0; specialize (HB0 M0); lia]. }
            intros [[arr3 j3] k3] (M3 & E3 & E4). cbv beta iota.
            assert (M' := M3). destruct M' as (F1 & F2 & F3 & F4 & _).
            wps d. rewrite (aget_ok d) by (rewrite lenC; lia). wpr d.
            rewrite combA by lia. split; [|lia].
            apply MI_put_a; [assumption|lia|intros M0; specialize (HB0 M0); lia].
          - wpr d. split; [auto|]. split; lia. }
        intros [[[arr3 i3] j3] k3] (M3 & G4 & G5). cbv beta iota.
        assert (M' := M3). destruct M' as (F1 & F2 & F3 & F4 & _).
        wps d; wpr d.
        -- split; [auto|lia].
        -- split; [split; [auto|lia]|].
           assert (acount <> 0 \/ lb - b_end <> 0) by (unfold MIN_GALLOP in *; lia).
           lia.
    + wpr d. split; auto.
  - split; [assumption|lia].
  - lia.
Qed.

Lemma merge_with_gallop_spec :
  wp (merge_with_gallop lt ge arr0 (a0, la) (a0 + la, lb))
     (fun r => same_out arr0 r a0 (a0 + la + lb) /\ zlen r = zlen arr0 /\
        Permutation (zsub arr0 a0 (a0 + la + lb)) (zsub r a0 (a0 + la + lb)) /\
        (mord -> sorted_rng r a0 (a0 + la + lb) /\
           forall c, filter (eqv lt c) (zsub r a0 (a0 + la + lb)) =
                     filter (eqv lt c) (zsub arr0 a0 (a0 + la + lb)))).
Proof.
  unfold merge_with_gallop. cbv zeta. fold RA. fold RB. fold comb. wps d.
  eapply wp_conseq.
  { apply (wp_loop (fun '(arr', i', j', k', _) => MI arr' i' j' k')
      (fun '(arr', i', j', k', _) => Z.to_nat (la + lb - i' - j'))
      _ (fun '(arr', i', j', k') => MI arr' i' j' k' /\ (i' = la \/ j' = lb))).
    - intros [[[[arr i] j] k] mg] M.
      assert (M' := M). destruct M' as (B1 & B2 & _).
      unfold merge_outer. wps d; zb.
      + wps d. eapply wp_conseq. { apply merge_inner_spec; eauto. }
        intros [[[arr2 i2] j2] k2] (M2 & H2). cbv beta iota.
        assert (M' := M2). destruct M' as (D1 & D2 & _).
        wps d; zb.
        * wpr d. split; auto. apply orb_true_iff in E. destruct E; zb; lia.
        * wps d. eapply wp_conseq. { apply merge_gallop_spec; eauto. }
          intros [[[[arr3 i3] j3] k3] mg3] (M3 & G3). cbv beta iota.
          assert (M' := M3). destruct M' as (F1 & F2 & _).
          wpr d. split; [auto|lia].
      + wpr d. split; auto. apply andb_false_iff in E. destruct E; zb; lia.
    - apply MI_init.
    - lia. }
  intros [[[arr i] j] k] (M & He). cbv beta iota.
  assert (M' := M). destruct M' as (B1 & B2 & _).
  wps d. eapply wp_conseq. { eapply copy_a_spec; [eassumption|lia|intros _; lia]. }
  intros [[arr2 i2] k2] (M2 & E2 & E3). cbv beta iota.
  assert (M' := M2). destruct M' as (D1 & D2 & _).
  wps d. eapply wp_conseq. { eapply copy_b_spec; [eassumption|lia|intros _; lia]. }
  intros [[arr3 j3] k3] (M3 & E4 & E5). cbv beta iota. wpr d.
  assert (i2 = la) by lia. assert (j3 = lb) by lia. clear E2 E3 E4 E5. subst i2 j3.
  destruct M3 as (_ & _ & K & L & O & P & S). subst k3.
  assert (HAB : zsub arr0 a0 (a0 + la + lb) = RA ++ RB) by (apply zsub_app; lia).
  rewrite !zsub_nil in P. rewrite !app_nil_r in P.
  split; [assumption|]. split; [assumption|]. rewrite HAB. split; [now symmetry|].
  intros M0. destruct (S M0) as (S1 & _ & _ & S4). split; [exact S1|].
  intros c. specialize (S4 c). rewrite !zsub_nil in S4. simpl in S4. rewrite app_nil_r in S4.
  exact S4.
Qed.

End Merge.

(** ** Merging two adjacent runs *)

Definition fsame (a b : list A) : Prop := forall c, filter (eqv lt c) b = filter (eqv lt c) a.

Lemma fsame_trans a b c : fsame a b -> fsame b c -> fsame a c.
Proof. intros H1 H2 x. now rewrite H2, H1. Qed.

Lemma range_perm a b lo hi :
  0 <= lo <= hi -> hi <= zlen a -> zlen b = zlen a -> same_out a b lo hi ->
  Permutation (zsub a lo hi) (zsub b lo hi) -> Permutation a b.
Proof.
  intros H1 H2 HL HO HP.
  rewrite (zsub_split3 a lo hi) by lia. rewrite (zsub_split3 b lo hi) by lia.
  assert (E1 : zsub b 0 lo = zsub a 0 lo).
  { apply (zsub_ext d); try lia. intros; apply HO; lia. }
  assert (E2 : zsub b hi (zlen b) = zsub a hi (zlen a)).
  { rewrite HL. apply (zsub_ext d); try lia. intros; apply HO; lia. }
  rewrite E1, E2. apply Permutation_app_head. now apply Permutation_app_tail.
Qed.

Lemma range_fsame a b lo hi :
  0 <= lo <= hi -> hi <= zlen a -> zlen b = zlen a -> same_out a b lo hi ->
  fsame (zsub a lo hi) (zsub b lo hi) -> fsame a b.
Proof.
  intros H1 H2 HL HO HP c.
  rewrite (zsub_split3 a lo hi) by lia. rewrite (zsub_split3 b lo hi) by lia.
  assert (E1 : zsub b 0 lo = zsub a 0 lo).
  { apply (zsub_ext d); try lia. intros; apply HO; lia. }
  assert (E2 : zsub b hi (zlen b) = zsub a hi (zlen a)).
  { rewrite HL. apply (zsub_ext d); try lia. intros; apply HO; lia. }
  rewrite E1, E2. rewrite !filter_app. now rewrite (HP c).
Qed.

Lemma sorted_glue r lo m hi :
  sorted_rng r lo m -> sorted_rng r m hi ->
  (forall p q, lo <= p < m -> m <= q < hi -> lt (zn r q) (zn r p) = false) ->
  sorted_rng r lo hi.
Proof.
  intros H1 H2 H3 p q Hp Hq.
  destruct (Z_lt_le_dec q m); [apply H1; lia|].
  destruct (Z_lt_le_dec p m); [apply H3; lia|apply H2; lia].
Qed.

Lemma merge_at_spec arr s l1 l2 :
  0 <= s -> 0 < l1 -> 0 < l2 -> s + l1 + l2 <= zlen arr ->
  wp (merge_at lt ge arr (s, l1) (s + l1, l2))
     (fun r => locperm arr r s (s + l1 + l2) /\
        (ord -> sorted_rng arr s (s + l1) -> sorted_rng arr (s + l1) (s + l1 + l2) ->
           sorted_rng r s (s + l1 + l2) /\ fsame arr r)).
Proof.
  intros Hs H1 H2 Hn. unfold merge_at. wps d.
  eapply wp_conseq. { apply gallop_spec; lia. }
  intros k (Hk1 & Hk2 & Hk3). unfold gkey, modified_comp in Hk2, Hk3. simpl in Hk2, Hk3.
  cbv zeta beta.
  (* everything before k is not greater than anything in the second run *)
  assert (PRE : ord -> sorted_rng arr s (s + l1) -> sorted_rng arr (s + l1) (s + l1 + l2) ->
     forall p q, s <= p < s + k -> s + l1 <= q < s + l1 + l2 -> lt (zn arr q) (zn arr p) = false).
  { intros [W GE] S1 S2 p q Hp Hq. specialize (Hk3 ltac:(lia)).
    apply (sw_negtrans lt W) with (y := zn arr (s + l1)).
    - destruct (Z.eq_dec q (s + l1)) as [->|]; [apply (sw_irrefl lt W)|apply S2; lia].
    - apply (sw_negtrans lt W) with (y := zn arr (s + (k - 1))); auto.
      destruct (Z.eq_dec p (s + (k-1))) as [->|]; [apply (sw_irrefl lt W)|apply S1; lia]. }
  wps d; zb.
  { wpr d. split; [apply locperm_refl|]. intros O S1 S2. split.
    - apply sorted_glue with (m := s + l1); auto. intros p q Hp Hq. apply PRE; auto; lia.
    - intros c; reflexivity. }
  wps d. eapply wp_conseq. { apply gallop_spec; lia. }
  intros lb (Hb1 & Hb2 & Hb3). unfold gkey, modified_comp in Hb2, Hb3. simpl in Hb2, Hb3.
  cbv beta.
  assert (POST : ord -> sorted_rng arr s (s + l1) -> sorted_rng arr (s + l1) (s + l1 + l2) ->
     forall p q, s <= p < s + l1 -> s + l1 + lb <= q < s + l1 + l2 -> lt (zn arr q) (zn arr p) = false).
  { intros [W GE] S1 S2 p q Hp Hq. specialize (Hb2 ltac:(lia)).
    rewrite GE in Hb2. apply negb_true_iff in Hb2.
    apply (sw_negtrans lt W) with (y := zn arr (s + l1 + lb)).
    - destruct (Z.eq_dec q (s + l1 + lb)) as [->|]; [apply (sw_irrefl lt W)|apply S2; lia].
    - apply (sw_negtrans lt W) with (y := zn arr (s + l1 - 1)); auto.
      destruct (Z.eq_dec p (s + l1 - 1)) as [->|]; [apply (sw_irrefl lt W)|apply S1; lia]. }
  wps d; zb.
  { wpr d. split; [apply locperm_refl|]. intros O S1 S2. split.
    - apply sorted_glue with (m := s + l1); auto. intros p q Hp Hq. apply POST; auto; lia.
    - intros c; reflexivity. }
  pose proof (merge_with_gallop_spec arr (s + k) (l1 - k) lb) as HM.
  replace (s + k + (l1 - k)) with (s + l1) in HM by lia.
  eapply wp_conseq. { apply HM; lia. } clear HM.
  intros r (O & L & P & S).
  assert (LP : locperm arr r (s + k) (s + l1 + lb)).
  { split; auto. apply range_perm with (lo := s + k) (hi := s + l1 + lb); auto; lia. }
  split.
  { eapply locperm_weaken; [| |exact LP]; lia. }
  intros OR S1 S2. specialize (PRE OR S1 S2). specialize (POST OR S1 S2).
  assert (M : mord arr (s + k) (l1 - k) lb).
  { unfold mord. replace (s + k + (l1 - k)) with (s + l1) by lia.
    split; [exact OR|]. destruct OR as [W GE]. split; [|split; [|split]].
    - intros p q Hp Hq. rewrite !(zn_zsub d) by lia. apply S1; lia.
    - intros p q Hp Hq. rewrite !(zn_zsub d) by lia. apply S2; lia.
    - rewrite !(zn_zsub d) by lia. rewrite !Z.add_0_r. apply Hk2; lia.
    - rewrite !(zn_zsub d) by lia. specialize (Hb3 ltac:(lia)). rewrite GE in Hb3.
      apply negb_false_iff in Hb3. rewrite <- Hb3. f_equal; f_equal; lia. }
  destruct (S M) as [SM FM]. split.
  - apply sorted_glue with (m := s + k).
    + apply sorted_rng_ext with (a := arr); [|eapply sorted_rng_weaken; [| |exact S1]; lia].
      intros i Hi. apply O; lia.
    + apply sorted_glue with (m := s + l1 + lb); auto.
      * apply sorted_rng_ext with (a := arr); [|eapply sorted_rng_weaken; [| |exact S2]; lia].
        intros i Hi. apply O; lia.
      * intros p q Hp Hq. rewrite (O q) by lia.
        revert p Hp. apply (locperm_forall d (fun x => lt (zn arr q) x = false) arr r (s+k) (s+l1+lb));
          auto; try lia.
        intros p Hp. destruct (Z_lt_le_dec p (s + l1)); [apply POST; lia|apply S2; lia].
    + intros p q Hp Hq. rewrite (O p) by lia.
      revert q Hq. apply (locperm_forall d (fun x => lt x (zn arr p) = false) arr r (s+k) (s+l1+lb));
          auto; try lia.
      intros q Hq. destruct (Z_lt_le_dec q (s + l1)); [apply S1; lia|apply PRE; lia].
  - apply range_fsame with (lo := s + k) (hi := s + l1 + lb); auto; lia.
Qed.

(** ** The stack of runs *)

Fixpoint runs (arr : list A) (begin : Z) (stack : list (Z * Z)) (e : Z) : Prop :=
  match stack with
  | [] => e = begin
  | (s, n) :: rest =>
      0 < n /\ s + n = e /\ (ord -> sorted_rng arr s e) /\ runs arr begin rest s
  end.

Lemma runs_le arr begin stack e : runs arr begin stack e -> begin <= e.
Proof.
  revert e; induction stack as [|[s n] rest IH]; simpl; intros e; [lia|].
  intros (H1 & H2 & _ & H3). apply IH in H3. lia.
Qed.

Lemma runs_ext arr arr' begin stack e :
  (forall i, begin <= i < e -> zn arr' i = zn arr i) ->
  runs arr begin stack e -> runs arr' begin stack e.
Proof.
  revert e; induction stack as [|[s n] rest IH]; simpl; intros e HE; auto.
  intros (H1 & H2 & H3 & H4). pose proof (runs_le _ _ _ _ H4). repeat split; auto.
  - intros O. apply sorted_rng_ext with (a := arr); auto. intros i Hi. apply HE. lia.
  - apply IH; auto. intros i Hi. apply HE. lia.
Qed.

Definition step_ok (arr r : list A) (begin e : Z) : Prop :=
  locperm arr r begin e /\ (ord -> fsame arr r).

Lemma step_refl arr begin e : step_ok arr arr begin e.
Proof. split; [apply locperm_refl|]. intros _ c; reflexivity. Qed.

Lemma step_trans a b c begin e : step_ok a b begin e -> step_ok b c begin e -> step_ok a c begin e.
Proof.
  intros [H1 H2] [H3 H4]. split; [eapply locperm_trans; eauto|].
  intros O. eapply fsame_trans; eauto.
Qed.

(** Merging the two runs on top of a stack. *)
Lemma merge_top_spec arr begin sB nB sC nC rest e :
  0 <= begin -> e <= zlen arr ->
  runs arr begin ((sC, nC) :: (sB, nB) :: rest) e ->
  wp (merge_at lt ge arr (sB, nB) (sC, nC))
     (fun r => runs r begin ((sB, nB + nC) :: rest) e /\ step_ok arr r begin e /\
               locperm arr r sB e).
Proof.
  intros Hb He HR. simpl in HR. destruct HR as (H1 & H2 & H3 & H4 & H5 & H6 & H7).
  pose proof (runs_le _ _ _ _ H7) as Hle.
  subst sC. eapply wp_conseq. { apply merge_at_spec; lia. }
  intros r (LP & HS). cbv beta. assert (Ee : sB + nB + nC = e) by lia.
  rewrite Ee in LP, HS.
  split; [|split; [|exact LP]].
  - simpl. split; [lia|]. split; [lia|]. split.
    + intros O. apply HS; auto.
    + apply runs_ext with (arr := arr); auto. intros i Hi.
      apply (locperm_out d _ _ _ _ _ LP); lia.
  - split; [eapply locperm_weaken; [| |exact LP]; lia|]. intros O. apply HS; auto.
Qed.

(** Merging the second and third runs of a stack. *)
Lemma merge_second_spec arr begin sA nA sB nB sC nC rest e :
  0 <= begin -> e <= zlen arr ->
  runs arr begin ((sC, nC) :: (sB, nB) :: (sA, nA) :: rest) e ->
  wp (merge_at lt ge arr (sA, nA) (sB, nB))
     (fun r => runs r begin ((sC, nC) :: (sA, nA + nB) :: rest) e /\ step_ok arr r begin e).
Proof.
  intros Hb He HR. simpl in HR. destruct HR as (H1 & H2 & H3 & HR).
  assert (HR' : runs arr begin ((sB, nB) :: (sA, nA) :: rest) sC) by exact HR.
  pose proof (runs_le _ _ _ _ HR') as Hle.
  eapply wp_conseq. { apply merge_top_spec with (begin := begin) (e := sC) (rest := rest); auto; lia. }
  intros r (R & (LP1 & F) & LP). cbv beta. split.
  - simpl in *. split; [lia|]. split; [lia|]. split; [|exact R].
    intros O. apply sorted_rng_ext with (a := arr); auto.
    intros i Hi. apply (locperm_out d _ _ _ _ _ LP1); lia.
  - split; auto. eapply locperm_weaken; [| |exact LP1]; lia.
Qed.

Lemma merge_collapse_spec arr begin stack e :
  0 <= begin -> e <= zlen arr -> runs arr begin stack e ->
  wp (merge_collapse lt ge arr stack)
     (fun '(r, st) => runs r begin st e /\ step_ok arr r begin e).
Proof.
  intros Hb He HR. unfold merge_collapse. wps d.
  eapply wp_conseq.
  { apply (wp_loop (fun '(r, st) => runs r begin st e /\ step_ok arr r begin e)
             (fun '(r, st) => length st) _
             (fun '(r, st) => runs r begin st e /\ step_ok arr r begin e)).
    - intros [r st] (R & S). unfold collapse_body.
      assert (L : zlen r = zlen arr) by apply (locperm_zlen d _ _ _ _ (proj1 S)).
      destruct st as [|[sC nC] [|[sB nB] [|[sA nA] rest]]]; try (wpr d; split; assumption).
      simpl fst. simpl snd.
      wps d; [wpr d; split; assumption|].
      wps d.
      + wps d. eapply wp_conseq.
        { apply merge_second_spec with (begin := begin) (e := e) (rest := rest) (sC := sC) (nC := nC); auto; lia. }
        intros r' (R' & S'). wpr d. split; [split; [exact R'|eapply step_trans; eauto]|simpl; lia].
      + wps d. eapply wp_conseq.
        { apply merge_top_spec with (begin := begin) (e := e) (rest := (sA, nA) :: rest); auto; lia. }
        intros r' (R' & S' & _). wpr d. split; [split; [exact R'|eapply step_trans; eauto]|simpl; lia].
    - split; [assumption|apply step_refl].
    - lia. }
  intros [r st] (R & S). cbv beta iota.
  assert (L : zlen r = zlen arr) by apply (locperm_zlen d _ _ _ _ (proj1 S)).
  destruct st as [|[sC nC] [|[sB nB] [|X rest]]]; try (wpr d; split; assumption).
  simpl fst. simpl snd. wps d; [|wpr d; split; assumption].
  wps d. eapply wp_conseq.
  { apply merge_top_spec with (begin := begin) (e := e) (rest := []); auto; lia. }
  intros r' (R' & S' & _). wpr d. split; [exact R'|eapply step_trans; eauto].
Qed.

Lemma final_merge_spec arr begin stack e :
  0 <= begin < e -> e <= zlen arr -> runs arr begin stack e ->
  wp (final_merge lt ge arr stack)
     (fun r => (ord -> sorted_rng r begin e) /\ step_ok arr r begin e).
Proof.
  intros Hb He HR. unfold final_merge.
  apply (wp_loop (fun '(r, st) => runs r begin st e /\ step_ok arr r begin e)
             (fun '(r, st) => length st)).
  - intros [r st] (R & S).
    assert (L : zlen r = zlen arr) by apply (locperm_zlen d _ _ _ _ (proj1 S)).
    destruct st as [|[sC nC] [|[sB nB] rest]].
    + simpl in R. lia.
    + wpr d. simpl in R. destruct R as (R1 & R2 & R3 & R4). subst sC. split; assumption.
    + wps d. eapply wp_conseq.
      { apply merge_top_spec with (begin := begin) (e := e) (rest := rest); auto; lia. }
      intros r' (R' & S' & _). wpr d. split; [split; [exact R'|eapply step_trans; eauto]|simpl; lia].
  - split; [assumption|apply step_refl].
  - lia.
Qed.

(** ** Finding and reversing runs *)

Lemma run_loop_spec stop arr begin end_ i n :
  0 <= begin -> begin + 1 <= i -> i <= end_ -> end_ <= zlen arr -> n = i - begin ->
  wp (run_loop stop arr end_ i n)
     (fun m => n <= m /\ begin + m <= end_ /\
        forall p, i <= p < begin + m -> stop (zn arr (p-1)) (zn arr p) = false).
Proof.
  intros H1 H2 H3 H4 ->. unfold run_loop.
  apply (wp_loop (fun '(j, m) => i <= j <= end_ /\ m = j - begin /\
             forall p, i <= p < j -> stop (zn arr (p-1)) (zn arr p) = false)
           (fun '(j, m) => Z.to_nat (end_ - j))).
  - intros [j m] (B1 & -> & B3). wps d; zb.
    + wpr d. wps d; wpr d.
      * repeat split; try lia. intros p Hp. apply B3. lia.
      * repeat split; try lia. intros p Hp. destruct (Z.eq_dec p j) as [->|]; auto. apply B3; lia.
    + wpr d. repeat split; try lia. intros p Hp. apply B3. lia.
  - repeat split; intros; lia.
  - lia.
Qed.

Lemma count_run_spec arr begin end_ :
  0 <= begin < end_ -> end_ <= zlen arr ->
  wp (count_run lt ge arr begin end_)
     (fun '(n, inorder) => 1 <= n /\ begin + n <= end_ /\
        (ord -> forall p, begin < p < begin + n ->
          if inorder : bool then lt (zn arr (p-1)) (zn arr p) = true
          else lt (zn arr (p-1)) (zn arr p) = false)).
Proof.
  intros H1 H2. unfold count_run. wps d; zb.
  { wpr d. repeat split; intros; lia. }
  cbv zeta. wpr d. replace (begin + 1 - 1) with begin by lia.
  wps d; wps d.
  - eapply wp_conseq. { apply run_loop_spec with (begin := begin); lia. }
    intros n (B1 & B2 & B3). wpr d. split; [lia|]. split; [lia|].
    intros [W GE] p Hp. destruct (Z.eq_dec p (begin + 1)) as [->|].
    + replace (begin + 1 - 1) with begin by lia. rewrite GE in E0.
      now apply negb_true_iff in E0.
    + apply B3. lia.
  - eapply wp_conseq. { apply run_loop_spec with (begin := begin); lia. }
    intros n (B1 & B2 & B3). wpr d. split; [lia|]. split; [lia|].
    intros [W GE] p Hp. destruct (Z.eq_dec p (begin + 1)) as [->|].
    + replace (begin + 1 - 1) with begin by lia. rewrite GE in E0.
      now apply negb_false_iff in E0.
    + specialize (B3 p ltac:(lia)). rewrite GE in B3. now apply negb_false_iff in B3.
Qed.

Lemma reverse_spec fuel : forall arr b e,
  0 <= b <= e -> e <= zlen arr -> (Z.to_nat (e - b) < fuel)%nat ->
  wp (reverse_sortslice fuel arr b e)
     (fun r => locperm arr r b e /\ forall k, b <= k < e -> zn r k = zn arr (b + e - 1 - k)).
Proof.
  induction fuel as [|fuel IH]; intros arr b e H1 H2 Hf; [lia|].
  cbn [reverse_sortslice]. wps d; zb.
  - wpr d. split; [apply locperm_refl|]. intros k Hk. f_equal. lia.
  - wpr d. eapply wp_conseq. { apply IH; rewrite ?zlen_swp; lia. }
    intros r (LP & HR). cbv beta. split.
    + eapply locperm_trans; [apply (locperm_swp d arr b (e-1)); lia|].
      eapply locperm_weaken; [| |exact LP]; lia.
    + intros k Hk.
      destruct (Z.eq_dec k b) as [->|].
      { rewrite (locperm_out d _ _ _ _ _ LP) by (rewrite ?zlen_swp; lia).
        rewrite zn_swp by lia. destruct (Z.eqb_spec b (e-1)); [lia|]. rewrite Z.eqb_refl.
        f_equal. lia. }
      destruct (Z.eq_dec k (e-1)) as [->|].
      { rewrite (locperm_out d _ _ _ _ _ LP) by (rewrite ?zlen_swp; lia).
        rewrite zn_swp by lia. rewrite Z.eqb_refl. f_equal. lia. }
      rewrite HR by lia. rewrite zn_swp by lia.
      destruct (Z.eqb_spec (b + 1 + (e - 1) - 1 - k) (e-1)); [lia|].
      destruct (Z.eqb_spec (b + 1 + (e - 1) - 1 - k) b); [lia|]. f_equal. lia.
Qed.

Lemma adj_sorted (W : strict_weak lt) arr lo hi :
  (forall p, lo < p < hi -> lt (zn arr p) (zn arr (p-1)) = false) -> sorted_rng arr lo hi.
Proof.
  intros H i j Hi Hj.
  assert (G : forall m, 0 <= m -> i + 1 + m < hi -> lt (zn arr (i + 1 + m)) (zn arr i) = false).
  { intros m Hm. pattern m. apply natlike_ind; auto.
    - intros Hh. specialize (H (i+1) ltac:(lia)).
      replace (i + 1 - 1) with i in H by lia. now rewrite Z.add_0_r.
    - intros x Hx IH Hh. apply (sw_negtrans lt W) with (y := zn arr (i + 1 + x)).
      + specialize (H (i + 1 + Z.succ x) ltac:(lia)).
        now replace (i + 1 + Z.succ x - 1) with (i + 1 + x) in H by lia.
      + apply IH. lia. }
  replace j with (i + 1 + (j - i - 1)) by lia. apply G; lia.
Qed.

Lemma filter_rev' (p : A -> bool) l : filter p (rev l) = rev (filter p l).
Proof.
  induction l as [|x l IH]; auto. simpl. rewrite filter_app, IH. simpl.
  destruct (p x); simpl; auto. now rewrite app_nil_r.
Qed.

(** A strictly decreasing list has at most one element of each class. *)
Lemma strict_filter (W : strict_weak lt) l c :
  (forall i j, 0 <= i < j -> j < zlen l -> lt (zn l j) (zn l i) = true) ->
  (length (filter (eqv lt c) l) <= 1)%nat.
Proof.
  induction l as [|x l IH]; intros H; simpl; [lia|].
  assert (IH' : (length (filter (eqv lt c) l) <= 1)%nat).
  { apply IH. intros i j Hi Hj. specialize (H (i+1) (j+1)).
    unfold Arr.zn, zlen in *. simpl length in H.
    replace (Z.to_nat (i+1)) with (S (Z.to_nat i)) in H by lia.
    replace (Z.to_nat (j+1)) with (S (Z.to_nat j)) in H by lia.
    simpl in H. apply H; lia. }
  destruct (eqv lt c x) eqn:E; [|exact IH'].
  rewrite (filter_none _ l); [simpl; lia|].
  intros y Hy. apply (In_nth _ _ d) in Hy. destruct Hy as (n & Hn & <-).
  specialize (H 0 (Z.of_nat n + 1)). unfold Arr.zn, zlen in H. simpl length in H.
  replace (Z.to_nat (Z.of_nat n + 1)) with (S n) in H by lia. simpl in H.
  specialize (H ltac:(lia) ltac:(lia)).
  unfold eqv in *. apply andb_true_iff in E. destruct E as [E1 E2].
  apply negb_true_iff in E1, E2.
  destruct (lt (nth n l d) c) eqn:E3; [reflexivity|].
  exfalso. pose proof (sw_negtrans lt W _ _ _ E3 E2). congruence.
Qed.

Lemma rev_short {B} (l : list B) : (length l <= 1)%nat -> rev l = l.
Proof. destruct l as [|x [|y l]]; simpl; auto; lia. Qed.

(** No two neighbours of the input have equal keys. *)
Definition noadj (arr : list A) (lo hi : Z) : Prop :=
  forall p, lo < p < hi ->
    lt (zn arr (p-1)) (zn arr p) = true \/ lt (zn arr p) (zn arr (p-1)) = true.

Lemma adj_strict (W : strict_weak lt) arr lo hi :
  (forall p, lo < p < hi -> lt (zn arr p) (zn arr (p-1)) = true) ->
  forall i j, lo <= i < j -> j < hi -> lt (zn arr j) (zn arr i) = true.
Proof.
  intros H i j Hi Hj.
  assert (G : forall m, 0 <= m -> i + 1 + m < hi -> lt (zn arr (i + 1 + m)) (zn arr i) = true).
  { intros m Hm. pattern m. apply natlike_ind; auto.
    - intros Hh. specialize (H (i+1) ltac:(lia)).
      replace (i + 1 - 1) with i in H by lia. now rewrite Z.add_0_r.
    - intros x Hx IH Hh. apply (sw_trans lt W) with (y := zn arr (i + 1 + x)).
      + specialize (H (i + 1 + Z.succ x) ltac:(lia)).
        now replace (i + 1 + Z.succ x - 1) with (i + 1 + x) in H by lia.
      + apply IH. lia. }
  replace j with (i + 1 + (j - i - 1)) by lia. apply G; lia.
Qed.

Lemma zn_rev (l : list A) k : 0 <= k < zlen l -> zn (rev l) k = zn l (zlen l - 1 - k).
Proof.
  intros H. unfold Arr.zn, zlen in *. rewrite rev_nth by lia. f_equal. lia.
Qed.

Lemma rev_fsame (W : strict_weak lt) arr r b e :
  0 <= b <= e -> e <= zlen arr -> locperm arr r b e ->
  (forall k, b <= k < e -> zn r k = zn arr (b + e - 1 - k)) ->
  (forall p, b < p < e -> lt (zn arr p) (zn arr (p-1)) = true) ->
  fsame arr r.
Proof.
  intros H1 H2 LP HR HD.
  pose proof (locperm_zlen d _ _ _ _ LP) as HL.
  apply range_fsame with (lo := b) (hi := e); auto; [apply LP|].
  assert (E : zsub r b e = rev (zsub arr b e)).
  { apply (list_eq_zn d).
    - unfold zlen. rewrite rev_length, !zsub_length by lia. reflexivity.
    - rewrite zlen_zsub by lia. intros i Hi. rewrite zn_rev by (rewrite zlen_zsub; lia).
      rewrite zlen_zsub by lia. rewrite !(zn_zsub d) by lia. rewrite HR by lia. f_equal. lia. }
  intros c. rewrite E, filter_rev'. apply rev_short. apply strict_filter; auto.
  intros i j Hi Hj. rewrite zlen_zsub in Hj by lia. rewrite !(zn_zsub d) by lia.
  apply adj_strict with (lo := b) (hi := e); auto; lia.
Qed.

(** ** The main loop *)

Lemma minrun_ok n : 0 <= n -> wp (minrun n) (fun _ => True).
Proof.
  intros Hn. unfold minrun.
  apply (wp_loop (fun '(m, _) => 0 <= m) (fun '(m, _) => Z.to_nat m)).
  - intros [m r] Hm. wps d; zb; wpr d; auto.
    pose proof (half_bounds m). lia.
  - assumption.
  - lia.
Qed.

Theorem tim_sort_spec arr begin end_ :
  0 <= begin <= end_ -> end_ <= zlen arr ->
  wp (tim_sort lt ge arr begin end_)
     (fun r => locperm arr r begin end_ /\
        (ord -> sorted_rng r begin end_ /\ (noadj arr begin end_ -> fsame arr r))).
Proof.
  intros H1 H2. unfold tim_sort. wps d; zb.
  { wpr d. split; [apply locperm_refl|]. intros O. split.
    - intros p q Hp Hq. lia.
    - intros _ c. reflexivity. }
  wps d. eapply wp_conseq. { apply minrun_ok; lia. } intros mr _. cbv beta.
  wps d. eapply wp_conseq.
  { apply (wp_loop (fun '(r, st, i) => begin <= i <= end_ /\ runs r begin st i /\
             locperm arr r begin i /\ (ord -> noadj arr begin end_ -> fsame arr r))
           (fun '(r, st, i) => Z.to_nat (end_ - i)) _
           (fun '(r, st) => runs r begin st end_ /\
             locperm arr r begin end_ /\ (ord -> noadj arr begin end_ -> fsame arr r))).
    - intros [[r st] i] (Hi & HR & LP & HF).
      pose proof (locperm_zlen d _ _ _ _ LP) as HL.
      unfold tim_body. wps d; zb.
      + wps d. eapply wp_conseq. { apply count_run_spec; lia. }
        intros [n inorder] (Hn1 & Hn2 & Hadj). cbv beta iota.
        (* the run after the optional reversal *)
        wps d. eapply wp_conseq with (P := fun r1 => locperm r r1 i (i + n) /\
            (ord -> sorted_rng r1 i (i + n)) /\
            (ord -> noadj arr begin end_ -> fsame r r1)).
        { destruct inorder; simpl negb; cbv iota.
          - wpr d. split; [apply locperm_refl|]. split.
            + intros [W GE]. apply adj_sorted; auto. intros p Hp. apply (sw_asym lt W).
              apply Hadj; [split; auto|lia].
            + intros _ _ c. reflexivity.
          - eapply wp_conseq. { apply reverse_spec; lia. }
            intros r1 (LP1 & HR1). cbv beta. split; [assumption|]. split.
            + intros O. assert (O' := O). destruct O' as [W GE].
              apply adj_sorted; auto. intros p Hp. rewrite !HR1 by lia.
              specialize (Hadj O (i + (i + n) - 1 - (p - 1)) ltac:(lia)). cbv beta iota in Hadj.
              rewrite <- Hadj. f_equal. f_equal. lia.
            + intros O NA. assert (O' := O). destruct O' as [W GE].
              apply rev_fsame with (b := i) (e := i + n); auto; try lia.
              intros p Hp. specialize (Hadj O p ltac:(lia)). cbv beta iota in Hadj.
              rewrite !(locperm_out d _ _ _ _ _ LP) in * by lia.
              destruct (NA p ltac:(lia)); congruence. }
        intros r1 (LP1 & S1 & F1). cbv beta.
        pose proof (locperm_zlen d _ _ _ _ LP1) as HL1.
        wps d. eapply wp_conseq with (P := fun '(r2, n2) => n <= n2 /\ i + n2 <= end_ /\
            locperm r1 r2 i (i + n2) /\
            (ord -> sorted_rng r2 i (i + n2)) /\ (ord -> fsame r1 r2)).
        { wps d; zb.
          - cbv zeta. wps d. eapply wp_conseq.
            { apply (insertion_sort_spec lt d); lia. }
            intros r2 (P2 & O2 & W2). wpr d.
            split; [lia|]. split; [lia|]. split; [split; assumption|]. split.
            + intros [W GE]. apply W2; auto.
            + intros [W GE]. intros c. apply (proj2 (proj2 (W2 W))). 
          - wpr d. split; [lia|]. split; [lia|]. split; [apply locperm_refl|]. split; auto.
            intros _ c. reflexivity. }
        intros [r2 n2] (Hn3 & Hn4 & LP2 & S2 & F2). cbv beta iota.
        pose proof (locperm_zlen d _ _ _ _ LP2) as HL2.
        assert (LP12 : locperm r r2 i (i + n2)).
        { eapply locperm_trans; [|exact LP2]. eapply locperm_weaken; [| |exact LP1]; lia. }
        wps d. eapply wp_conseq.
        { apply merge_collapse_spec with (begin := begin) (e := i + n2); try lia.
          simpl. split; [lia|]. split; [lia|]. split; [assumption|].
          apply runs_ext with (arr := r); auto.
          intros k Hk. apply (locperm_out d _ _ _ _ _ LP12); lia. }
        intros [r3 st3] (R3 & LP3 & F3). wpr d.
        split; [|lia]. split; [lia|]. split; [assumption|]. split.
        * eapply locperm_trans; [|exact LP3].
          eapply locperm_trans; [eapply locperm_weaken; [| |exact LP]; lia|].
          eapply locperm_weaken; [| |exact LP12]; lia.
        * intros O NA. eapply fsame_trans; [apply HF; auto|].
          eapply fsame_trans; [apply F1; auto|].
          eapply fsame_trans; [apply F2; auto|]. apply F3; auto.
      + wpr d. assert (i = end_) by lia. subst i. auto.
    - split; [lia|]. split; [reflexivity|]. split; [apply locperm_refl|].
      intros _ _ c. reflexivity.
    - lia. }
  intros [r st] (HR & LP & HF). cbv beta iota.
  pose proof (locperm_zlen d _ _ _ _ LP) as HL.
  eapply wp_conseq. { apply final_merge_spec with (begin := begin) (e := end_); auto; lia. }
  intros r' (S & LP' & F'). cbv beta. split; [eapply locperm_trans; eauto|].
  intros O. split; [auto|]. intros NA. eapply fsame_trans; [apply HF; auto|apply F'; auto].
Qed.

End Tim.
