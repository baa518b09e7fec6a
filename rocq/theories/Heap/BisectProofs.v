(** bisect *)
From Coq Require Import List ZArith Lia Bool Permutation Sorted ZifyBool.
From Verif.Common Require Import Result Int64 Arr Ord Stable Tac.
From Verif.Heap Require Import Model Spec.
Import ListNotations.
Local Open Scope Z_scope.
Local Arguments Z.mul : simpl never.
Local Arguments Z.add : simpl never.
Local Arguments Z.sub : simpl never.
Local Arguments Z.div : simpl never.

Section Bisect.
Context {A : Type} (p : A -> bool) (d : A).
Notation zn := (@zn A d).

Lemma bisect_by_spec a lo hi : 0 <= lo <= hi -> hi <= zlen a -> zlen a <= 2^62 ->
  wp (bisect_by p a lo (Some hi)) (fun i => lo <= i <= hi /\
    ((forall i j, lo <= i < j -> j < hi -> p (zn a j) = true -> p (zn a i) = true) ->
     forall k, lo <= k < hi -> p (zn a k) = (k <? i))).
Proof.
  intros H1 H2 H3. unfold bisect_by. replace (lo <? 0) with false by lia. cbv zeta.
  apply (wp_loop
    (fun '(l, h) => lo <= l <= h /\ h <= hi /\
       ((forall i j, lo <= i < j -> j < hi -> p (zn a j) = true -> p (zn a i) = true) ->
        (forall k, lo <= k < l -> p (zn a k) = true) /\ (forall k, h <= k < hi -> p (zn a k) = false)))
    (fun '(l, h) => Z.to_nat (h - l))).
  - intros [l h] (B1 & B2 & HI). unfold bisect_body.
    wps d; zb.
    + rewrite (w64_id (l + h)) by (unfold in64, min64, max64; lia). set (m := (l + h) / 2).
      assert (Hm : l <= m < h) by (unfold m; pose proof (Z.div_mod (l + h) 2); pose proof (Z.mod_pos_bound (l + h) 2); lia).
      clearbody m. replace ((m <? - zlen a) || (zlen a <=? m)) with false by lia. replace (m <? 0) with false by lia.
      wps d. wps d. wps d.
      * wpr d. split; [|lia]. split; [lia|]. split; [lia|]. intros M. destruct (HI M) as (I1 & I2). split; auto.
        intros k Hk. destruct (Z.eq_dec k m) as [->|]; auto. apply (M k m); auto; lia.
      * wpr d. split; [|lia]. split; [lia|]. split; [lia|]. intros M. destruct (HI M) as (I1 & I2). split; auto.
        intros k Hk. destruct (p (zn a k)) eqn:Ek; auto. destruct (Z.eq_dec k m) as [->|]; [congruence|].
        assert (p (zn a m) = true) by (apply (M m k); auto; lia). congruence.
    + wpr d. split; [lia|]. intros M k Hk. destruct (HI M) as (I1 & I2).
      destruct (Z.ltb_spec k l); [apply I1|apply I2]; lia.
  - split; [lia|]. split; [lia|]. intros M. split; intros; lia.
  - lia.
Qed.
Lemma bisect_default a lo : bisect_by p a lo None = bisect_by p a lo (Some (zlen a)).
Proof. reflexivity. Qed.
End Bisect.

Section Sorted.
Context {A : Type} (lt : A -> A -> bool) (W : strict_weak lt) (d : A).
Notation zn := (@zn A d).

Lemma left_mono x a lo hi : 0 <= lo -> sorted_rng lt d a lo hi ->
  forall i j, lo <= i < j -> j < hi -> lt (zn a j) x = true -> lt (zn a i) x = true.
Proof.
  intros H S i j Hi Hj E. destruct (lt (zn a i) x) eqn:Ei; auto.
  pose proof (sw_negtrans lt W _ _ _ (S i j Hi Hj) Ei). congruence.
Qed.
Lemma right_mono x a lo hi : 0 <= lo -> sorted_rng lt d a lo hi ->
  forall i j, lo <= i < j -> j < hi -> negb (lt x (zn a j)) = true -> negb (lt x (zn a i)) = true.
Proof.
  intros H S i j Hi Hj E. apply negb_true_iff in E. apply negb_true_iff.
  apply (sw_negtrans lt W) with (y := zn a j); auto.
Qed.

(** Inserting at the split point of the whole list. *)
Lemma insert_left_sorted x (a : list A) i : 0 <= i <= zlen a -> sorted_by lt a ->
  (forall k, 0 <= k < zlen a -> lt (zn a k) x = (k <? i)) ->
  sorted_by lt (firstn (Z.to_nat i) a ++ x :: skipn (Z.to_nat i) a).
Proof.
  intros Hi S. revert i Hi. unfold sorted_by in S. induction S as [|y t S IH F]; intros i Hi H.
  - rewrite firstn_nil, skipn_nil. repeat constructor.
  - unfold zlen in Hi. cbn [length] in Hi.
    destruct (Z.eq_dec i 0) as [->|N].
    + cbn [Z.to_nat firstn skipn app]. constructor; [constructor; auto|].
      rewrite Forall_forall. intros z Hz. destruct (In_nth _ _ d Hz) as (k & Hk & <-).
      specialize (H (Z.of_nat k)). unfold Arr.zn in H. rewrite Nat2Z.id in H. rewrite H by (unfold zlen; lia). lia.
    + replace (Z.to_nat i) with (Datatypes.S (Z.to_nat (i - 1))) by lia. cbn [firstn skipn app]. constructor.
      * apply IH; [unfold zlen; lia|]. intros k Hk. specialize (H (k + 1)). unfold Arr.zn, zlen in *.
        replace (Z.to_nat (k + 1)) with (Datatypes.S (Z.to_nat k)) in H by lia. cbn [nth length] in H. rewrite H by lia. lia.
      * rewrite Forall_forall in *. intros z Hz. apply in_app_or in Hz. destruct Hz as [Hz|[<-|Hz]].
        -- apply F. rewrite <- (firstn_skipn (Z.to_nat (i - 1)) t). apply in_or_app. now left.
        -- specialize (H 0). unfold Arr.zn in H. simpl in H. apply (sw_asym lt W). rewrite H by (unfold zlen; simpl; lia). lia.
        -- apply F. rewrite <- (firstn_skipn (Z.to_nat (i - 1)) t). apply in_or_app. now right.
Qed.
Lemma insert_right_ins x (a : list A) i : 0 <= i <= zlen a ->
  (forall k, 0 <= k < zlen a -> negb (lt x (zn a k)) = (k <? i)) ->
  firstn (Z.to_nat i) a ++ x :: skipn (Z.to_nat i) a = ins lt x a.
Proof.
  revert i. induction a as [|y t IH]; intros i Hi H.
  - rewrite firstn_nil, skipn_nil. reflexivity.
  - unfold zlen in *. cbn [length ins] in *. pose proof (H 0 ltac:(lia)) as H0. unfold Arr.zn in H0. simpl nth in H0.
    destruct (Z.eq_dec i 0) as [->|N].
    + cbn in H0. apply negb_false_iff in H0. rewrite H0. reflexivity.
    + replace (Z.to_nat i) with (Datatypes.S (Z.to_nat (i - 1))) by lia. cbn [firstn skipn app].
      replace (0 <? i) with true in H0 by lia. apply negb_true_iff in H0. rewrite H0. f_equal. apply IH; [lia|].
      intros k Hk. specialize (H (k + 1) ltac:(lia)). unfold Arr.zn in *.
      replace (Z.to_nat (k + 1)) with (Datatypes.S (Z.to_nat k)) in H by lia. cbn [nth] in H. rewrite H. lia.
Qed.
Lemma insert_at_in (a : list A) i x : 0 <= i <= zlen a -> insert_at a i x = firstn (Z.to_nat i) a ++ x :: skipn (Z.to_nat i) a.
Proof.
  intros H. unfold insert_at. cbv zeta. replace (i <? 0) with false by lia. replace (zlen a <? i) with false by lia. reflexivity.
Qed.
End Sorted.
