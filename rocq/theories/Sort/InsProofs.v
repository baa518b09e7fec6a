(** Proofs about [_insertion_sort]. *)
From Coq Require Import List ZArith Lia Bool Permutation.
From Verif.Common Require Import Result Arr Ord Tac.
From Verif.Sort Require Import Model.
Import ListNotations.
Local Open Scope Z_scope.

Section Ins.
Context {A : Type} (lt : A -> A -> bool) (d : A).
Notation zn := (@zn A d).
Notation swp := (@swp A d).
Notation same_out := (@same_out A d).
Notation sorted_rng := (@sorted_rng A lt d).

Definition eqv (k x : A) : bool := negb (lt x k) && negb (lt k x).

(** Same elements, and ties in the same order. *)
Definition stab (a b : list A) : Prop :=
  Permutation a b /\ forall k, filter (eqv k) b = filter (eqv k) a.

Lemma stab_refl a : stab a a.
Proof. split; auto. Qed.

Lemma stab_trans a b c : stab a b -> stab b c -> stab a c.
Proof.
  intros [P1 F1] [P2 F2]. split; [now rewrite P1|].
  intros k. now rewrite F2, F1.
Qed.

Lemma split_adj (a : list A) j :
  0 <= j -> j + 1 < zlen a ->
  a = zsub a 0 j ++ [zn a j; zn a (j+1)] ++ zsub a (j+2) (zlen a).
Proof.
  intros H1 H2.
  rewrite (zsub_split3 a j (j+2)) at 1 by lia. f_equal. f_equal.
  apply (list_eq_zn d).
  - unfold zlen at 1. rewrite zsub_length by lia. unfold zlen. simpl. lia.
  - unfold zlen at 1. rewrite zsub_length by lia. intros i Hi.
    rewrite zn_zsub by lia.
    assert (i = 0 \/ i = 1) as [-> | ->] by lia.
    + now rewrite Z.add_0_r.
    + reflexivity.
Qed.

Lemma filter_adj_swap (p : A -> bool) a j :
  0 <= j -> j + 1 < zlen a ->
  p (zn a j) = false \/ p (zn a (j+1)) = false ->
  filter p (swp a j (j+1)) = filter p a.
Proof.
  intros H1 H2 Hp.
  rewrite (split_adj a j H1 H2) at 2.
  rewrite (split_adj (swp a j (j+1)) j) by (rewrite ?zlen_swp; lia).
  rewrite zlen_swp.
  assert (E1 : zsub (swp a j (j+1)) 0 j = zsub a 0 j).
  { apply (zsub_ext d); rewrite ?zlen_swp; try lia.
    intros i Hi. rewrite zn_swp by lia.
    destruct (Z.eqb_spec i (j+1)); [lia|]. destruct (Z.eqb_spec i j); [lia|]. auto. }
  assert (E2 : zsub (swp a j (j+1)) (j+2) (zlen a) = zsub a (j+2) (zlen a)).
  { apply (zsub_ext d); rewrite ?zlen_swp; try lia.
    intros i Hi. rewrite zn_swp by lia.
    destruct (Z.eqb_spec i (j+1)); [lia|]. destruct (Z.eqb_spec i j); [lia|]. auto. }
  rewrite E1, E2. rewrite !zn_swp by lia.
  rewrite Z.eqb_refl. destruct (Z.eqb_spec j (j+1)); [lia|].
  destruct (Z.eqb_spec (j+1) j); [lia|]. rewrite Z.eqb_refl.
  rewrite !filter_app. f_equal. f_equal. simpl.
  destruct Hp as [Hp|Hp]; rewrite Hp; destruct (p _); reflexivity.
Qed.

Lemma adj_swap_stab a j :
  strict_weak lt -> 0 <= j -> j + 1 < zlen a ->
  lt (zn a (j+1)) (zn a j) = true ->
  stab a (swp a j (j+1)).
Proof.
  intros W H1 H2 Hlt. split.
  - symmetry. apply swp_perm; lia.
  - intros k. apply filter_adj_swap; auto.
    unfold eqv.
    destruct (lt (zn a j) k) eqn:E1; [left; reflexivity|].
    destruct (lt k (zn a j)) eqn:E2; [left; reflexivity|].
    right.
    destruct (lt (zn a (j+1)) k) eqn:E3; [reflexivity|].
    exfalso. pose proof (sw_negtrans lt W _ _ _ E3 E2) as E4. congruence.
Qed.

(** Inner loop of insertion sort. *)
Lemma ins_inner_spec arr begin i x :
  0 <= begin <= i - 1 -> i < zlen arr -> x = zn arr i ->
  wp (loop (S (Z.to_nat (i - begin))) (ins_inner lt begin x) (arr, i - 1))
     (fun '(b, j) =>
        begin - 1 <= j <= i - 1 /\ zlen b = zlen arr /\
        Permutation arr (upd b (j+1) x) /\
        (forall k, 0 <= k < zlen arr -> k <= j -> zn b k = zn arr k) /\
        (forall k, j + 1 < k <= i -> zn b k = zn arr (k-1) /\ lt x (zn b k) = true) /\
        (forall k, i < k < zlen arr -> zn b k = zn arr k) /\
        (begin <= j -> lt x (zn b j) = false) /\
        (strict_weak lt -> stab arr (upd b (j+1) x))).
Proof.
  intros Hb Hi Hx.
  apply (wp_loop
    (fun '(b, j) =>
        begin - 1 <= j <= i - 1 /\ zlen b = zlen arr /\
        Permutation arr (upd b (j+1) x) /\
        (forall k, 0 <= k < zlen arr -> k <= j -> zn b k = zn arr k) /\
        (forall k, j + 1 < k <= i -> zn b k = zn arr (k-1) /\ lt x (zn b k) = true) /\
        (forall k, i < k < zlen arr -> zn b k = zn arr k) /\
        (strict_weak lt -> stab arr (upd b (j+1) x)))
    (fun '(b, j) => Z.to_nat (j - begin + 1))).
  - intros [b j] (Hj & HL & HP & H1 & H2 & H3 & HS). unfold ins_inner.
    wps d; zb.
    + wpr d. wps d.
      * assert (Hperm : upd (upd b (j+1) (zn b j)) (j-1+1) x
                        = swp (upd b (j+1) x) j (j+1)).
        { replace (j - 1 + 1) with j by lia.
          apply (list_eq_zn d); [now rewrite zlen_swp, !zlen_upd|].
          rewrite !zlen_upd. intros k Hk.
          rewrite zn_swp by (rewrite ?zlen_upd; lia).
          rewrite !(zn_upd d) by (rewrite ?zlen_upd; lia).
          destruct (Z.eqb_spec k j), (Z.eqb_spec k (j+1)), (Z.eqb_spec j (j+1));
            try lia; rewrite ?Z.eqb_refl; auto. }
        wpr d. rewrite zlen_upd.
        repeat split; try lia.
        -- rewrite Hperm. rewrite HP. symmetry. apply swp_perm; rewrite zlen_upd; lia.
        -- intros k Hk Hk'. rewrite zn_upd_other by lia. apply H1; lia.
        -- destruct (Z.eq_dec k (j+1)) as [->|Hn].
           ++ rewrite zn_upd_same by lia. rewrite H1 by lia. f_equal. lia.
           ++ rewrite zn_upd_other by lia. apply H2. lia.
        -- destruct (Z.eq_dec k (j+1)) as [->|Hn].
           ++ rewrite zn_upd_same by lia. assumption.
           ++ rewrite zn_upd_other by lia. apply H2. lia.
        -- intros k Hk. rewrite zn_upd_other by lia. apply H3. lia.
        -- rewrite Hperm. rewrite HP. symmetry. apply swp_perm; rewrite zlen_upd; lia.
        -- intros k. rewrite Hperm.
           destruct (HS H) as [_ HF]. rewrite <- HF.
           apply adj_swap_stab; rewrite ?zlen_upd; try assumption; try lia.
           rewrite !(zn_upd d) by lia. rewrite Z.eqb_refl.
           destruct (Z.eqb_spec j (j+1)); [lia|]. assumption.
      * wps d. repeat split; try lia; auto; try (apply HS; assumption); apply H2; lia.
    + wps d. repeat split; try lia; auto; try (apply HS; assumption); apply H2; lia.
  - assert (E : upd arr (i - 1 + 1) x = arr).
    { subst x. replace (i - 1 + 1) with i by lia. apply upd_self; lia. }
    rewrite E. repeat split; intros; try lia; auto; apply stab_refl.
  - lia.
Qed.

Theorem insertion_sort_spec arr begin end_ :
  0 <= begin -> end_ <= zlen arr ->
  wp (insertion_sort lt arr begin end_)
     (fun r => Permutation arr r /\ same_out arr r begin end_ /\
               (strict_weak lt -> sorted_rng r begin end_ /\ stab arr r)).
Proof.
  intros Hb He. unfold insertion_sort.
  apply (wp_loop
    (fun '(b, i) =>
       begin + 1 <= i /\ (begin < end_ -> i <= end_) /\ zlen b = zlen arr /\
       Permutation arr b /\
       same_out arr b begin (Z.min i end_) /\
       (strict_weak lt -> sorted_rng b begin (Z.min i end_) /\ stab arr b))
    (fun '(b, i) => Z.to_nat (end_ - i))).
  - intros [b i] (Hi1 & Hi2 & HL & HP & HO & HS). unfold ins_outer.
    wps d; zb.
    + wpr d.
      eapply wp_conseq.
      { apply ins_inner_spec; try lia. reflexivity. }
      intros [b1 j] (Hj & HL1 & HP1 & H1 & H2 & H3 & Hstop & HS1).
      wpr d. rewrite zlen_upd.
      split; [|lia].
      split; [lia|]. split; [lia|]. split; [lia|].
      split; [now rewrite HP|]. split.
      * intros k Hk Hout. rewrite (zn_upd d) by lia.
        destruct (Z.eqb_spec k (j+1)); [lia|].
        destruct (Z_lt_le_dec k begin).
        -- rewrite H1 by lia. apply HO; lia.
        -- rewrite H3 by lia. apply HO; lia.
      * intros W. destruct (HS W) as [Hsrt Hst]. split.
        -- intros p q Hpq Hq.
           assert (Hxx : lt (zn b i) (zn b i) = false) by apply (sw_irrefl lt W).
           rewrite !(zn_upd d) by lia.
           destruct (Z.eqb_spec q (j+1)) as [->|Hq'].
           { destruct (Z.eqb_spec p (j+1)); [lia|].
             destruct (Z.eq_dec p j) as [->|].
             - apply Hstop. lia.
             - apply (sw_negtrans lt W) with (y := zn b1 j).
               + apply Hstop. lia.
               + rewrite !H1 by lia. apply Hsrt; lia. }
           destruct (Z.eqb_spec p (j+1)) as [->|Hp'].
           { destruct (H2 q) as [_ Hx]; [lia|]. now apply (sw_asym lt W). }
           destruct (Z_lt_le_dec q (j+1)).
           { rewrite !H1 by lia. apply Hsrt; lia. }
           destruct (H2 q) as [E2 _]; [lia|]. rewrite E2.
           destruct (Z_lt_le_dec p (j+1)).
           { rewrite H1 by lia. apply Hsrt; lia. }
           destruct (H2 p) as [E3 _]; [lia|]. rewrite E3.
           apply Hsrt; lia.
        -- eapply stab_trans; [exact Hst|]. apply HS1. exact W.
    + wps d. repeat split; auto.
      * intros k Hk Hout. apply HO; lia.
      * intros p q Hp Hq. destruct (HS H) as [Hs _]. apply Hs; lia.
      * apply (HS H).
  - repeat split; auto; try lia.
    intros p q Hp Hq. lia.
  - lia.
Qed.

End Ins.
