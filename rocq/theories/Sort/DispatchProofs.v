(** From array-level specifications to statements about lists. *)
From Coq Require Import List ZArith Lia Bool Permutation Sorted.
From Verif.Common Require Import Result Arr Ord Tac.
From Verif.Sort Require Import Model InsProofs HeapProofs PdqProofs QModel QProofs TModel TProofs Dispatch.
Import ListNotations.
Local Open Scope Z_scope.

Section Lift.
Context {A : Type} (lt : A -> A -> bool).

Lemma prefix_split (d : A) l spare r :
  zlen r = zlen (l ++ spare) ->
  (forall i, zlen l <= i < zlen (l ++ spare) -> zn d r i = zn d (l ++ spare) i) ->
  r = zsub r 0 (zlen l) ++ spare.
Proof.
  intros HL HO. pose proof (zlen_nonneg l). pose proof (zlen_nonneg spare).
  rewrite zlen_app in HL, HO.
  rewrite (zsub_split3 r 0 (zlen l)) at 1 by lia.
  rewrite zsub_nil. simpl. f_equal.
  apply (list_eq_zn d); [rewrite zlen_zsub; lia|].
  rewrite zlen_zsub by lia. intros i Hi. rewrite (zn_zsub d) by lia.
  rewrite HO by lia. now rewrite (zn_app_r d) by lia.
Qed.

Lemma lift_result (d : A) l spare r :
  locperm d (l ++ spare) r 0 (zlen l) ->
  exists r', r = r' ++ spare /\ Permutation l r' /\ r' = zsub r 0 (zlen l).
Proof.
  intros LP. pose proof (zlen_nonneg l). pose proof (zlen_nonneg spare).
  exists (zsub r 0 (zlen l)). pose proof (locperm_zlen d _ _ _ _ LP) as HL.
  assert (E : r = zsub r 0 (zlen l) ++ spare).
  { apply (prefix_split d); auto. intros i Hi. apply (locperm_out d _ _ _ _ _ LP); lia. }
  split; [exact E|]. split; [|reflexivity].
  destruct LP as [P _]. rewrite E in P. now apply Permutation_app_inv_r in P.
Qed.

Lemma lift_sorted (d : A) (l spare r' : list A) :
  sorted_rng lt d (r' ++ spare) 0 (zlen r') -> sorted_by lt r'.
Proof.
  intros S. apply (sorted_rng_sorted_by lt d). eapply sorted_rng_ext; [|exact S].
  intros i Hi. now rewrite zn_app_l by lia.
Qed.

Lemma lift_stable (l spare r' : list A) :
  (forall c, filter (eqv lt c) (r' ++ spare) = filter (eqv lt c) (l ++ spare)) ->
  forall c, filter (eqv lt c) r' = filter (eqv lt c) l.
Proof.
  intros H c. specialize (H c). rewrite !filter_app in H. now apply app_inv_tail in H.
Qed.

Lemma lift_wp (d : A) (m : res (list A)) l spare (P : list A -> Prop) :
  wp m (fun r => locperm d (l ++ spare) r 0 (zlen l) /\ P r) ->
  exists r', m = Ok (r' ++ spare) /\ Permutation l r' /\ P (r' ++ spare).
Proof.
  intros H. apply wp_inv in H. destruct H as (r & E & LP & HP).
  destruct (lift_result d l spare r LP) as (r' & E1 & HPm & _). subst r.
  exists r'. auto.
Qed.

End Lift.

(** Reversal of the first [n] cells. *)
Section Rev.
Context {A : Type} (d : A).

Lemma list_reverse_spec (arr : list A) len :
  0 <= len <= zlen arr ->
  wp (list_reverse arr len) (fun r => zlen r = zlen arr /\
     (forall k, 0 <= k < len -> zn d r k = zn d arr (len - 1 - k)) /\
     (forall k, len <= k < zlen arr -> zn d r k = zn d arr k)).
Proof.
  intros H. unfold list_reverse.
  assert (Hh : 2 * (len / 2) <= len < 2 * (len / 2) + 2).
  { pose proof (Z.div_mod len 2 ltac:(lia)). pose proof (Z.mod_pos_bound len 2 ltac:(lia)). lia. }
  apply (wp_loop (fun '(r, i) => zlen r = zlen arr /\ 0 <= i <= len / 2 /\
     (forall k, 0 <= k < i -> zn d r k = zn d arr (len - 1 - k)) /\
     (forall k, i <= k < len - i -> zn d r k = zn d arr k) /\
     (forall k, len - i <= k < len -> zn d r k = zn d arr (len - 1 - k)) /\
     (forall k, len <= k < zlen arr -> zn d r k = zn d arr k))
     (fun '(r, i) => Z.to_nat (len - i))).
  - intros [r i] (L & Hi & H1 & H2 & H3 & H4). wps d; zb.
    + cbv zeta. wpr d. rewrite !zlen_upd.
      split; [|lia]. split; [assumption|]. split; [lia|].
      repeat split; intros k Hk; rewrite !(zn_upd d) by (rewrite ?zlen_upd; lia);
        destruct (Z.eqb_spec k (len - i - 1)); destruct (Z.eqb_spec k i); subst; try lia.
      * rewrite H2 by lia. f_equal; lia.
      * apply H1; lia.
      * apply H2; lia.
      * rewrite H2 by lia. f_equal; lia.
      * apply H3; lia.
      * apply H4; lia.
    + wpr d. split; [assumption|]. split; [|assumption].
      intros k Hk. destruct (Z_lt_le_dec k i); [apply H1; lia|].
      destruct (Z_lt_le_dec k (len - i)); [|apply H3; lia].
      rewrite H2 by lia. f_equal. lia.
  - split; [reflexivity|]. pose proof (Z.div_pos len 2). split; [lia|].
    repeat split; intros; try lia; reflexivity.
  - lia.
Qed.

Lemma list_reverse_rev (l spare : list A) :
  list_reverse (l ++ spare) (zlen l) = Ok (rev l ++ spare).
Proof.
  pose proof (zlen_nonneg l) as Hl. pose proof (zlen_nonneg spare) as Hs.
  assert (W := list_reverse_spec (l ++ spare) (zlen l)). rewrite zlen_app in W.
  specialize (W ltac:(lia)). apply wp_inv in W. destruct W as (r & E & L & H1 & H2).
  rewrite E. f_equal. 
  assert (LR : zlen (rev l) = zlen l) by (unfold zlen; now rewrite rev_length).
  apply (list_eq_zn d); [rewrite zlen_app; lia|].
  rewrite L. intros k Hk. destruct (Z_lt_le_dec k (zlen l)).
  - rewrite H1 by lia. rewrite (zn_app_l d (rev l)) by lia. rewrite zn_app_l by lia.
    rewrite (zn_rev d) by lia. reflexivity.
  - rewrite H2 by lia.
    assert (E1 : zn d (l ++ spare) (zlen l + (k - zlen l)) = zn d spare (k - zlen l))
      by (apply zn_app_r; lia).
    assert (E2 : zn d (rev l ++ spare) (zlen (rev l) + (k - zlen l)) = zn d spare (k - zlen l))
      by (apply zn_app_r; lia).
    rewrite LR in E2. replace (zlen l + (k - zlen l)) with k in E1, E2 by lia. congruence.
Qed.
End Rev.

Lemma list_reverse_nil {A} (spare : list A) : list_reverse spare 0 = Ok spare.
Proof. reflexivity. Qed.

Lemma reverse_all {A} (l spare : list A) :
  list_reverse (l ++ spare) (zlen l) = Ok (rev l ++ spare).
Proof. destruct l as [|x l]; [reflexivity|]. apply (list_reverse_rev x). Qed.

Lemma sorted_rev {A} (lt : A -> A -> bool) l :
  sorted_by lt l -> sorted_by (fun x y => lt y x) (rev l).
Proof.
  destruct l as [|d l0]; [intros; constructor|]. set (l := d :: l0).
  intros H. apply (sorted_rng_sorted_by lt d) in H.
  apply (sorted_rng_sorted_by (fun x y => lt y x) d).
  intros i j Hi Hj. assert (LR : zlen (rev l) = zlen l) by (unfold zlen; now rewrite rev_length).
  rewrite LR in Hj. rewrite !(zn_rev d) by lia. apply H; lia.
Qed.

Section Algos.
Context {A : Type} (lt ge eq : A -> A -> bool).

Ltac empty l := destruct l as [|d l0]; [exists []; repeat split; auto; try constructor; fail|].

Lemma insertion_lift l spare :
  strict_weak lt ->
  exists r, insertion_sort_array lt (l ++ spare) (zlen l) = Ok (r ++ spare) /\ stable_sort_of lt l r.
Proof.
  intros W. destruct l as [|d l0].
  { exists []. split; [reflexivity|]. repeat split; constructor. }
  set (l := d :: l0). pose proof (zlen_nonneg l). pose proof (zlen_nonneg spare).
  assert (S := insertion_sort_spec lt d (l ++ spare) 0 (zlen l)). rewrite zlen_app in S.
  specialize (S ltac:(lia) ltac:(lia)).
  destruct (lift_wp d (insertion_sort_array lt (l ++ spare) (zlen l)) l spare
     (fun r => sorted_rng lt d r 0 (zlen l) /\ stab lt (l ++ spare) r)) as (r & E & P & Q & R).
  { eapply wp_conseq; [exact S|]. intros r (P & O & H1). split; [split; assumption|]. auto. }
  exists r. split; [exact E|]. split; [split; auto|].
  - apply (lift_sorted lt d l spare). now rewrite (perm_zlen _ _ P).
  - intros k. destruct R as [_ R]. apply (lift_stable lt l spare r R).
Qed.

Lemma heap_lift l spare :
  strict_weak lt ->
  exists r, heap_sort_array lt (l ++ spare) (zlen l) = Ok (r ++ spare) /\ is_sort_of lt l r.
Proof.
  intros W. destruct l as [|d l0].
  { exists []. split; [reflexivity|]. repeat split; constructor. }
  set (l := d :: l0). pose proof (zlen_nonneg l). pose proof (zlen_nonneg spare).
  assert (S := heap_sort_spec lt d (l ++ spare) 0 (zlen l)). rewrite zlen_app in S.
  specialize (S ltac:(lia) ltac:(lia)).
  destruct (lift_wp d (heap_sort_array lt (l ++ spare) (zlen l)) l spare
     (fun r => sorted_rng lt d r 0 (zlen l))) as (r & E & P & Q).
  { eapply wp_conseq; [exact S|]. intros r (P & O & H1). split; [split; assumption|]. auto. }
  exists r. split; [exact E|]. split; auto.
  apply (lift_sorted lt d l spare). now rewrite (perm_zlen _ _ P).
Qed.

Lemma pdq_lift_safe l spare :
  (forall x y, lt x y = true -> lt y x = false) ->
  exists r, pdq_sort_array lt (l ++ spare) (zlen l) = Ok (r ++ spare) /\ Permutation l r /\
            (strict_weak lt -> sorted_by lt r).
Proof.
  intros W. destruct l as [|d l0].
  { exists []. split; [reflexivity|]. repeat split; constructor. }
  set (l := d :: l0). pose proof (zlen_nonneg l). pose proof (zlen_nonneg spare).
  assert (S := pdq_sort_array_spec lt d W (l ++ spare) (zlen l)). rewrite zlen_app in S.
  specialize (S ltac:(lia)).
  destruct (lift_wp d (pdq_sort_array lt (l ++ spare) (zlen l)) l spare
     (fun r => strict_weak lt -> sorted_rng lt d r 0 (zlen l))) as (r & E & P & Q).
  { exact S. }
  exists r. split; [exact E|]. split; auto. intros W2.
  apply (lift_sorted lt d l spare). rewrite (perm_zlen _ _ P). auto.
Qed.

Lemma pdq_lift l spare :
  strict_weak lt ->
  exists r, pdq_sort_array lt (l ++ spare) (zlen l) = Ok (r ++ spare) /\ is_sort_of lt l r.
Proof.
  intros W. destruct (pdq_lift_safe l spare (sw_asym lt W)) as (r & E & P & S).
  exists r. split; auto. split; auto.
Qed.

Lemma q_lift l spare :
  strict_weak lt -> (forall x y, eq x y = negb (lt x y) && negb (lt y x)) ->
  exists r, qsort_array lt eq (l ++ spare) (zlen l) = Ok (r ++ spare) /\ is_sort_of lt l r.
Proof.
  intros W EQ. destruct l as [|d l0].
  { exists []. split; [reflexivity|]. repeat split; constructor. }
  set (l := d :: l0). pose proof (zlen_nonneg l). pose proof (zlen_nonneg spare).
  assert (S := qsort_array_spec lt eq d W EQ (l ++ spare) (zlen l)). rewrite zlen_app in S.
  specialize (S ltac:(lia)).
  destruct (lift_wp d (qsort_array lt eq (l ++ spare) (zlen l)) l spare
     (fun r => sorted_rng lt d r 0 (zlen l))) as (r & E & P & Q).
  { exact S. }
  exists r. split; [exact E|]. split; auto.
  apply (lift_sorted lt d l spare). now rewrite (perm_zlen _ _ P).
Qed.

Lemma tim_lift_safe l spare :
  exists r, tim_sort_array lt ge (l ++ spare) (zlen l) = Ok (r ++ spare) /\ Permutation l r /\
    (strict_weak lt -> (forall x y, ge x y = negb (lt x y)) ->
       sorted_by lt r /\
       ((forall p x y s, l = p ++ x :: y :: s -> lt x y = true \/ lt y x = true) ->
        forall c, filter (eqv lt c) r = filter (eqv lt c) l)).
Proof.
  destruct l as [|d l0].
  { exists []. split; [reflexivity|]. repeat split; constructor. }
  set (l := d :: l0). pose proof (zlen_nonneg l). pose proof (zlen_nonneg spare).
  assert (S := tim_sort_spec lt ge d (l ++ spare) 0 (zlen l)). rewrite zlen_app in S.
  specialize (S ltac:(lia) ltac:(lia)).
  destruct (lift_wp d (tim_sort_array lt ge (l ++ spare) (zlen l)) l spare
     (fun r => ord lt ge -> sorted_rng lt d r 0 (zlen l) /\
        (noadj lt d (l ++ spare) 0 (zlen l) -> fsame lt (l ++ spare) r))) as (r & E & P & Q).
  { exact S. }
  exists r. split; [exact E|]. split; [assumption|]. intros W GE.
  destruct (Q (conj W GE)) as [Q1 Q2]. split.
  - apply (lift_sorted lt d l spare). now rewrite (perm_zlen _ _ P).
  - intros NA. apply (lift_stable lt l spare r). apply Q2.
    intros p Hp. rewrite !zn_app_l by lia.
    pose proof (zsub_split3 l (p-1) (p+1) ltac:(lia) ltac:(lia)) as Sp.
    rewrite (zsub_cons d l (p-1) (p+1)) in Sp by lia.
    replace (p - 1 + 1) with p in Sp by lia.
    rewrite (zsub_cons d l p (p+1)) in Sp by lia. rewrite zsub_nil in Sp. simpl in Sp.
    exact (NA _ _ _ _ Sp).
Qed.

Lemma tim_lift l spare :
  strict_weak lt -> (forall x y, ge x y = negb (lt x y)) ->
  exists r, tim_sort_array lt ge (l ++ spare) (zlen l) = Ok (r ++ spare) /\ is_sort_of lt l r.
Proof.
  intros W GE. destruct (tim_lift_safe l spare) as (r & E & P & S).
  exists r. split; auto. split; auto. now apply S.
Qed.

Lemma sort_list_lift a l spare :
  strict_weak lt -> (forall x y, ge x y = negb (lt x y)) ->
  (forall x y, eq x y = negb (lt x y) && negb (lt y x)) ->
  exists r, sort_list lt ge eq a (l ++ spare) (zlen l) = Ok (r ++ spare) /\ is_sort_of lt l r.
Proof.
  intros W GE EQ. destruct a; simpl; auto using tim_lift, pdq_lift, heap_lift, q_lift.
  destruct (insertion_lift l spare W) as (r & E & S & _). eauto.
Qed.

Lemma list_sort_lift a has_key compat reverse l spare :
  strict_weak lt -> (forall x y, ge x y = negb (lt x y)) ->
  (forall x y, eq x y = negb (lt x y) && negb (lt y x)) ->
  exists r, list_sort lt ge eq a has_key compat reverse (l ++ spare) (zlen l) = Ok (r ++ spare) /\
            is_sort_of (if reverse then (fun x y => lt y x) else lt) l r.
Proof.
  intros W GE EQ.
  assert (H : exists r, (if has_key then sort_list lt ge eq a (l ++ spare) (zlen l)
           else match a with
                | Auto => if 0 <? zlen l then
                            if compat then pdq_sort_array lt (l ++ spare) (zlen l)
                            else tim_sort_array lt ge (l ++ spare) (zlen l)
                          else Ok (l ++ spare)
                | _ => sort_list lt ge eq a (l ++ spare) (zlen l)
                end) = Ok (r ++ spare) /\ is_sort_of lt l r).
  { destruct has_key; [now apply sort_list_lift|].
    destruct a; try now apply sort_list_lift.
    destruct (Z.ltb_spec 0 (zlen l)).
    - destruct compat; auto using tim_lift, pdq_lift.
    - destruct l as [|x l]; [|unfold zlen in *; simpl in *; lia].
      exists []. split; auto. split; constructor. }
  destruct H as (r & E & P & S). unfold list_sort. rewrite E. simpl bind.
  destruct reverse.
  - exists (rev r). rewrite <- (perm_zlen _ _ P). split; [apply reverse_all|].
    split; [rewrite P; apply Permutation_rev|]. now apply sorted_rev.
  - exists r. split; auto. split; auto.
Qed.

End Algos.
