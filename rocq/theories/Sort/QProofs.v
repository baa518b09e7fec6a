(** Proofs about qsort.codon. *)
From Coq Require Import List ZArith Lia Bool Permutation.
From Verif.Common Require Import Result Arr Ord Tac.
From Verif.Sort Require Import QModel PdqProofs.
Import ListNotations.
Local Open Scope Z_scope.

Section Q.
Context {A : Type} (lt eq : A -> A -> bool) (dd : A).
Context (W : strict_weak lt).
(** [==] on keys agrees with [<]. *)
Context (eq_spec : forall x y, eq x y = negb (lt x y) && negb (lt y x)).
Notation zn := (@zn A dd).
Notation swp := (@swp A dd).
Notation locperm := (@locperm A dd).
Notation sorted_rng := (@sorted_rng A lt dd).

Let asym := sw_asym lt W.
Let irr := sw_irrefl lt W.

Lemma le_or x y : lt x y || eq x y = negb (lt y x).
Proof.
  rewrite eq_spec. destruct (lt x y) eqn:E; simpl.
  - now rewrite (asym _ _ E).
  - reflexivity.
Qed.

Lemma med3_spec a b c arr :
  0 <= a < zlen arr -> 0 <= b < zlen arr -> 0 <= c < zlen arr ->
  wp (med3 lt eq a b c arr) (fun m =>
    (m = a \/ m = b \/ m = c) /\
    (lt (zn arr a) (zn arr b) = false -> lt (zn arr c) (zn arr b) = false -> m = a \/ m = c)).
Proof.
  intros Ha Hb Hc. unfold med3. wpr dd. rewrite !le_or, !negb_involutive.
  destruct (lt (zn arr a) (zn arr b)); [split; [|discriminate]|].
  - destruct (lt (zn arr b) (zn arr c)); [auto|].
    destruct (lt (zn arr a) (zn arr c)); auto.
  - destruct (lt (zn arr c) (zn arr b)); split; auto; try discriminate;
      destruct (lt (zn arr c) (zn arr a)); auto.
Qed.

Lemma pick_spec arr frm cnt :
  0 <= frm -> 8 <= cnt -> frm + cnt <= zlen arr ->
  (forall i j, 0 <= i < frm -> frm <= j < frm + cnt -> lt (zn arr j) (zn arr i) = false) ->
  wp (pick lt eq arr frm cnt) (fun m => frm <= m < frm + cnt).
Proof.
  intros Hf Hc HL Hlow. unfold pick.
  assert (H2 : 2 * (cnt/2) <= cnt <= 2 * (cnt/2) + 1).
  { pose proof (Z.div_mod cnt 2). pose proof (Z.mod_pos_bound cnt 2). lia. }
  assert (H8 : 8 * (cnt/8) <= cnt <= 8 * (cnt/8) + 7).
  { pose proof (Z.div_mod cnt 8). pose proof (Z.mod_pos_bound cnt 8). lia. }
  set (m := cnt/2) in *. set (s := cnt/8) in *. clearbody m s. cbv zeta.
  (* an index below [frm] is never chosen as the median *)
  assert (FIN : forall lo mid hi, frm <= lo < frm+cnt -> 0 <= mid < frm+cnt -> frm <= hi < frm+cnt ->
     wp (med3 lt eq lo mid hi arr) (fun m => frm <= m < frm+cnt)).
  { intros lo mid hi H1 H3 H4. eapply wp_conseq; [apply med3_spec; lia|].
    intros r [R1 R2]. destruct (Z_lt_le_dec mid frm); [|lia].
    destruct R2; try lia; apply Hlow; lia. }
  wps dd; zb.
  - apply wp_bind. eapply wp_conseq; [apply med3_spec; lia|]. intros lo [Hlo _].
    apply wp_bind. eapply wp_conseq; [apply med3_spec; lia|]. intros mid [Hmid _].
    apply wp_bind. eapply wp_conseq; [apply med3_spec; lia|]. intros hi [Hhi _].
    apply FIN; lia.
  - apply FIN; lia.
Qed.

Lemma vecswap_spec arr i j n :
  0 <= n -> 0 <= i -> i + n <= j -> j + n <= zlen arr ->
  wp (vecswap arr i j n) (fun r => Permutation arr r /\
    forall k, 0 <= k < zlen arr ->
      zn r k = if (i <=? k) && (k <? i + n) then zn arr (k + (j - i))
               else if (j <=? k) && (k <? j + n) then zn arr (k - (j - i)) else zn arr k).
Proof.
  intros Hn Hi Hij Hj. unfold vecswap.
  apply (wp_loop (fun '(b, i', j', n') =>
     0 <= n' <= n /\ i' = i + (n - n') /\ j' = j + (n - n') /\ Permutation arr b /\
     forall k, 0 <= k < zlen arr ->
      zn b k = if (i <=? k) && (k <? i') then zn arr (k + (j - i))
               else if (j <=? k) && (k <? j') then zn arr (k - (j - i)) else zn arr k)
     (fun '(b, i', j', n') => Z.to_nat n')).
  - intros [[[b i'] j'] n'] (H1 & H2 & H3 & HP & H). pose proof (perm_zlen _ _ HP) as HL.
    wps dd; zb.
    + wpr dd. split; [|lia]. split; [lia|]. split; [lia|]. split; [lia|].
      split; [rewrite HP; symmetry; apply swp_perm; lia|].
      intros k Hk. rewrite zn_swp by lia. rewrite !H by lia.
      destruct (Z.eqb_spec k j') as [->|]; [|destruct (Z.eqb_spec k i') as [->|]].
      * replace ((i <=? i') && (i' <? i')) with false by lia.
        replace ((j <=? i') && (i' <? j')) with false by lia.
        replace ((i <=? j') && (j' <? i'+1)) with false by lia.
        replace ((j <=? j') && (j' <? j'+1)) with true by lia. f_equal. lia.
      * replace ((i <=? j') && (j' <? i')) with false by lia.
        replace ((j <=? j') && (j' <? j')) with false by lia.
        replace ((i <=? i') && (i' <? i'+1)) with true by lia. f_equal. lia.
      * replace ((i <=? k) && (k <? i'+1)) with ((i <=? k) && (k <? i')) by lia.
        replace ((j <=? k) && (k <? j'+1)) with ((j <=? k) && (k <? j')) by lia. reflexivity.
    + wpr dd. split; [exact HP|]. assert (n' = 0) by lia. subst n'.
      replace i' with (i + n) in H by lia. replace j' with (j + n) in H by lia. exact H.
  - split; [lia|]. split; [lia|]. split; [lia|]. split; [reflexivity|].
    intros k Hk. replace ((i <=? k) && (k <? i)) with false by lia.
    replace ((j <=? k) && (k <? j)) with false by lia. reflexivity.
  - lia.
Qed.

Lemma small_sort_spec arr frm cnt :
  0 <= frm -> frm + cnt <= zlen arr ->
  wp (small_sort lt eq arr frm cnt)
     (fun r => locperm arr r frm (frm+cnt) /\ sorted_rng r frm (frm+cnt)).
Proof.
  intros Hf HL. unfold small_sort.
  apply (wp_loop (fun '(b, i) => frm + 1 <= i /\ (0 < cnt -> i <= frm + cnt) /\
      locperm arr b frm (frm+cnt) /\ sorted_rng b frm (Z.min i (frm+cnt)))
      (fun '(b, i) => Z.to_nat (frm + cnt - i))).
  - intros [b i] (Hi & Hi2 & HP & HS). pose proof (locperm_zlen _ _ _ _ _ HP) as HLb.
    wps dd; zb.
    + apply wp_bind.
      apply (wp_conseq _ (fun r => locperm b r frm (frm+cnt) /\ sorted_rng r frm (i+1))).
      * apply (wp_loop (fun '(c, j) => frm <= j <= i /\ locperm b c frm (frm+cnt) /\
            sorted_rng c frm j /\ sorted_rng c j (i+1) /\
            (forall p q, frm <= p < j -> j < q <= i -> lt (zn c q) (zn c p) = false))
            (fun '(c, j) => Z.to_nat (j - frm))).
        -- intros [c j] (Hj & HPc & S1 & S2 & S3).
           pose proof (locperm_zlen _ _ _ _ _ HPc) as HLc.
           unfold small_inner. wps dd; zb.
           ++ wpr dd. rewrite le_or, negb_involutive. wps dd.
              ** wpr dd. split; [|lia]. split; [lia|]. split.
                 { eapply locperm_trans; [exact HPc|]. apply locperm_swp; lia. }
                 assert (Hs : forall k, 0 <= k -> zn (swp c j (j-1)) k =
                     if k =? j-1 then zn c j else if k =? j then zn c (j-1) else zn c k)
                   by (intros; apply zn_swp; lia).
                 split; [|split].
                 --- intros p q Hp Hq. rewrite !Hs by lia.
                     destruct (Z.eqb_spec q (j-1)); [lia|]. destruct (Z.eqb_spec q j); [lia|].
                     destruct (Z.eqb_spec p (j-1)); [lia|]. destruct (Z.eqb_spec p j); [lia|].
                     apply S1; lia.
                 --- intros p q Hp Hq. rewrite !Hs by lia.
                     destruct (Z.eqb_spec q (j-1)); [lia|].
                     destruct (Z.eqb_spec p (j-1)).
                     { destruct (Z.eqb_spec q j); [now apply asym|]. apply S2; lia. }
                     destruct (Z.eqb_spec p j).
                     { destruct (Z.eqb_spec q j); [lia|]. apply S3; lia. }
                     destruct (Z.eqb_spec q j); [lia|]. apply S2; lia.
                 --- intros p q Hp Hq. rewrite !Hs by lia.
                     destruct (Z.eqb_spec q (j-1)); [lia|].
                     destruct (Z.eqb_spec p (j-1)); [lia|]. destruct (Z.eqb_spec p j); [lia|].
                     destruct (Z.eqb_spec q j); [apply S1; lia|]. apply S3; lia.
              ** wpr dd. split; [exact HPc|].
                 intros p q Hp Hq.
                 destruct (Z_lt_le_dec q j); [apply S1; lia|].
                 destruct (Z_lt_le_dec p j); [|apply S2; lia].
                 destruct (Z.eq_dec q j) as [->|]; [|apply S3; lia].
                 destruct (Z.eq_dec p (j-1)) as [->|]; [assumption|].
                 apply (sw_negtrans lt W) with (y := zn c (j-1)); [assumption|apply S1; lia].
           ++ wpr dd. split; [exact HPc|].
              assert (j = frm) by lia. subst j. exact S2.
        -- split; [lia|]. split; [apply locperm_refl|]. split; [|split].
           ++ intros p q Hp Hq. apply HS; lia.
           ++ intros p q Hp Hq. lia.
           ++ intros p q Hp Hq. lia.
        -- lia.
      * intros r (HPr & HSr). wpr dd. split; [|lia]. split; [lia|]. split; [lia|].
        split; [eapply locperm_trans; eauto|]. intros p q Hp Hq. apply HSr; lia.
    + wpr dd. split; [exact HP|]. intros p q Hp Hq. apply HS; lia.
  - split; [lia|]. split; [lia|]. split; [apply locperm_refl|]. intros p q Hp Hq. lia.
  - lia.
Qed.

(** The three-way partition invariant. *)
Definition pinv (frm hi : Z) (pv : A) (arr : list A) (s : list A * Z * Z * Z * Z) : Prop :=
  let '(b, x, y, c, d) := s in
  locperm arr b frm hi /\ zn b frm = pv /\
  frm <= x <= y /\ y <= c + 1 /\ c <= d < hi /\ (x = frm -> y = frm) /\
  (forall k, frm <= k < x -> eq (zn b k) pv = true) /\
  (forall k, x <= k < y -> lt (zn b k) pv = true) /\
  (forall k, c < k <= d -> lt pv (zn b k) = true) /\
  (forall k, d < k < hi -> eq (zn b k) pv = true).

Lemma eq_refl' x : eq x x = true.
Proof. rewrite eq_spec. now rewrite irr. Qed.

Lemma scan_b_spec frm hi pv arr b x y c d :
  0 <= frm -> hi <= zlen arr ->
  pinv frm hi pv arr (b, x, y, c, d) -> frm <= c ->
  wp (loop (S (Z.to_nat (c - y + 1))) (scan_b lt eq frm c) (b, x, y))
     (fun '(b', x', y') => pinv frm hi pv arr (b', x', y', c, d) /\ y <= y' /\
          frm < x' /\ (y' <= c -> lt pv (zn b' y') = true)).
Proof.
  intros Hf HL HI Hc.
  apply (wp_loop (fun '(b', x', y') => pinv frm hi pv arr (b', x', y', c, d) /\ y <= y')
                 (fun '(b', x', y') => Z.to_nat (c - y' + 1))).
  - intros [[b' x'] y'] (HI' & Hy). destruct HI' as (HP & Hpv & Hx & Hyc & Hcd & Hx0 & G1 & G2 & G3 & G4).
    pose proof (locperm_zlen _ _ _ _ _ HP) as HLb.
    unfold scan_b. wps dd; zb.
    + wpr dd. rewrite Hpv, le_or. wps dd; zb.
      * apply wp_bind. wps dd.
        -- wpr dd. split; [|lia]. split; [|lia].
           assert (Hs : forall k, 0 <= k -> zn (swp b' x' y') k =
              if k =? y' then zn b' x' else if k =? x' then zn b' y' else zn b' k)
             by (intros; apply zn_swp; lia).
           split; [eapply locperm_trans; [exact HP|apply locperm_swp; lia]|].
           split.
           { rewrite Hs by lia. destruct (Z.eqb_spec frm y').
             - assert (x' = frm) by lia. subst x'. exact Hpv.
             - destruct (Z.eqb_spec frm x'); [exfalso; lia|exact Hpv]. }
           split; [lia|]. split; [lia|]. split; [lia|]. split; [lia|].
           split; [|split; [|split]].
           ++ intros k Hk. rewrite Hs by lia.
              destruct (Z.eqb_spec k y').
              { assert (x' = y') by lia. subst x'. assumption. }
              destruct (Z.eqb_spec k x'); [assumption|apply G1; lia].
           ++ intros k Hk. rewrite Hs by lia.
              destruct (Z.eqb_spec k y'); [apply G2; lia|].
              destruct (Z.eqb_spec k x'); [lia|apply G2; lia].
           ++ intros k Hk. rewrite Hs by lia.
              destruct (Z.eqb_spec k y'); [lia|].
              destruct (Z.eqb_spec k x'); [lia|apply G3; lia].
           ++ intros k Hk. rewrite Hs by lia.
              destruct (Z.eqb_spec k y'); [lia|].
              destruct (Z.eqb_spec k x'); [lia|apply G4; lia].
        -- wpr dd. split; [|lia]. split; [|lia].
           rewrite eq_spec in E1. rewrite E0 in E1. simpl in E1. rewrite andb_true_r in E1. zb.
           split; [exact HP|]. split; [exact Hpv|].
           assert (x' <> frm).
           { intros ->. assert (y' = frm) by lia. subst y'.
             rewrite Hpv in E1. rewrite irr in E1. discriminate. }
           split; [lia|]. split; [lia|]. split; [lia|]. split; [lia|].
           split; [exact G1|]. split; [|split; assumption].
           intros k Hk. destruct (Z.eq_dec k y') as [->|]; [assumption|apply G2; lia].
      * wpr dd. split; [repeat (split; [assumption|]); assumption|].
        split; [lia|]. split; [|intros _; assumption].
        destruct (Z.eq_dec x' frm) as [->|]; [|lia].
        assert (y' = frm) by lia. subst y'. rewrite Hpv in E0. rewrite irr in E0. discriminate.
    + wpr dd. split; [repeat (split; [assumption|]); assumption|].
      split; [lia|]. split; [|intros; lia].
      destruct (Z.eq_dec x' frm) as [->|]; [|lia]. assert (y' = frm) by lia. lia.
  - split; [exact HI|lia].
  - lia.
Qed.

Lemma scan_c_spec frm hi pv arr b x y c d :
  0 <= frm -> hi <= zlen arr ->
  pinv frm hi pv arr (b, x, y, c, d) -> frm < x ->
  wp (loop (S (Z.to_nat (c - y + 1))) (scan_c lt eq frm y) (b, c, d))
     (fun '(b', c', d') => pinv frm hi pv arr (b', x, y, c', d') /\ c' <= c /\
          (y <= c' -> lt (zn b' c') pv = true) /\ (y <= c -> zn b' y = zn b y \/ c' < y)).
Proof.
  intros Hf HL HI Hx0.
  apply (wp_loop (fun '(b', c', d') => pinv frm hi pv arr (b', x, y, c', d') /\ c' <= c /\
                     (y <= c' -> zn b' y = zn b y))
                 (fun '(b', c', d') => Z.to_nat (c' - y + 1))).
  - intros [[b' c'] d'] (HI' & Hy & Hzy). destruct HI' as (HP & Hpv & Hx & Hyc & Hcd & Hx1 & G1 & G2 & G3 & G4).
    pose proof (locperm_zlen _ _ _ _ _ HP) as HLb.
    unfold scan_c. wps dd; zb.
    + wpr dd. rewrite Hpv. wps dd; zb.
      * apply wp_bind. wps dd.
        -- wpr dd. split; [|lia].
           assert (Hs : forall k, 0 <= k -> zn (swp b' c' d') k =
              if k =? d' then zn b' c' else if k =? c' then zn b' d' else zn b' k)
             by (intros; apply zn_swp; lia).
           split; [|split; [lia|]].
           2:{ intros Hyc'. rewrite Hs by lia. destruct (Z.eqb_spec y d'); [lia|].
               destruct (Z.eqb_spec y c'); [lia|]. apply Hzy; lia. }
           split; [eapply locperm_trans; [exact HP|apply locperm_swp; lia]|].
           split.
           { rewrite Hs by lia. destruct (Z.eqb_spec frm d'); [lia|].
             destruct (Z.eqb_spec frm c'); [lia|exact Hpv]. }
           split; [lia|]. split; [lia|]. split; [lia|]. split; [lia|].
           split; [|split; [|split]].
           ++ intros k Hk. rewrite Hs by lia.
              destruct (Z.eqb_spec k d'); [lia|].
              destruct (Z.eqb_spec k c'); [lia|apply G1; lia].
           ++ intros k Hk. rewrite Hs by lia.
              destruct (Z.eqb_spec k d'); [lia|].
              destruct (Z.eqb_spec k c'); [lia|apply G2; lia].
           ++ intros k Hk. rewrite Hs by lia.
              destruct (Z.eqb_spec k d'); [lia|].
              destruct (Z.eqb_spec k c'); [apply G3; lia|apply G3; lia].
           ++ intros k Hk. rewrite Hs by lia.
              destruct (Z.eqb_spec k d'); [assumption|].
              destruct (Z.eqb_spec k c'); [lia|apply G4; lia].
        -- wpr dd. split; [|lia].
           rewrite eq_spec in E1. rewrite E0 in E1. simpl in E1. zb.
           split; [|split; [lia|intros; apply Hzy; lia]].
           split; [exact HP|]. split; [exact Hpv|].
           split; [lia|]. split; [lia|]. split; [lia|]. split; [lia|].
           split; [exact G1|]. split; [exact G2|]. split; [|exact G4].
           intros k Hk. destruct (Z.eq_dec k c') as [->|]; [assumption|apply G3; lia].
      * wpr dd. split; [repeat (split; [assumption|]); assumption|].
        split; [lia|]. split; [intros _; assumption|]. intros _. left. apply Hzy; lia.
    + wpr dd. split; [repeat (split; [assumption|]); assumption|].
      split; [lia|]. split; [intros; lia|]. intros _. right; lia.
  - split; [exact HI|]. split; [lia|]. auto.
  - lia.
Qed.

Lemma part_spec frm cnt arr :
  0 <= frm -> 8 <= cnt -> frm + cnt <= zlen arr ->
  wp (loop (S (Z.to_nat cnt)) (part_body lt eq frm)
        (arr, frm, frm, frm + cnt - 1, frm + cnt - 1))
     (fun '(b, x, y, c, d) => pinv frm (frm+cnt) (zn arr frm) arr (b, x, y, c, d) /\
                              c = y - 1 /\ frm < x).
Proof.
  intros Hf Hc HL.
  apply (wp_loop (fun '(b, x, y, c, d) =>
        pinv frm (frm+cnt) (zn arr frm) arr (b, x, y, c, d) /\ frm <= c)
      (fun '(b, x, y, c, d) => Z.to_nat (c - y + 1))).
  - intros [[[[b x] y] c] d] (HI & Hfc). unfold part_body.
    apply wp_bind. eapply wp_conseq; [apply scan_b_spec; eauto; lia|].
    intros [[b1 x1] y1] (HI1 & Hy1 & Hx1 & Hst1).
    apply wp_bind. eapply wp_conseq; [apply scan_c_spec; eauto; lia|].
    intros [[b2 c2] d2] (HI2 & Hc2 & Hst2 & Hzy).
    destruct HI2 as (HP & Hpv & Hx & Hyc & Hcd & Hx0 & G1 & G2 & G3 & G4).
    pose proof (locperm_zlen _ _ _ _ _ HP) as HLb.
    wps dd; zb.
    + wpr dd. split; [|lia]. repeat (split; [assumption|]); assumption.
    + assert (Hne : y1 <> c2).
      { intros ->. specialize (Hst2 ltac:(lia)). 
        destruct Hzy as [Hzy|Hzy]; [lia| |lia].
        rewrite Hzy in Hst2. apply asym in Hst2. rewrite Hst1 in Hst2 by lia. discriminate. }
      wpr dd. 
      assert (Hs : forall k, 0 <= k -> zn (swp b2 y1 c2) k =
              if k =? c2 then zn b2 y1 else if k =? y1 then zn b2 c2 else zn b2 k)
             by (intros; apply zn_swp; lia).
      split; [|lia]. split; [|lia].
      split; [eapply locperm_trans; [exact HP|apply locperm_swp; lia]|].
      split.
      { rewrite Hs by lia. destruct (Z.eqb_spec frm c2); [lia|].
        destruct (Z.eqb_spec frm y1); [lia|exact Hpv]. }
      split; [lia|]. split; [lia|]. split; [lia|]. split; [lia|].
      split; [|split; [|split]].
      * intros k Hk. rewrite Hs by lia.
        destruct (Z.eqb_spec k c2); [lia|].
        destruct (Z.eqb_spec k y1); [lia|apply G1; lia].
      * intros k Hk. rewrite Hs by lia.
        destruct (Z.eqb_spec k c2); [lia|].
        destruct (Z.eqb_spec k y1); [apply Hst2; lia|apply G2; lia].
      * intros k Hk. rewrite Hs by lia.
        destruct (Z.eqb_spec k c2).
        { destruct Hzy as [Hzy|Hzy]; [lia| |lia]. rewrite Hzy. apply Hst1; lia. }
        destruct (Z.eqb_spec k y1); [lia|apply G3; lia].
      * intros k Hk. rewrite Hs by lia.
        destruct (Z.eqb_spec k c2); [lia|].
        destruct (Z.eqb_spec k y1); [lia|apply G4; lia].
  - split; [|lia]. split; [apply locperm_refl|].
    repeat split; try lia; intros; lia.
  - lia.
Qed.

Lemma eq_lts x y : eq x y = true -> lt x y = false /\ lt y x = false.
Proof. rewrite eq_spec. intros H. zb. auto. Qed.

Ltac casesl :=
  repeat match goal with
  | |- context [if ?c then _ else _] =>
      let C := fresh "C" in destruct c eqn:C; try (exfalso; lia)
  end.

Theorem qsort_rec_spec fuel : forall arr frm cnt,
  0 <= frm -> 0 <= cnt -> frm + cnt <= zlen arr -> (Z.to_nat cnt < fuel)%nat ->
  (forall i j, 0 <= i < frm -> frm <= j < frm + cnt -> lt (zn arr j) (zn arr i) = false) ->
  wp (qsort_rec lt eq fuel arr frm cnt)
     (fun r => locperm arr r frm (frm+cnt) /\ sorted_rng r frm (frm+cnt)).
Proof.
  induction fuel as [|fuel IH]; intros arr frm cnt Hf Hc HL Hfu Hlow; [lia|].
  cbn [qsort_rec]. wps dd; zb; [apply small_sort_spec; lia|].
  apply wp_bind. eapply wp_conseq; [apply pick_spec; auto; lia|].
  intros mid Hmid. cbv beta in Hmid. wpr dd.
  set (a0 := swp arr frm mid).
  assert (P0 : locperm arr a0 frm (frm+cnt)) by (apply locperm_swp; lia).
  assert (HL0 : zlen a0 = zlen arr) by (apply zlen_swp).
  set (pv := zn a0 frm) in *.
  eapply wp_conseq; [apply part_spec; lia|].
  intros [[[[b x] y] c] d] (HI & Hcy & Hx0).
  destruct HI as (HP & Hpv & Hx & Hyc & Hcd & Hx1 & G1 & G2 & G3 & G4). fold pv in Hpv, G1, G2, G3, G4.
  pose proof (locperm_zlen _ _ _ _ _ HP) as HLb.
  set (hi := frm + cnt) in *. cbv zeta.
  apply wp_bind. eapply wp_conseq; [apply vecswap_spec; lia|].
  intros b1 (P1 & H1). pose proof (perm_zlen _ _ P1) as HL1.
  apply wp_bind. eapply wp_conseq; [apply vecswap_spec; lia|].
  intros b2 (P2 & H2). pose proof (perm_zlen _ _ P2) as HL2.
  set (n1 := y - x) in *. set (n2 := d - c) in *.
  assert (L1 : forall k, frm <= k < frm + n1 -> lt (zn b2 k) pv = true).
  { intros k Hk. rewrite H2 by lia. casesl; rewrite H1 by lia; casesl; apply G2; lia. }
  assert (M1 : forall k, frm + n1 <= k < y -> eq (zn b2 k) pv = true).
  { intros k Hk. rewrite H2 by lia. casesl; rewrite H1 by lia; casesl; apply G1; lia. }
  assert (M2 : forall k, y <= k < hi - n2 -> eq (zn b2 k) pv = true).
  { intros k Hk. rewrite H2 by lia. casesl; rewrite H1 by lia; casesl; apply G4; lia. }
  assert (R1 : forall k, hi - n2 <= k < hi -> lt pv (zn b2 k) = true).
  { intros k Hk. rewrite H2 by lia. casesl; rewrite H1 by lia; casesl; apply G3; lia. }
  assert (P02 : locperm arr b2 frm hi).
  { eapply locperm_trans; [exact P0|]. eapply locperm_trans; [exact HP|].
    split; [now rewrite P1|]. intros k Hk Hout.
    rewrite H2 by lia. casesl; rewrite H1 by lia; casesl; reflexivity. }
  clear H1 H2 G1 G2 G3 G4.
  assert (Hge : forall i j, 0 <= i < frm -> frm <= j < hi -> lt (zn b2 j) (zn b2 i) = false).
  { intros i j Hi Hj. rewrite (locperm_out _ _ _ _ _ i P02) by lia. revert j Hj.
    apply (locperm_forall dd (fun z => lt z (zn arr i) = false) arr b2 frm hi frm hi P02); try lia.
    intros j Hj. apply Hlow; lia. }
  (* first recursive call *)
  apply wp_bind.
  apply (wp_conseq _ (fun r => locperm b2 r frm (frm+n1) /\ sorted_rng r frm (frm+n1))).
  { wps dd; zb.
    - apply IH; try lia. intros i j Hi Hj. apply Hge; lia.
    - wpr dd. split; [apply locperm_refl|]. intros i j Hi Hj. lia. }
  intros b3 (P3 & S3). pose proof (locperm_zlen _ _ _ _ _ P3) as HL3.
  assert (L3 : forall k, frm <= k < frm + n1 -> lt (zn b3 k) pv = true).
  { apply (locperm_forall dd (fun z => lt z pv = true) b2 b3 frm (frm+n1)); auto; lia. }
  assert (E3 : forall k, frm + n1 <= k < hi -> zn b3 k = zn b2 k).
  { intros k Hk. apply (locperm_out _ _ _ _ _ _ P3); lia. }
  assert (M3 : forall k, frm + n1 <= k < hi - n2 -> eq (zn b3 k) pv = true).
  { intros k Hk. rewrite E3 by lia. destruct (Z_lt_le_dec k y); [apply M1|apply M2]; lia. }
  assert (R3 : forall k, hi - n2 <= k < hi -> lt pv (zn b3 k) = true).
  { intros k Hk. rewrite E3 by lia. apply R1; lia. }
  apply (wp_conseq _ (fun r => locperm b3 r (hi-n2) hi /\ sorted_rng r (hi-n2) hi)).
  { wps dd; zb.
    - eapply wp_conseq; [apply (IH b3 (hi - n2) n2); try lia
                        |intros r; replace (hi - n2 + n2) with hi by lia; auto].
      intros i j Hi Hj.
      destruct (Z_lt_le_dec i frm).
      + rewrite (locperm_out _ _ _ _ _ i P3), E3 by lia. apply Hge; lia.
      + apply asym. destruct (Z_lt_le_dec i (frm+n1)).
        * eapply (sw_trans lt W); [apply L3; lia|apply R3; lia].
        * destruct (eq_lts _ _ (M3 i ltac:(lia))) as [Q1 Q2].
          destruct (lt (zn b3 i) (zn b3 j)) eqn:Q; auto.
          pose proof (R3 j ltac:(lia)) as Q3.
          pose proof (sw_negtrans lt W _ _ _ Q2 Q). congruence.
    - wpr dd. split; [apply locperm_refl|]. intros i j Hi Hj. lia. }
  intros r (P4 & S4). pose proof (locperm_zlen _ _ _ _ _ P4) as HL4.
  split.
  { eapply locperm_trans; [exact P02|].
    eapply locperm_trans; [eapply locperm_weaken; [| |exact P3]; lia|].
    eapply locperm_weaken; [| |exact P4]; lia. }
  assert (E4 : forall k, frm <= k < hi - n2 -> zn r k = zn b3 k).
  { intros k Hk. apply (locperm_out _ _ _ _ _ _ P4); lia. }
  assert (R4 : forall k, hi - n2 <= k < hi -> lt pv (zn r k) = true).
  { apply (locperm_forall dd (fun z => lt pv z = true) b3 r (hi-n2) hi); auto; lia. }
  intros i j Hi Hj.
  assert (U : forall k, frm <= k < hi - n2 -> lt pv (zn r k) = false).
  { intros k Hk. rewrite E4 by lia. destruct (Z_lt_le_dec k (frm+n1)).
    - apply asym. apply L3; lia.
    - apply (eq_lts (zn b3 k) pv). apply M3; lia. }
  assert (V : forall k, frm + n1 <= k < hi -> lt (zn r k) pv = false).
  { intros k Hk. destruct (Z_lt_le_dec k (hi-n2)).
    - rewrite E4 by lia. apply (eq_lts (zn b3 k) pv). apply M3; lia.
    - apply asym. apply R4; lia. }
  destruct (Z_lt_le_dec j (frm+n1)).
  { rewrite !E4 by lia. apply S3; lia. }
  destruct (Z_lt_le_dec i (hi-n2)).
  { apply (sw_negtrans lt W) with (y := pv); [apply V|apply U]; lia. }
  apply S4; lia.
Qed.

Theorem qsort_array_spec arr size :
  0 <= size <= zlen arr ->
  wp (qsort_array lt eq arr size)
     (fun r => locperm arr r 0 size /\ sorted_rng r 0 size).
Proof.
  intros H. unfold qsort_array. apply (qsort_rec_spec _ arr 0 size); lia.
Qed.

End Q.
