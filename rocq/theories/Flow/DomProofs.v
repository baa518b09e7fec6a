(** Facts about [Dom]. *)
From Coq Require Import List Bool Arith Lia.
From Verif.Common Require Import Result.
From Verif.Flow Require Import Graph Dom.
Import ListNotations.

Lemma memb_In x l : memb x l = true <-> In x l.
Proof. unfold memb. rewrite existsb_exists. split; [intros (y & H & E); apply Nat.eqb_eq in E; now subst|intros H; exists x; split; auto; apply Nat.eqb_refl]. Qed.
Lemma preds_In g b p : In p (preds g b) <-> p < size g /\ In b (succs g p).
Proof. unfold preds. rewrite filter_In, in_seq, memb_In. intuition lia. Qed.

Lemma bset_len v i : length (bset v i) = length v.
Proof. revert i; induction v; destruct i; cbn; auto. Qed.
Lemma bget_bset v i j : i < length v -> bget (bset v i) j = Nat.eqb i j || bget v j.
Proof.
  unfold bget. revert i j. induction v as [|a v IH]; intros i j H; cbn in H; [lia|]. destruct i, j; cbn; auto; apply IH; lia.
Qed.
Lemma band_len v w : length v = length w -> length (band v w) = length v.
Proof. revert w; induction v; destruct w; cbn; intros H; try discriminate; f_equal; auto. Qed.
Lemma bget_band v w j : length v = length w -> bget (band v w) j = bget v j && bget w j.
Proof.
  unfold bget. revert w j. induction v as [|a v IH]; intros [|b w] j H; cbn in H; try discriminate; destruct j; cbn; auto.
Qed.
Lemma beqb_eq v w : beqb v w = true <-> v = w.
Proof.
  revert w. induction v as [|a v IH]; intros [|b w]; cbn; split; try discriminate; auto.
  - rewrite andb_true_iff, eqb_true_iff. intros [-> H]. f_equal. now apply IH.
  - intros H; injection H as -> ->. rewrite andb_true_iff, eqb_true_iff. split; auto. now apply IH.
Qed.
Lemma vset_len l i x : length (vset l i x) = length l.
Proof. revert i; induction l; destruct i; cbn; auto. Qed.
Lemma nth_vset l i j x d : i < length l -> nth j (vset l i x) d = if Nat.eqb i j then x else nth j l d.
Proof. revert i j. induction l as [|a l IH]; intros i j H; cbn in H; [lia|]. destruct i, j; cbn; auto; apply IH; lia. Qed.
Lemma bget_repeat b n j : bget (repeat b n) j = (j <? n) && b.
Proof.
  unfold bget. revert j. induction n; intros j; cbn; destruct j; auto.
  rewrite IHn. reflexivity.
Qed.

Local Arguments bget : simpl never.
(** Number of bits set *)
Definition cnt (v : bv) : nat := length (filter id v).
Definition tot (l : list bv) : nat := list_sum (map cnt l).
Definition bsub (v w : bv) : Prop := forall j, bget v j = true -> bget w j = true.
Lemma cnt_sub v w : length v = length w -> bsub v w -> cnt v <= cnt w /\ (v <> w -> cnt v < cnt w).
Proof.
  revert w. induction v as [|a v IH]; intros [|b w] H S; cbn in H; try discriminate; [split; auto; intros; congruence|].
  destruct (IH w) as [I1 I2]; [lia|intros j; apply (S (Datatypes.S j))|].
  assert (S0 := S 0). cbn in S0. unfold cnt in *. destruct a, b; cbn in *; try (specialize (S0 eq_refl); discriminate).
  - split; [lia|]. intros N. enough (v <> w) by (specialize (I2 H0); lia). congruence.
  - lia.
  - split; [lia|]. intros N. enough (v <> w) by (specialize (I2 H0); lia). congruence.
Qed.
Lemma cnt_le v : cnt v <= length v.
Proof. unfold cnt. induction v as [|[] v IH]; cbn; lia. Qed.
Lemma tot_vset l i x : i < length l -> tot (vset l i x) + cnt (nth i l []) = tot l + cnt x.
Proof. revert i. unfold tot. induction l as [|a l IH]; intros i H; [inversion H|]. destruct i; cbn [vset map list_sum fold_right nth]; unfold list_sum in *; [lia|]. specialize (IH i). cbn in H. lia. Qed.

Section Proofs.
Context (g : graph) (WF : wf g).
Notation n := (size g).

(** Shape of the table *)
Definition shape (bits : list bv) : Prop := length bits = n /\ forall b, b < n -> length (nth b bits []) = n.
Lemma inter_len bits ps s : shape bits -> length s = n -> (forall p, In p ps -> p < n) -> length (fold_left (fun s p => band s (nth p bits [])) ps s) = n.
Proof.
  intros [_ SH]. revert s. induction ps as [|p ps IH]; intros s L H; cbn; auto. apply IH; [|firstorder]. rewrite band_len; auto. rewrite SH; auto. apply H. now left.
Qed.
Lemma inter_get bits ps s j : shape bits -> length s = n -> (forall p, In p ps -> p < n) ->
  bget (fold_left (fun s p => band s (nth p bits [])) ps s) j = bget s j && forallb (fun p => bget (nth p bits []) j) ps.
Proof.
  intros [L0 SH]. revert s. induction ps as [|p ps IH]; intros s L H; cbn; [now rewrite andb_true_r|].
  assert (p < n) by (apply H; now left).
  rewrite IH; [|rewrite band_len; [auto|rewrite SH; auto]|firstorder]. rewrite bget_band by (rewrite SH; auto). now rewrite andb_assoc.
Qed.
Lemma newset_len bits b : shape bits -> length (newset g bits b) = n.
Proof.
  intros SH. unfold newset. rewrite bset_len. destruct (preds g b) as [|p ps] eqn:E; [apply repeat_length|].
  assert (H : forall q, In q (p :: ps) -> q < n) by (intros q Hq; rewrite <- E in Hq; now apply preds_In in Hq).
  apply inter_len; auto; [|firstorder]. apply SH, H. now left.
Qed.
Lemma newset_get bits b j : shape bits -> b < n -> bget (newset g bits b) j = true <->
  b = j \/ (preds g b <> [] /\ forall p, In p (preds g b) -> bget (nth p bits []) j = true).
Proof.
  intros SH HB. unfold newset. destruct (preds g b) as [|p ps] eqn:E.
  - rewrite bget_bset by (now rewrite repeat_length). rewrite bget_repeat, andb_false_r, orb_false_r, Nat.eqb_eq. tauto.
  - assert (H : forall q, In q (p :: ps) -> q < n) by (intros q Hq; rewrite <- E in Hq; now apply preds_In in Hq).
    rewrite bget_bset; [|rewrite inter_len; auto; [apply SH, H; now left|firstorder]].
    rewrite orb_true_iff, Nat.eqb_eq, inter_get, andb_true_iff, forallb_forall; auto; [|apply SH, H; now left|firstorder].
    cbn. split; intros [D|D]; auto; right.
    + destruct D as [D1 D2]. split; [discriminate|]. intros q [->|Hq]; auto.
    + destruct D as [_ D]. split; auto.
Qed.

(** The sets only shrink. *)
Definition bsubs (l m : list bv) : Prop := forall b, b < n -> bsub (nth b l []) (nth b m []).
Definition post (bits : list bv) : Prop := forall b, b < n -> bsub (newset g bits b) (nth b bits []).
Lemma newset_mono l m b : shape l -> shape m -> bsubs l m -> b < n -> bsub (newset g l b) (newset g m b).
Proof.
  intros SL SM S HB j. rewrite !newset_get by auto. intros [D|[D1 D2]]; auto. right. split; auto. intros p Hp. apply S; auto. now apply preds_In in Hp.
Qed.
(** Real dominators, from all blocks without predecessors *)
Definition root (r : nat) : Prop := r < n /\ preds g r = [].
Definition dom (b d : nat) : Prop := forall r h, root r -> trace g r h b -> In d (b :: h).
Definition above (bits : list bv) : Prop := forall b d, b < n -> d < n -> dom b d -> bget (nth b bits []) d = true.
Lemma dom_newset bits b d : shape bits -> above bits -> b < n -> d < n -> dom b d -> bget (newset g bits b) d = true.
Proof.
  intros SH AB HB HD DO. apply newset_get; auto. destruct (Nat.eq_dec b d) as [->|N]; auto. right. split.
  - intros E. destruct (DO b []) as [->|[]]; [now split|constructor|congruence].
  - intros p Hp. apply preds_In in Hp. destruct Hp as [HP HE]. apply AB; auto. intros r h HR HT.
    destruct (DO r (p :: h) HR) as [->|H]; [econstructor; eauto|congruence|auto].
Qed.

Definition inv (bits : list bv) : Prop := shape bits /\ post bits /\ above bits.
Lemma init_nth b : b < n -> nth b (init g) [] = if Nat.eqb b entry then bset (repeat false n) b else repeat true n.
Proof.
  intros H. unfold init. set (f := fun b => if Nat.eqb b entry then bset (repeat false n) b else repeat true n).
  rewrite nth_indep with (d' := f 0) by (rewrite map_length, seq_length; auto). rewrite map_nth, seq_nth; auto.
Qed.
Lemma entry_preds : preds g entry = [].
Proof.
  destruct (preds g entry) as [|p l] eqn:E; auto. exfalso. assert (H : In p (preds g entry)) by (rewrite E; now left).
  apply preds_In in H. destruct WF as (_ & _ & W & _). now apply (W p).
Qed.
Lemma init_inv : inv (init g).
Proof.
  assert (SH : shape (init g)).
  { split; [unfold init; now rewrite map_length, seq_length|]. intros b H. rewrite init_nth by auto. destruct (Nat.eqb b entry); rewrite ?bset_len; apply repeat_length. }
  split; auto. split.
  - intros b H j. rewrite init_nth by auto. destruct (Nat.eqb_spec b entry) as [->|N].
    + rewrite newset_get by auto. rewrite entry_preds. intros [<-|[X _]]; [|congruence]. rewrite bget_bset by (now rewrite repeat_length). now rewrite Nat.eqb_refl.
    + intros G. rewrite bget_repeat, andb_true_r. apply Nat.ltb_lt. destruct (le_lt_dec n j); auto. unfold bget in G. rewrite nth_overflow in G; [discriminate|]. now rewrite newset_len.
  - intros b d HB HD DO. rewrite init_nth by auto. destruct (Nat.eqb_spec b entry) as [->|N].
    + rewrite bget_bset by (now rewrite repeat_length). destruct (DO entry []) as [<-|[]]; [split; auto; apply entry_preds|constructor|now rewrite Nat.eqb_refl].
    + rewrite bget_repeat, andb_true_r. now apply Nat.ltb_lt.
Qed.
Lemma inv_step bits b : inv bits -> b < n -> newset g bits b <> nth b bits [] ->
  inv (vset bits b (newset g bits b)) /\ tot (vset bits b (newset g bits b)) < tot bits.
Proof.
  intros (SH & PO & AB) HB N. assert (LB : b < length bits) by (destruct SH as [-> _]; auto).
  assert (SH' : shape (vset bits b (newset g bits b))).
  { destruct SH as [L SH]. split; [now rewrite vset_len|]. intros c HC. rewrite nth_vset by auto. destruct (Nat.eqb b c); auto. apply newset_len. now split. }
  assert (SUB : bsubs (vset bits b (newset g bits b)) bits).
  { intros c HC. rewrite nth_vset by auto. destruct (Nat.eqb_spec b c) as [<-|]; [now apply PO|firstorder]. }
  split.
  - split; auto. split.
    + intros c HC j H. rewrite nth_vset by auto. apply (newset_mono _ bits) in H; auto. destruct (Nat.eqb_spec b c) as [<-|]; auto. now apply PO.
    + intros c d HC HD DO. rewrite nth_vset by auto. destruct (Nat.eqb_spec b c) as [<-|]; auto. now apply dom_newset.
  - pose proof (tot_vset bits b (newset g bits b) LB). destruct (cnt_sub (newset g bits b) (nth b bits [])) as [_ C]; [rewrite newset_len by auto; symmetry; now apply SH|now apply PO|]. specialize (C N). lia.
Qed.

Lemma sweep_from : forall l bits ch, inv bits -> (forall b, In b l -> b < n) ->
  let '(bits', ch') := fold_left (sweep1 g) l (bits, ch) in
  inv bits' /\ tot bits' <= tot bits /\ (ch = true -> ch' = true) /\ (ch = false -> ch' = true -> tot bits' < tot bits) /\
  (ch' = false -> bits' = bits /\ forall b, In b l -> newset g bits b = nth b bits []).
Proof.
  induction l as [|b l IH]; intros bits ch I HL; cbn [fold_left].
  - split; auto. split; auto. split; auto. split; [congruence|]. intros _. split; auto. intros b [].
  - unfold sweep1 at 2. destruct (beqb (newset g bits b) (nth b bits [])) eqn:E.
    + apply beqb_eq in E. specialize (IH bits ch I). destruct (fold_left (sweep1 g) l (bits, ch)) as [bits' ch']. destruct IH as (I1 & I2 & I3 & I4 & I5); [firstorder|].
      split; auto. split; auto. split; auto. split; auto. intros C. destruct (I5 C) as [-> H]. split; auto. intros c [<-|HC]; auto.
    + assert (N : newset g bits b <> nth b bits []) by (intros C; apply beqb_eq in C; congruence).
      destruct (inv_step bits b I) as [I' T]; auto; [apply HL; now left|].
      specialize (IH _ true I'). destruct (fold_left (sweep1 g) l (vset bits b (newset g bits b), true)) as [bits' ch']. destruct IH as (I1 & I2 & I3 & I4 & I5); [firstorder|].
      split; auto. split; [lia|]. split; auto. split; [intros; lia|]. intros C. rewrite (I3 eq_refl) in C. discriminate.
Qed.

Lemma tot_init : tot (init g) <= n * n.
Proof.
  destruct init_inv as ([L SH] & _). unfold tot. clear - L SH.
  assert (H : forall l, (forall v, In v l -> length v = n) -> list_sum (map cnt l) <= length l * n).
  { induction l as [|v l IH]; intros H; cbn [map list_sum fold_right length Nat.mul]; unfold list_sum in *; auto. assert (length v = n) by (apply H; now left). pose proof (cnt_le v). specialize (IH (fun w Hw => H w (or_intror Hw))). lia. }
  replace (n * n) with (length (init g) * n) by (now rewrite L). apply H. intros v Hv. apply In_nth with (d := []) in Hv. destruct Hv as (i & Hi & <-). apply SH. rewrite <- L. exact Hi.
Qed.

(** The final table *)
Definition final (bits : list bv) : Prop := inv bits /\ forall b, b < n -> newset g bits b = nth b bits [].
Lemma analyze_final : exists bits, analyze g = Ok bits /\ final bits.
Proof.
  apply wp_inv. unfold analyze. apply wp_loop with (I := inv) (mu := tot).
  - intros bits I. unfold sweep. pose proof (sweep_from (seq 0 n) bits false I) as H.
    destruct (fold_left (sweep1 g) (seq 0 n) (bits, false)) as [bits' ch']. destruct H as (I1 & I2 & I3 & I4 & I5); [intros b Hb; apply in_seq in Hb; lia|].
    destruct ch'; cbn; [split; auto|]. destruct (I5 eq_refl) as [-> F]. split; auto. intros b Hb. apply F, in_seq. lia.
  - apply init_inv.
  - pose proof tot_init. lia.
Qed.

Lemma trace_lt r h b : r < n -> trace g r h b -> b < n.
Proof. intros H T. induction T; auto. destruct WF as (_ & W & _). eauto. Qed.
Lemma final_sound bits r h b d : final bits -> root r -> trace g r h b -> bget (nth b bits []) d = true -> In d (b :: h).
Proof.
  intros [(SH & _) F] [HR NP] T. revert d. induction T as [|h b c T IH E]; intros d H.
  - rewrite <- F in H by auto. apply newset_get in H; auto. destruct H as [->|[X _]]; [now left|contradiction].
  - assert (HB : b < n) by (eapply trace_lt; eauto). assert (HC : c < n) by (destruct WF as (_ & W & _); eauto).
    rewrite <- F in H by auto. apply newset_get in H; auto. destruct H as [->|[_ X]]; [now left|]. right. apply IH, X. now apply preds_In.
Qed.
Lemma final_dom bits b d : final bits -> b < n -> d < n -> bget (nth b bits []) d = true <-> dom b d.
Proof.
  intros F HB HD. split; [intros H r h HR HT; eapply final_sound; eauto|]. destruct F as [(_ & _ & AB) _]. now apply AB.
Qed.
Lemma entry_root : root entry.
Proof. split; [apply WF|apply entry_preds]. Qed.

(** Values in blocks *)
Context (items : nat -> list nat).
Context (ND : NoDup (concat (map items (seq 0 n)))).
Lemma in_items_unique v b c : b < n -> c < n -> In v (items b) -> In v (items c) -> b = c.
Proof.
  intros HB HC. revert ND. assert (H : In b (seq 0 n)) by (apply in_seq; lia). assert (H' : In c (seq 0 n)) by (apply in_seq; lia). revert H H'. generalize (seq 0 n).
  intros l. induction l as [|x l IH]; cbn; intros H H' N HV HW; [contradiction|].
  assert (D : forall y, In v (items x) -> In y l -> In v (items y) -> False).
  { intros y V1 Y V2. revert N. clear - V1 Y V2. induction (items x) as [|z zs IHz]; cbn; [contradiction|]. intros N. inversion N; subst. destruct V1 as [->|V1]; [|now apply IHz].
    apply H1, in_or_app. right. apply in_concat. exists (items y). split; auto. now apply in_map. }
  assert (N' : NoDup (concat (map items l))). { clear - N. induction (items x) as [|z zs IHz]; cbn in N; auto. inversion N; auto. }
  destruct H as [->|H], H' as [->|H']; auto; exfalso; eauto.
Qed.
Lemma getBlock_ok v b : b < n -> In v (items b) -> getBlock g items v = Some b.
Proof.
  intros HB HV. unfold getBlock. destruct (find _ _) as [c|] eqn:E.
  - apply find_some in E. destruct E as [E1 E2]. apply memb_In in E2. apply in_seq in E1. f_equal. apply (in_items_unique v); auto. lia.
  - assert (X : memb v (items b) = false) by (apply (find_none _ _ E b), in_seq; lia). apply memb_In in HV. congruence.
Qed.
Lemma getBlock_in v b : getBlock g items v = Some b -> b < n /\ In v (items b).
Proof. unfold getBlock. intros E. apply find_some in E. destruct E as [E1 E2]. apply memb_In in E2. apply in_seq in E1. split; auto. lia. Qed.
Lemma dist_in_firstn v w l : In w l -> dist v l <= dist w l <-> In v (firstn (S (dist w l)) l).
Proof.
  induction l as [|x l IH]; cbn [dist In]; [contradiction|]. intros [->|HW].
  - rewrite Nat.eqb_refl. cbn [firstn In]. destruct (Nat.eqb_spec v w); split; try lia; intuition.
  - destruct (Nat.eqb_spec w x) as [->|NW].
    + cbn. destruct (Nat.eqb_spec v x); split; try lia; intuition.
    + rewrite firstn_cons. cbn [In]. specialize (IH HW). destruct (Nat.eqb_spec v x); [intuition lia|]. rewrite <- Nat.succ_le_mono, IH. intuition congruence.
Qed.
End Proofs.
