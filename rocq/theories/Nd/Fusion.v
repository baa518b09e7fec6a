(** Proofs about the evaluation of fused array expressions: shapes. *)
From Coq Require Import List ZArith Lia Bool Permutation.
From Verif.Common Require Import Result Int64.
From Verif.Nd Require Import Spec Model Grid Copy Reshape Views IndexModel Index LoopModel Loop LoopAll Properties LoopProperties
  UfuncModel Ufunc UfuncProperties FusionModel FusionSpec.
Import ListNotations.
Local Open Scope Z_scope.

(** ** Broadcasting in steps *)

Lemma skipn_twice {A} n : forall m (l : list A), skipn n (skipn m l) = skipn (n + m) l.
Proof.
  intros m. induction m as [|m IH]; intros l; [now rewrite Nat.add_0_r|]. rewrite Nat.add_succ_r. destruct l; [now rewrite !skipn_nil|].
  cbn [skipn]. apply IH.
Qed.

Lemma fits_trans s1 s2 s3 : fits s1 s2 -> fits s2 s3 -> fits s1 s3.
Proof.
  intros [L1 F1] [L2 F2]. split; [lia|].
  replace (skipn (length s3 - length s1) s3) with (skipn (length s2 - length s1) (skipn (length s3 - length s2) s3))
    by (rewrite skipn_twice; f_equal; lia).
  remember (skipn (length s3 - length s2) s3) as t3 eqn:E3. clear E3.
  remember (skipn (length s2 - length s1) s2) as t2 eqn:E2.
  assert (F3 : Forall2 (fun a b => a = b \/ a = 1) t2 (skipn (length s2 - length s1) t3)).
  { subst t2. clear -F2. generalize (length s2 - length s1)%nat as n. induction F2; intros [|n]; cbn; auto; constructor; auto. }
  clear -F1 F3. revert F3. generalize (skipn (length s2 - length s1) t3) as t. induction F1 as [|a b l l' H F IH]; intros t G; inversion G; subst; constructor; auto.
  destruct H as [->|]; auto.
Qed.

Lemma pick_fits_length s c : (length s <= length c)%nat -> length (pick s c) = length s.
Proof. intros H. unfold pick. rewrite map_length, combine_length, skipn_length. lia. Qed.

Lemma skipn_pick n : forall (s c : list Z), length s = length c ->
  skipn n (map (fun '(n, i) => if n =? 1 then 0 else i) (combine s c)) =
  map (fun '(n, i) => if n =? 1 then 0 else i) (combine (skipn n s) (skipn n c)).
Proof. induction n as [|n IH]; intros [|a s] [|i c] L; cbn in *; auto; try discriminate. Qed.

Lemma pick_pick s t c : fits s t -> (length t <= length c)%nat -> pick s (pick t c) = pick s c.
Proof.
  intros [L F] Lc. unfold pick at 1. rewrite pick_fits_length by assumption. unfold pick.
  rewrite skipn_pick by (rewrite skipn_length; lia). rewrite skipn_twice.
  replace (length t - length s + (length c - length t))%nat with (length c - length s)%nat by lia.
  assert (Le : length (skipn (length c - length s) c) = length s) by (rewrite skipn_length; lia).
  revert F Le. generalize (skipn (length c - length s) c) as d. generalize (skipn (length t - length s) t) as u. clear.
  induction s as [|a s IH]; intros u [|i d] F Le; inversion F; subst; cbn in *; auto; try discriminate.
  rewrite IH by (auto; lia). f_equal. destruct (Z.eqb_spec a 1); [reflexivity|]. destruct H1 as [->|]; [|congruence].
  destruct (Z.eqb_spec y 1); [congruence|reflexivity].
Qed.

Lemma inside_pick s out c : fits s out -> inside out c -> inside s (pick s c).
Proof.
  intros [L F] H. pose proof (inside_length _ _ H) as Lc. unfold pick. rewrite Lc.
  pose proof (inside_skipn _ _ (length out - length s) H) as G. revert F G.
  generalize (skipn (length out - length s) out) as t, (skipn (length out - length s) c) as d. clear.
  induction s as [|a s IH]; intros t d F G; inversion F; subst; inversion G; subst; cbn; constructor; auto.
  - destruct (Z.eqb_spec a 1); [lia|]. destruct H1; [subst; assumption|congruence].
  - eapply IH; eauto.
Qed.

Lemma broadcasts_fits l out s : broadcasts l out -> In s l -> fits s out.
Proof. intros B H. apply fits_broadcasts. eapply broadcasts_each; eauto. Qed.

Lemma broadcasts_to l out : (forall s, In s l -> fits s out) -> broadcasts (out :: l) out.
Proof.
  intros H. split.
  - intros s [<-|Hs]; [lia|]. now apply H.
  - split; [exists out; simpl; auto|]. intros k d E. split; [exists out; simpl; auto|]. intros s e [<-|Hs] Ee; [right; congruence|].
    destruct (fits_broadcasts s out) as [G _]. destruct (G (H s Hs)) as (_ & _ & B). destruct (B k d E) as [_ B2]. apply (B2 s); simpl; auto.
Qed.

(** Empty shapes do not matter next to others. *)
Lemma broadcasts_drop l l' out : l' <> [] -> incl l' l -> (forall s, In s l -> In s l' \/ s = []) -> (broadcasts l out <-> broadcasts l' out).
Proof.
  intros NE I H. split; intros (A & (s & Hs & Ls) & C).
  - split; [auto|]. split.
    + destruct (H s Hs) as [G| ->]; [eauto|]. destruct l' as [|x l']; [congruence|]. exists x. split; [simpl; auto|].
      specialize (A x). cbn in Ls. assert (length x <= length out)%nat by (apply A, I; simpl; auto). lia.
    + intros k d E. destruct (C k d E) as [(t & Ht & Et) C2]. split.
      * destruct (H t Ht) as [G| ->]; [eauto|]. unfold from_end in Et. destruct k; discriminate.
      * intros u e Hu. apply C2. auto.
  - split.
    + intros u Hu. destruct (H u Hu) as [G| ->]; [auto|cbn; lia].
    + split; [exists s; auto|]. intros k d E. destruct (C k d E) as [(t & Ht & Et) C2]. split; [exists t; auto|].
      intros u e Hu Ee. destruct (H u Hu) as [G| ->]; [eauto|]. unfold from_end in Ee. destruct k; discriminate.
Qed.

Lemma broadcasts_app A B s1 s2 out : broadcasts A s1 -> broadcasts B s2 -> broadcasts [s1; s2] out -> broadcasts (A ++ B) out.
Proof.
  intros HA HB H. pose proof (broadcasts_fits _ _ s1 H (or_introl eq_refl)) as F1.
  pose proof (broadcasts_fits _ _ s2 H (or_intror (or_introl eq_refl))) as F2.
  assert (FF : forall s, In s (A ++ B) -> fits s out).
  { intros s Hs. apply in_app_or in Hs. destruct Hs; [apply (fits_trans s s1)|apply (fits_trans s s2)]; auto; eapply broadcasts_fits; eauto. }
  destruct HA as (A1 & (sa & Ha & La) & A3), HB as (B1 & (sb & Hb & Lb) & B3), H as (H1 & (s & Hs & Ls) & H3).
  split; [intros t Ht; now apply FF|]. split.
  - destruct Hs as [<-|[<-|[]]]; [exists sa|exists sb]; (split; [apply in_or_app; auto|lia]).
  - intros k d E. split.
    + destruct (H3 k d E) as [(t & [<-|[<-|[]]] & Et) _].
      * destruct (A3 k d Et) as [(u & Hu & Eu) _]. exists u. split; [apply in_or_app; auto|assumption].
      * destruct (B3 k d Et) as [(u & Hu & Eu) _]. exists u. split; [apply in_or_app; auto|assumption].
    + intros t e Ht Ee. specialize (FF t Ht). apply fits_broadcasts in FF. destruct FF as (_ & _ & G). destruct (G k d E) as [_ G2].
      apply (G2 t); simpl; auto.
Qed.

(** Part of a broadcast: the shape of some of the operands. *)
Definition part_ext (A : list (list Z)) (out : list Z) (k : nat) : Z :=
  if existsb (fun s => match from_end k s with Some e => negb (e =? 1) | None => false end) A
  then match from_end k out with Some d => d | None => 1 end else 1.
Definition part_shape (A : list (list Z)) (out : list Z) : list Z :=
  rev (map (part_ext A out) (seq 0 (list_max (map (@length Z) A)))).

Lemma part_from_end A out k d : from_end k (part_shape A out) = Some d ->
  (k < list_max (map (@length Z) A))%nat /\ d = part_ext A out k.
Proof.
  unfold from_end, part_shape. rewrite rev_involutive. intros E.
  assert (K : (k < list_max (map (@length Z) A))%nat).
  { assert (X : nth_error (map (part_ext A out) (seq 0 (list_max (map (@length Z) A)))) k <> None) by congruence.
    apply nth_error_Some in X. now rewrite map_length, seq_length in X. }
  split; [assumption|]. rewrite nth_error_map in E. rewrite (nth_error_nth' _ O) in E by now rewrite seq_length.
  rewrite seq_nth in E by assumption. cbn in E. congruence.
Qed.

Lemma part_length A out : length (part_shape A out) = list_max (map (@length Z) A).
Proof. unfold part_shape. now rewrite rev_length, map_length, seq_length. Qed.

Lemma list_max_in (l : list nat) : l <> [] -> In (list_max l) l.
Proof.
  induction l as [|x l IH]; [congruence|]. intros _. unfold list_max in *. cbn [fold_right]. destruct l as [|y l]; [cbn; lia|].
  destruct (Nat.max_spec x (fold_right Nat.max 0%nat (y :: l))) as [[_ ->]|[_ ->]]; [right; apply IH; discriminate|left; reflexivity].
Qed.

Lemma broadcasts_part A l out : A <> [] -> incl A l -> broadcasts l out -> broadcasts A (part_shape A out).
Proof.
  intros NE I H. assert (FF : forall s, In s A -> fits s out) by (intros s Hs; eapply broadcasts_fits; eauto).
  pose proof (list_max_in (map (@length Z) A)) as M. destruct A as [|s0 A0]; [congruence|]. set (A := s0 :: A0) in *.
  assert (M' : In (list_max (map (@length Z) A)) (map (@length Z) A)) by (apply M; discriminate). clear M.
  apply in_map_iff in M'. destruct M' as (m & Lm & Im).
  split; [|split].
  - intros s Hs. rewrite part_length. pose proof (list_max_le (map (@length Z) A) (list_max (map (@length Z) A))) as [Q _].
    specialize (Q (le_n _)). rewrite Forall_forall in Q. apply Q. now apply in_map.
  - exists m. split; [assumption|]. now rewrite part_length.
  - intros k d E. apply part_from_end in E. destruct E as [K ->]. unfold part_ext.
    destruct (from_end k out) as [d|] eqn:Eo.
    2:{ exfalso. assert (X : exists d, from_end k out = Some d); [|destruct X; congruence]. apply from_end_some.
        destruct (FF m Im). lia. }
    assert (V : forall s e, In s A -> from_end k s = Some e -> e = 1 \/ e = d).
    { intros s e Hs Ee. specialize (FF s Hs). apply fits_broadcasts in FF. destruct FF as (_ & _ & G). destruct (G k d Eo) as [_ G2].
      apply (G2 s); simpl; auto. }
    destruct (existsb _ A) eqn:Ex.
    + apply existsb_exists in Ex. destruct Ex as (s & Hs & Es). destruct (from_end k s) as [e|] eqn:Ee; [|discriminate].
      apply negb_true_iff, Z.eqb_neq in Es. destruct (V s e Hs Ee); [congruence|subst e]. split; [eauto|exact V].
    + assert (W : forall s e, In s A -> from_end k s = Some e -> e = 1).
      { intros s e Hs Ee. destruct (Z.eq_dec e 1); [assumption|]. exfalso.
        assert (X : existsb (fun s => match from_end k s with Some e => negb (e =? 1) | None => false end) A = true).
        { apply existsb_exists. exists s. rewrite Ee. split; [assumption|]. now apply negb_true_iff, Z.eqb_neq. }
        congruence. }
      split; [|intros s e Hs Ee; left; eauto]. exists m. split; [assumption|].
      assert (X : exists e, from_end k m = Some e) by (apply from_end_some; lia). destruct X as [e Ee]. rewrite Ee. f_equal. eauto.
Qed.

Lemma part_fits A l out : A <> [] -> incl A l -> broadcasts l out -> fits (part_shape A out) out.
Proof.
  intros NE I H. apply fits_broadcasts. pose proof (broadcasts_part A l out NE I H) as (P1 & (m & Im & Lm) & P3).
  assert (Lo : (length (part_shape A out) <= length out)%nat).
  { rewrite <- Lm. destruct H as (H1 & _). apply H1, I. assumption. }
  split; [intros s [<-|[<-|[]]]; lia|]. split; [exists out; simpl; auto|]. intros k d E. split; [exists out; simpl; auto|].
  intros s e [<-|[<-|[]]] Ee; [|right; congruence]. apply part_from_end in Ee. destruct Ee as [_ ->]. unfold part_ext. rewrite E.
  destruct (existsb _ _); auto.
Qed.

(** Broadcasting all operands at once is broadcasting in two steps. *)
Lemma broadcasts_split A B out : A <> [] -> B <> [] -> broadcasts (A ++ B) out ->
  exists s1 s2, broadcasts A s1 /\ broadcasts B s2 /\ broadcasts [s1; s2] out.
Proof.
  intros NA NB H. assert (IA : incl A (A ++ B)) by (apply incl_appl, incl_refl). assert (IB : incl B (A ++ B)) by (apply incl_appr, incl_refl).
  exists (part_shape A out), (part_shape B out).
  pose proof (broadcasts_part A _ out NA IA H) as PA. pose proof (broadcasts_part B _ out NB IB H) as PB.
  split; [assumption|]. split; [assumption|].
  pose proof (part_fits A _ out NA IA H) as FA. pose proof (part_fits B _ out NB IB H) as FB.
  split; [intros s [<-|[<-|[]]]; [apply FA|apply FB]|]. destruct H as (H1 & (m & Hm & Lm) & H3). split.
  - apply in_app_or in Hm. destruct Hm as [Hm|Hm].
    + exists (part_shape A out). split; [simpl; auto|]. destruct PA as (P1 & _). specialize (P1 m Hm). destruct FA. lia.
    + exists (part_shape B out). split; [simpl; auto|]. destruct PB as (P1 & _). specialize (P1 m Hm). destruct FB. lia.
  - assert (V : forall A', broadcasts A' (part_shape A' out) -> fits (part_shape A' out) out -> forall k d, from_end k out = Some d ->
        (exists s, In s A' /\ from_end k s = Some d) -> from_end k (part_shape A' out) = Some d).
    { intros A' P F k d E (s & Hs & Es). assert (X : exists e, from_end k (part_shape A' out) = Some e).
      { apply from_end_some. destruct P as (P1 & _). specialize (P1 s Hs). assert (k < length s)%nat by (apply from_end_some; eauto). lia. }
      destruct X as [e Ee]. rewrite Ee. destruct P as (_ & _ & P3). destruct (P3 k e Ee) as [_ P4]. destruct (P4 s d Hs Es) as [->|]; [|congruence].
      apply fits_broadcasts in F. destruct F as (_ & _ & F3). destruct (F3 k _ E) as [_ F4].
      destruct (F4 (part_shape A' out) e); simpl; auto; congruence. }
    intros k d E. split.
    + destruct (H3 k d E) as [(s & Hs & Es) _]. apply in_app_or in Hs. destruct Hs as [Hs|Hs].
      * exists (part_shape A out). split; [simpl; auto|]. apply V; eauto.
      * exists (part_shape B out). split; [simpl; auto|]. apply V; eauto.
    + intros s e [<-|[<-|[]]] Ee.
      * apply fits_broadcasts in FA. destruct FA as (_ & _ & G). destruct (G k d E) as [_ G2]. apply (G2 (part_shape A out)); simpl; auto.
      * apply fits_broadcasts in FB. destruct FB as (_ & _ & G). destruct (G k d E) as [_ G2]. apply (G2 (part_shape B out)); simpl; auto.
Qed.

(** ** [_broadcast] *)

Definition positive (s : list Z) : Prop := Forall (fun d => 0 < d) s.

Lemma same_zip s1 : forall s2, positive s1 -> positive s2 -> bc_same s1 s2 = broadcast_zip s1 s2.
Proof.
  induction s1 as [|a s1 IH]; intros [|b s2] P1 P2; try reflexivity. inversion P1; inversion P2; subst.
  cbn [bc_same broadcast_zip]. rewrite IH by assumption.
  destruct (Z.eqb_spec a 1) as [->|A]; cbn [orb].
  - destruct (broadcast_zip s1 s2); cbn; try reflexivity. now rewrite Z.max_r by lia.
  - destruct (Z.eqb_spec b 1) as [->|B]; cbn [orb negb andb].
    + destruct (broadcast_zip s1 s2); cbn; try reflexivity. now rewrite Z.max_l by lia.
    + destruct (Z.eqb_spec a b) as [->|]; cbn [negb]; [|reflexivity].
      destruct (broadcast_zip s1 s2); cbn; try reflexivity. now rewrite Z.max_id.
Qed.

Lemma positive_skipn n s : positive s -> positive (skipn n s).
Proof. unfold positive. revert s. induction n as [|n IH]; intros [|x s] P; cbn; auto. inversion P; auto. Qed.

Lemma fbroadcast_util s1 s2 : positive s1 -> positive s2 -> fbroadcast s1 s2 = util_broadcast s1 s2.
Proof.
  intros P1 P2. unfold fbroadcast, util_broadcast.
  destruct (Nat.eqb_spec (length s1) 0) as [E1|E1].
  - destruct s1; [|discriminate]. cbn [length]. rewrite Nat.min_0_l, Nat.max_0_l, !Nat.sub_0_r. cbn [skipn broadcast_zip bind].
    replace (length s2 <? 0)%nat with false by (symmetry; apply Nat.ltb_ge; lia). now rewrite firstn_all, app_nil_r.
  - destruct (Nat.eqb_spec (length s2) 0) as [E2|E2].
    + destruct s2; [|discriminate]. cbn [length]. rewrite Nat.min_0_r, Nat.max_0_r, !Nat.sub_0_r.
      rewrite skipn_all. cbn [skipn broadcast_zip bind].
      replace (0 <? length s1)%nat with true by (symmetry; apply Nat.ltb_lt; lia). now rewrite firstn_all, app_nil_r.
    + destruct (Nat.ltb_spec (length s2) (length s1)) as [H|H].
      * replace (Nat.min (length s1) (length s2)) with (length s2) by lia. replace (Nat.max (length s1) (length s2)) with (length s1) by lia.
        rewrite Nat.sub_diag. cbn [skipn]. now rewrite same_zip by (auto using positive_skipn).
      * replace (Nat.min (length s1) (length s2)) with (length s1) by lia. replace (Nat.max (length s1) (length s2)) with (length s2) by lia.
        rewrite Nat.sub_diag. cbn [skipn]. destruct (Nat.ltb_spec (length s1) (length s2)) as [G|G].
        -- now rewrite same_zip by (auto using positive_skipn).
        -- replace (length s2 - length s1)%nat with O by lia. cbn [skipn firstn app]. rewrite same_zip by assumption.
           destruct (broadcast_zip s1 s2); reflexivity.
Qed.

Lemma broadcasts_positive l out : (forall s, In s l -> positive s) -> broadcasts l out -> positive out.
Proof.
  intros P (_ & _ & B). unfold positive. apply Forall_forall. intros x Hx. apply in_rev in Hx. apply In_nth_error in Hx. destruct Hx as [k Hk].
  destruct (B k x Hk) as [(s & Hs & Es) _]. specialize (P s Hs). unfold positive in P. rewrite Forall_forall in P. apply P.
  apply in_rev. unfold from_end in Es. eapply nth_error_In; eauto.
Qed.
