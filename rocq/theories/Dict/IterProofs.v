From Coq Require Import List ZArith Lia Bool Permutation.
From Verif.Common Require Import Result Int64 Arr Tac.
From Verif.Dict Require Import Model Spec Flags Cells Proofs OpProofs Run IterModel.
Import ListNotations.
Local Open Scope Z_scope.
Local Open Scope res_scope.
Local Arguments Z.add : simpl never.
Local Arguments Z.sub : simpl never.
Local Arguments Z.mul : simpl never.
Local Arguments Z.pow : simpl never.

Section IterProofs.
Context {K V : Type} (eqb : K -> K -> bool) (hash : K -> Z).
Notation tbl := (tbl K V).
Context (eqb_refl : forall a, eqb a a = true).
Context (eqb_sym : forall a b, eqb a b = eqb b a).
Context (eqb_trans : forall a b c, eqb a b = true -> eqb b c = true -> eqb a c = true).
Context (hash_eq : forall a b, eqb a b = true -> hash a = hash b).

(** A put that finds its key and has no pending growth does not change the table. *)
Lemma put_present (t : tbl) key t' x : nocc t < ub t -> kh_put eqb hash t key = Ok (t', 0, x) -> t' = t.
Proof.
  intros L. unfold kh_put. destruct (Z.leb_spec (ub t) (nocc t)); [lia|]. cbn [bind]. cbv zeta.
  destruct (isempty (flags t) _) as [e| | |]; cbn [bind]; try discriminate.
  match goal with |- bind ?m _ = _ -> _ => destruct m as [y| | |] end; cbn [bind]; try discriminate.
  destruct (isempty (flags t) y) as [e2| | |]; cbn [bind]; try discriminate.
  destruct (negb (e2 =? 0)).
  - destruct (wr _ _ _); cbn [bind]; try discriminate. destruct (set_isboth_false _ _); cbn [bind]; discriminate.
  - destruct (isdel (flags t) y) as [e3| | |]; cbn [bind]; try discriminate.
    destruct (negb (e3 =? 0)).
    + destruct (wr _ _ _); cbn [bind]; try discriminate. destruct (set_isboth_false _ _); cbn [bind]; discriminate.
    + intros E. congruence.
Qed.

Definition with_vals (t : tbl) vs : tbl := T (nb t) (sz t) (nocc t) (ub t) (flags t) (keys t) vs.

Lemma set_present t key x v : wfn eqb hash t -> roomy t -> nocc t < ub t -> is_at eqb t key x ->
  setitem eqb hash t key v = Ok (with_vals t (upd (vals t) x (Some v))).
Proof.
  intros W Rm L At. unfold setitem.
  pose proof (put_spec eqb hash eqb_sym hash_eq t key (or_intror W) Rm) as H. apply wp_inv in H.
  destruct H as ([[t' ret] y] & E & _ & H). rewrite E. cbn [bind].
  destruct At as (Hx & Lx & k & Ek & Exk).
  destruct H as [(-> & W' & _ & Aty)|(_ & A & _)].
  - assert (t' = t) by (eapply put_present; eauto). subst t'.
    assert (y = x).
    { destruct Aty as (Hy & Ly & k' & Ek' & Ey). apply (w_uniq _ _ t W y x k' k); auto.
      apply (eqb_trans k' key k); auto. now rewrite eqb_sym. }
    subst y. unfold set_val, wr. rewrite aset_ok by (rewrite (w_vals _ _ t W); lia). reflexivity.
  - exfalso. destruct (w_full _ _ t W x Hx Lx) as (k' & v0 & Ek' & Ev). rewrite Ek in Ek'. injection Ek' as <-.
    rewrite (A k v0) in Exk; [discriminate|]. apply in_cells. exists x. auto.
Qed.


Lemma with_vals_wfn t vs : wfn eqb hash t -> zlen vs = nb t ->
  (forall i, 0 <= i < nb t -> liveb (flags t) i = true -> exists v, zn None vs i = Some v) ->
  wfn eqb hash (with_vals t vs).
Proof.
  intros W L F. pose proof W as [w1 w2 w3 w4 w5 w6 w7 w8 w9 w10 w11].
  constructor; unfold with_vals; cbn [nb sz nocc ub flags keys vals]; auto.
  intros i Hi Li. destruct (w5 i Hi Li) as (k & _ & Ek & _). destruct (F i Hi Li) as (v & Ev). eauto.
Qed.

Lemma assign_loop_S m (f : K -> V -> V) (t : tbl) i : assign_loop eqb hash (S m) f t i =
  if i <? nb t then
    bind (iseither (flags t) i) (fun e => if e =? 0 then
      bind (rd (keys t) i) (fun k => bind (rd (vals t) i) (fun v =>
      bind (setitem eqb hash t k (f k v)) (fun t =>
      bind (assign_loop eqb hash m f t (i + 1)) (fun r => let '(vis, t) := r in Ok ((k, v) :: vis, t)))))
    else assign_loop eqb hash m f t (i + 1))
  else Ok ([], t).
Proof. reflexivity. Qed.

Lemma assign_loop_spec (f : K -> V -> V) m : forall t i, wfn eqb hash t -> roomy t -> nocc t < ub t ->
  0 <= i -> i + Z.of_nat m = nb t ->
  exists vs, assign_loop eqb hash (S m) f t i =
      Ok (flat_map (cell (liveb (flags t)) (keys t) (vals t)) (map Z.of_nat (seq (Z.to_nat i) m)), with_vals t vs) /\
    zlen vs = nb t /\ (forall j, 0 <= j < i -> zn None vs j = zn None (vals t) j) /\
    (forall j k v, i <= j < nb t -> liveb (flags t) j = true -> zn None (keys t) j = Some k ->
       zn None (vals t) j = Some v -> zn None vs j = Some (f k v)).
Proof.
  induction m as [|m IH]; intros t i W Rm Ld Hi Hm; rewrite assign_loop_S.
  - replace (i <? nb t) with false by lia. exists (vals t). split.
    + destruct t. reflexivity.
    + split; [apply W|]. split; auto. intros; lia.
  - replace (i <? nb t) with true by lia.
    assert (CV : covers (flags t) (nb t)) by (apply covers_fsize; apply W).
    destruct (iseither_eq (flags t) i) as (e & -> & Ee); [lia|apply CV; lia|]. cbn [bind]. rewrite Ee.
    cbn [seq map flat_map]. rewrite Z2Nat.id by lia. fold (liveb (flags t) i).
    replace (S (Z.to_nat i)) with (Z.to_nat (i + 1)) by lia. unfold cell at 1.
    destruct (liveb (flags t) i) eqn:L.
    + destruct (w_full _ _ t W i ltac:(lia) L) as (k & v & Ek & Ev).
      pose proof (w_vals _ _ t W) as VL.
      rewrite (rd_ok _ i k) by (auto; rewrite (w_keys _ _ t W); lia). cbn [bind].
      rewrite (rd_ok _ i v) by (auto; rewrite VL; lia). cbn [bind].
      rewrite (set_present t k i (f k v)); auto.
      2:{ split; [lia|]. split; auto. exists k. auto. }
      cbn [bind]. set (t1 := with_vals t (upd (vals t) i (Some (f k v)))).
      assert (ZU : forall j, 0 <= j < nb t -> zn None (upd (vals t) i (Some (f k v))) j = if j =? i then Some (f k v) else zn None (vals t) j).
      { intros j Hj. rewrite zn_upd by lia. reflexivity. }
      assert (W1 : wfn eqb hash t1).
      { apply with_vals_wfn; auto; [now rewrite zlen_upd|]. intros j Hj Lj. rewrite ZU by lia.
        destruct (Z.eqb_spec j i); eauto. destruct (w_full _ _ t W j Hj Lj) as (? & ? & _ & ?). eauto. }
      destruct (IH t1 (i + 1) W1) as (vs & E & VL' & B & A); auto; try (simpl; lia).
      rewrite E. cbn [bind]. exists vs. split; [|split; [auto|split]].
      * rewrite (ent_some _ _ i k v) by auto. unfold t1. cbn [with_vals flags keys vals nb]. f_equal. f_equal.
        simpl app. f_equal. apply flat_map_ext_in. intros j Hj. unfold cell. destruct (liveb (flags t) j); auto.
        unfold ent. apply in_map_iff in Hj. destruct Hj as (n & <- & Hn). apply in_seq in Hn.
        rewrite ZU by lia. destruct (Z.eqb_spec (Z.of_nat n) i); [lia|]. reflexivity.
      * intros j Hj. rewrite B by lia. unfold t1. cbn [with_vals vals]. rewrite ZU by lia.
        destruct (Z.eqb_spec j i); [lia|auto].
      * intros j k' v' Hj Lj Kj Vj. destruct (Z.eq_dec j i) as [->|].
        { rewrite B by lia. unfold t1. cbn [with_vals vals]. rewrite ZU by lia. rewrite Z.eqb_refl. congruence. }
        apply (A j k' v'); auto; unfold t1; cbn [with_vals nb vals]; [lia|]. rewrite ZU by lia.
        destruct (Z.eqb_spec j i); [lia|auto].
    + destruct (IH t (i + 1) W) as (vs & E & VL' & B & A); auto; try lia.
      rewrite E. exists vs. split; auto. split; auto. split.
      * intros j Hj. apply B. lia.
      * intros j k' v' Hj Lj. destruct (Z.eq_dec j i) as [->|]; [congruence|]. apply A; auto. lia.
Qed.

Theorem assign_loop_ok (f : K -> V -> V) (t : tbl) : wfn eqb hash t -> roomy t -> nocc t < ub t ->
  exists t', assign_loop eqb hash (S (Z.to_nat (nb t))) f t 0 = Ok (ents t, t') /\ wf eqb hash t' /\
    ents t' = map (fun e => (fst e, f (fst e) (snd e))) (ents t).
Proof.
  intros W Rm Ld. pose proof (pow2_bounds _ (w_pow _ _ t W)) as PB.
  destruct (assign_loop_spec f (Z.to_nat (nb t)) t 0 W Rm Ld) as (vs & E & VL & _ & A); try lia.
  exists (with_vals t vs). split; [exact E|].
  split.
  - right. apply with_vals_wfn; auto. intros i Hi Li.
    destruct (w_full _ _ t W i Hi Li) as (k & v & Ek & Ev). exists (f k v). apply (A i k v); auto.
  - unfold ents, cells. cbn [with_vals flags keys vals nb].
    assert (G : forall l, (forall j, In j l -> 0 <= j < nb t) ->
      flat_map (cell (liveb (flags t)) (keys t) vs) l =
      map (fun e => (fst e, f (fst e) (snd e))) (flat_map (cell (liveb (flags t)) (keys t) (vals t)) l)).
    { induction l as [|j l IHl]; intros Hl; simpl; auto. rewrite map_app, <- IHl by (intros; apply Hl; now right). f_equal.
      unfold cell. destruct (liveb (flags t) j) eqn:Lj; auto.
      destruct (w_full _ _ t W j (Hl j (or_introl eq_refl)) Lj) as (k & v & Ek & Ev).
      assert (Ew : zn None vs j = Some (f k v)) by (apply (A j k v); auto; apply Hl; now left).
      rewrite (ent_some (keys t) vs j k (f k v) Ek Ew), (ent_some (keys t) (vals t) j k v Ek Ev). reflexivity. }
    apply G. intros j. apply in_zseq.
Qed.

(** ** The rewriting of dict arithmetic *)
Context {X : Type} (x : X) (op : V -> X -> res V).

Notation repr := (repr eqb hash).
(** A second operand without effects. *)
Definition still (t : tbl) : res (tbl * X) := Ok (t, x).

Lemma do_op_throws_ok t m k : repr t m -> zlen m <= 2^60 ->
  match lookup eqb m k with
  | None => do_op_throws eqb hash t k (fun v => op v x) = Raise KeyError
  | Some v => match op v x with
              | Ok w => wp (do_op_throws eqb hash t k (fun v => op v x)) (fun t' => repr t' (store eqb m k w))
              | Raise e => do_op_throws eqb hash t k (fun v => op v x) = Raise e
              | _ => True
              end
  end.
Proof.
  intros R Sm. pose proof (get_lookup eqb hash eqb_sym eqb_trans hash_eq t m k R) as G. apply wp_inv in G.
  destruct G as (y & Ey & G). unfold do_op_throws. rewrite Ey. cbn [bind].
  destruct G as [(-> & L & _)|(N & At & W & v & L & Rd)]; rewrite L.
  - now rewrite Z.eqb_refl.
  - destruct (Z.eqb_spec y (nb t)); [lia|]. rewrite Rd. cbn [bind].
    destruct (op v x) as [w|e| |]; cbn [bind]; auto.
    destruct At as (Hx & Lx & k0 & Ek & E0).
    destruct (set_val_spec eqb hash t y w W Hx Lx) as (k2 & v2 & rest & E2 & E2' & P2 & S2).
    eapply wp_conseq; [exact S2|]. cbv beta. intros t'' (W'' & P''). split; [now right|].
    pose proof R as (_ & P). rewrite Ek in E2. injection E2 as <-.
    assert (I : In (k0, v2) m) by (eapply Permutation_in; [exact P|]; eapply Permutation_in; [symmetry; exact P2|]; now left).
    destruct (present_facts eqb eqb_sym eqb_trans m k0 v2 k (repr_uniq eqb hash eqb_sym t m R) I E0) as (_ & r & P1 & _ & P3).
    rewrite P'', P3. apply perm_skip. apply (Permutation_cons_inv (a := (k0, v2))). now rewrite <- P1, <- P2.
Qed.

Lemma do_op_ok t m k c : repr t m -> zlen m <= 2^60 ->
  forall w, op (match lookup eqb m k with Some v => v | None => c end) x = Ok w ->
  wp (do_op eqb hash t k c (fun v => op v x)) (fun r => snd r = None /\ repr (fst r) (store eqb m k w)).
Proof.
  intros R Sm w Ow. unfold do_op. apply wp_bind.
  eapply wp_conseq; [apply (put_lookup eqb hash eqb_sym eqb_trans hash_eq t m k R Sm)|].
  intros [[t' ret] y] [(Rn & L & H)|(-> & R' & v0 & L & Rd & H)]; rewrite L in Ow.
  - destruct (Z.eqb_spec ret 0); [lia|]. cbn [negb bind]. rewrite Ow. apply wp_bind. eapply wp_conseq; [apply H|].
    cbv beta. intros t'' R''. apply wp_ok. auto.
  - change (negb (0 =? 0)) with false. cbn iota. rewrite Rd. cbn [bind]. rewrite Ow. apply wp_bind.
    eapply wp_conseq; [apply H|]. cbv beta. intros t'' R''. apply wp_ok. auto.
Qed.

(** With a second operand without effects, [d[k]] and constant defaults, and an operator
    that does not raise where a default is used, source and rewritten statement agree. *)
Theorem rewrite_ok t m k g : repr t m -> zlen m <= 2^60 ->
  match g with GExpr _ => False | GItem => forall v, op v x <> Undef /\ op v x <> NoFuel
             | GConst _ => forall v, exists w, op v x = Ok w end ->
  exists t1 t2 m' e, run_source eqb hash still op t k g = Ok (t1, e) /\
    run_rewritten eqb hash still op t k g = Ok (t2, e) /\ repr t1 m' /\ repr t2 m'.
Proof.
  intros R Sm Hg. unfold run_source, run_rewritten, still. cbn [bind].
  pose proof (get_lookup eqb hash eqb_sym eqb_trans hash_eq t m k R) as G. apply wp_inv in G.
  destruct G as (y & Ey & G).
  destruct g as [|c|]; [| |contradiction]; cbn [rewrite_get].
  - pose proof (do_op_throws_ok t m k R Sm) as D. unfold getitem. rewrite Ey. cbn [bind].
    destruct G as [(-> & L & _)|(N & At & W & v & L & Rd)]; rewrite L in D.
    + rewrite Z.eqb_refl. cbn [negb bind raising]. rewrite D. cbn [bind raising]. exists t, t, m, (Some KeyError). auto 6.
    + destruct (Z.eqb_spec y (nb t)); [lia|]. cbn [negb]. rewrite Rd. cbn [bind]. specialize (Hg v).
      destruct (op v x) as [w|e| |] eqn:Ow; try (exfalso; intuition congruence); cbn [bind raising].
      * apply wp_inv in D. destruct D as (t2 & -> & R2). cbn [bind raising].
        pose proof (setitem_ok eqb hash eqb_sym eqb_trans hash_eq t m k w R Sm) as S. apply wp_inv in S.
        destruct S as (t1 & -> & R1). cbn [bind raising]. exists t1, t2, (store eqb m k w), None. auto 6.
      * rewrite D. cbn [bind raising]. exists t, t, m, (Some e). auto 6.
  - destruct (Hg (match lookup eqb m k with Some v => v | None => c end)) as (w & Ow).
    pose proof (do_op_ok t m k c R Sm w Ow) as D. apply wp_inv in D. destruct D as ([t2 e] & E2 & Ee & R2). cbn [fst snd] in Ee, R2. subst e.
    pose proof (setitem_ok eqb hash eqb_sym eqb_trans hash_eq t m k w R Sm) as S. apply wp_inv in S.
    destruct S as (t1 & E1 & R1).
    unfold get. rewrite Ey. cbn [bind].
    destruct G as [(-> & L & _)|(N & At & W & v & L & Rd)]; rewrite L in Ow.
    + rewrite Z.eqb_refl. cbn [negb bind]. rewrite Ow. cbn [bind raising]. rewrite E1, E2. cbn [bind raising]. exists t1, t2, (store eqb m k w), None. auto 6.
    + destruct (Z.eqb_spec y (nb t)); [lia|]. cbn [negb]. rewrite Rd. cbn [bind]. rewrite Ow. cbn [bind raising].
      rewrite E1, E2. cbn [bind raising]. exists t1, t2, (store eqb m k w), None. auto 6.
Qed.
End IterProofs.
