From Coq Require Import List ZArith Lia Bool ZifyBool Floats.SpecFloat.
From Verif.Common Require Import Result Int64.
From Verif.Ir Require Import Num NumProofs Sem SemProofs Fold PassProofs Effects EffectProofs Dce.
Import ListNotations.

Section Dce.
Context {W : Type}.
Context (fopq : magic -> spec_float -> spec_float -> spec_float) (fpowi : spec_float -> Z -> spec_float).
Context (py : bool) (uc : ufun (W := W)) (ret : nat -> ty) (tenv : bool -> nat -> ty).
Context (UW : wt_ufun ret tenv uc).
Context (U : bool -> nat -> bool) (UE : uc_ext uc U).
Context (fstat : nat -> status) (gase : bool) (HF : honest uc U fstat).
Context (se : node -> bool) (HSE : forall e, se e = false -> hasSideEffect py fstat gase U e = false).
Notation ev := (ev fopq fpowi py uc).
Notation wt := (wt ret tenv).
Notation ty_of := (ty_of ret).
Notation sty := (sty ret tenv).
Notation wts := (wt_state (W := W) tenv).
Notation agree := (agree (W := W) U).
Notation uref := (uref fopq fpowi py uc tenv U).

Definition T (e e' : node) : Prop := sty e e' /\ rd U e' /\ uref e e'.
Definition TT (f : node -> node) (e : node) : Prop := wt e -> rd U e -> T e (f e).

Lemma T_cong e e' : wt e -> rd U e -> cong T e e' -> T e e'.
Proof.
  intros WT RD C. split; [|split].
  - apply cong_sty; auto. eapply cong_mono; [|exact C]. now intros a b (H & _).
  - eapply rd_cong; eauto. eapply cong_mono; [|exact C]. now intros a b (_ & H & _).
  - apply (cong_uref fopq fpowi py uc ret tenv UW U UE); auto. eapply cong_mono; [|exact C]. now intros a b (_ & _ & H).
Qed.
Lemma TT_list f l : Forall (TT f) l -> Forall wt l -> Forall (rd U) l -> Forall2 T l (map f l).
Proof. intros F WT RD. induction F as [|a l H F IH]; cbn; constructor; inversion WT; inversion RD; subst; auto. Qed.

Definition TP (e : node) : Prop := forall k, TT (dce se k) e /\ TT (map_kids (dce se k)) e.
Lemma TP_l k l : Forall TP l -> Forall (TT (dce se k)) l.
Proof. intros F. eapply Forall_impl; [|exact F]. intros a H. apply H. Qed.

Lemma ev_eq e e' : wt e -> rd U e -> (forall n s, wts s -> ule tenv U (ev n e s) (ev n e' s)) -> rd U e' -> wt e' -> uref e e'.
Proof.
  intros WT RD H RD' WT' n s1 s2 W1 W2 A o s1' E N.
  destruct (H n s1 W1 o s1' E N) as (s3 & E3 & A3 & W3).
  destruct (uref_refl fopq fpowi py uc ret tenv UW U UE e' WT' RD' n s1 s2 W1 W2 A o s3 E3 N) as (s4 & E4 & A4 & W4).
  exists s4. split; auto. split; auto. eapply agree_trans; eauto.
Qed.
Lemma T_eq e e' : wt e -> rd U e -> sty e e' -> rd U e' -> (forall n s, wts s -> ule tenv U (ev n e s) (ev n e' s)) -> T e e'.
Proof. intros. split; auto. split; auto. apply ev_eq; auto. apply H1. Qed.
Lemma T_trans a b c : T a b -> T b c -> T a c.
Proof. intros ((S1 & S2) & R1 & U1) ((S3 & S4) & R2 & U2). split; [split; congruence|]. split; auto. eapply uref_trans; eauto. Qed.
Lemma ule_same r : (forall o s, r = Some (o, s) -> wts s) -> ule tenv U r r.
Proof. intros H o s E N. exists s. split; auto. split; [apply agree_refl|eauto]. Qed.
Lemma ev_wts n e s o s' : wt e -> wts s -> ev n e s = Some (o, s') -> wts s'.
Proof. intros WT HS E. pose proof (ev_good fopq fpowi py uc ret tenv UW n e WT s HS) as G. rewrite E in G. apply G. Qed.

Lemma series_ok k l : Forall TP l -> Forall wt l -> Forall (rd U) l ->
  let go := fix go (l : list node) : list node :=
              match l with [] => [] | a :: l => if k && negb (se a) then go l else dce se k a :: go l end in
  Forall wt (go l) /\ Forall (rd U) (go l) /\
  forall n s1 s2, wts s1 -> wts s2 -> agree s1 s2 -> ule tenv U (ev_seq (ev n) l s1) (ev_seq (ev n) (go l) s2).
Proof.
  cbv zeta. intros F WT RD. induction F as [|a l Ha F IH]; [split; auto; split; auto; intros; now apply ule_ret|].
  assert (Wa := Forall_inv WT). assert (Ra := Forall_inv RD). destruct (IH (Forall_inv_tail WT) (Forall_inv_tail RD)) as (I1 & I2 & I3).
  destruct (Ha k) as [Hd _]. destruct (Hd Wa Ra) as ((D1 & D2) & D3 & D4).
  destruct (k && negb (se a)) eqn:B.
  - split; auto. split; auto. intros n s1 s2 W1 W2 A o s E N. cbn [ev_seq] in E.
    apply andb_prop in B as [_ B]. apply negb_true_iff, HSE, has_se in B.
    pose proof (pure_ev fopq fpowi py uc U fstat gase HF n a B s1) as Q. destruct (ev n a s1) as [[oa s1']|] eqn:EA; [|discriminate].
    destruct Q as [A1 [->|[v ->]]]; [cbn in E; injection E as <- <-; now destruct N|]. cbn in E.
    apply (I3 n s1' s2 (ev_wts n a s1 _ s1' Wa W1 EA) W2); auto. eapply agree_trans; [apply agree_sym; exact A1|exact A].
  - split; [constructor; auto|]. split; [constructor; auto|]. intros n s1 s2 W1 W2 A. cbn [ev_seq].
    eapply ule_vbind; [apply (ev_good fopq fpowi py uc ret tenv UW n a Wa s1 W1)|now apply D4|]. intros v t1 t2 W3 W4 A2 _. now apply I3.
Qed.

Lemma no_val_id n a s : wt a -> ty_of a = TNone -> wts s -> no_val (ev n a s) = ev n a s.
Proof.
  intros WT HT HS. pose proof (ev_good fopq fpowi py uc ret tenv UW n a WT s HS) as G. destruct (ev n a s) as [[[] s']|]; auto. cbn. destruct G as [_ G].
  rewrite HT in G. destruct v; try contradiction. reflexivity.
Qed.
Lemma T_kids k e : wt e -> rd U e -> cong T e (map_kids (dce se k) e) -> T e (map_kids (dce se k) e).
Proof. intros. now apply T_cong. Qed.

Lemma dce_TP e : TP e.
Proof.
  induction e as [v|x|f args FA|c a b IHc IHa IHb|x e IH|l FA|c a b IHc IHa IHb|c b IHc IHb|x a st b body IHa IHb IHbd| | |e IH|e IH|f v IHf IHv|b x h f IHb IHh IHf]
    using node_ind'; intros k.
  - split; intros WT RD; apply T_kids with (k := k); auto; constructor.
  - split; intros WT RD; apply T_kids with (k := k); auto; constructor.
  - split; intros WT RD; apply T_kids with (k := k); auto; constructor; destruct WT as [WA _]; apply wt_args in WA; cbn in RD; apply rd_args in RD; apply TT_list; auto; now apply TP_l.
  - assert (M : TT (map_kids (dce se k)) (Ternary c a b)).
    { intros WT RD. apply T_cong; auto. destruct WT as (Wc & Wa & Wb & Tc & Tab), RD as (Rc & Ra & Rb). constructor; [apply IHc|apply IHa|apply IHb]; auto. }
    split; auto. intros WT RD. specialize (M WT RD). destruct WT as (Wc & Wa & Wb & Tc & Tab), RD as (Rc & Ra & Rb).
    cbn [dce]. destruct c as [[| |[]| |]| | | | | | | | | | | | | |]; auto.
    + apply T_trans with (b := a); [|apply (IHa false); auto]. apply T_eq; try (cbn; auto 10; fail); [split; auto|]. intros n s HS. cbn. apply ule_same. eauto using ev_wts.
    + apply T_trans with (b := b); [|apply (IHb false); auto]. apply T_eq; try (cbn; auto 10; fail); [split; auto|]. intros n s HS. cbn. apply ule_same. eauto using ev_wts.
  - assert (M : TT (map_kids (dce se k)) (Assign x e)).
    { intros WT RD. apply T_cong; auto. destruct WT as (Wx & We & Tx). constructor. apply IH; auto. }
    split; auto.
  - split; intros WT RD.
    + cbn in WT, RD. apply wt_args in WT. apply rd_args in RD. destruct (series_ok k l FA WT RD) as (H1 & H2 & H3).
      split; [split; auto; cbn; now apply wt_args|]. split; [cbn; now apply rd_args|]. intros n s1 s2 W1 W2 A. cbn [Sem.ev dce]. now apply H3.
    + apply T_kids; auto. constructor. cbn in WT, RD. apply wt_args in WT. apply rd_args in RD. apply TT_list; auto. now apply TP_l.
  - assert (M : TT (map_kids (dce se k)) (If c a b)).
    { intros WT RD. apply T_cong; auto. destruct WT as (Wc & Wa & Wb & Tc & Tab), RD as (Rc & Ra & Rb). constructor; [apply IHc|apply IHa|apply IHb]; auto. }
    split; auto. intros WT RD. specialize (M WT RD). destruct WT as (Wc & Wa & Wb & Tc & Ta & Tb), RD as (Rc & Ra & Rb).
    cbn [dce]. destruct c as [[| |[]| |]| | | | | | | | | | | | | |]; auto.
    + apply T_trans with (b := a); [|apply (IHa false); auto]. apply T_eq; try (cbn; auto 10; fail); [split; auto|]. intros n s HS. cbn [Sem.ev vbind cond_b]. rewrite no_val_id; auto. apply ule_same. eauto using ev_wts.
    + apply T_trans with (b := b); [|apply (IHb false); auto]. apply T_eq; try (cbn; auto 10; fail); [split; auto|]. intros n s HS. cbn [Sem.ev vbind cond_b]. rewrite no_val_id; auto. apply ule_same. eauto using ev_wts.
  - assert (M : TT (map_kids (dce se k)) (While c b)).
    { intros WT RD. apply T_cong; auto. destruct WT as (Wc & Wb & Tc), RD as (Rc & Rb). constructor; [apply IHc|apply IHb]; auto. }
    split; auto. intros WT RD. specialize (M WT RD). cbn [dce]. destruct c as [[| |[]| |]| | | | | | | | | | | | | |]; auto.
    apply T_eq; auto; [split; cbn; auto|exact I|]. intros n s HS. cbn. destruct n; cbn; [intros o s' E; discriminate|]. apply ule_same. now intros o s' [= <- <-].
  - assert (M : TT (map_kids (dce se k)) (ImpFor x a st b body)).
    { intros WT RD. apply T_cong; auto. destruct WT as (Wx & Wa & Wb & Wbd & Ta & Tb & Tx), RD as (Ra & Rb & Rbd). constructor; [apply IHa|apply IHb|apply IHbd]; auto. }
    split; auto. intros WT RD. specialize (M WT RD). cbn [dce]. destruct a as [[i| | | |]| | | | | | | | | | | | | |]; auto. destruct b as [[j| | | |]| | | | | | | | | | | | | |]; auto.
    destruct (_ || _) eqn:B; auto. apply T_eq; auto; [split; cbn; auto|exact I|]. intros n s HS. cbn [Sem.ev vbind ev_seq]. destruct n; cbn [for_loop]; [intros o s' E; discriminate|].
    replace (if (0 <? st)%Z then (j <=? i)%Z else (i <=? j)%Z) with true by (destruct (0 <? st)%Z eqn:E; lia).
    apply ule_same. now intros o s' [= <- <-].
  - split; intros WT RD; apply T_kids with (k := k); auto; constructor.
  - split; intros WT RD; apply T_kids with (k := k); auto; constructor.
  - split; intros WT RD; apply T_kids with (k := k); auto; constructor; apply IH; auto.
  - split; intros WT RD; apply T_kids with (k := k); auto; constructor; apply IH; auto; apply WT.
  - split; intros WT RD; apply T_kids with (k := k); auto; destruct WT, RD; constructor; [apply IHf|apply IHv|apply IHf|apply IHv]; auto.
  - split; intros WT RD; apply T_kids with (k := k); auto; destruct WT as (Wx & Wb & Wh & Wf & Tx), RD as (Rb & Rh & Rf); constructor; first [apply IHb; now auto|apply IHh; now auto|apply IHf; now auto].
Qed.
Lemma dce_ok e : wt e -> rd U e -> T e (dce se true e).
Proof. apply dce_TP. Qed.
End Dce.
