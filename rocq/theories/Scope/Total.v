(** Which functions are accepted.  Proof machinery only. *)
From Coq Require Import List Bool Arith Lia.
From Verif.Scope Require Import Spec Model Events Flow Sim Link Path Items Pass Trail Final.
Import ListNotations.

(** ** The resolution of the names *)

Lemma find_items : forall s i s', find s = Some (i, s') -> items s' <> [].
Proof.
  intros s i s' E. unfold find in E. destruct (items s) as [|i0 its] eqn:Ei; [discriminate|].
  destruct (walk _ _ _ _ _) as [g c].
  destruct (length (scope (nth g (i0 :: its) item0)) =? c).
  - injection E as _ <-. simpl. intros Z. apply app_eq_nil in Z. destruct Z as [Z1 Z2].
    apply map_eq_nil in Z1. pose proof (firstn_skipn g (i0 :: its)) as Q.
    rewrite Z1, Z2 in Q. discriminate.
  - destruct (first_suite _).
    + injection E as _ <-. discriminate.
    + injection E as _ <-. simpl. intros Z. apply app_eq_nil in Z. destruct Z as [Z1 Z2].
      apply map_eq_nil in Z1. pose proof (firstn_skipn g (i0 :: its)) as Q.
      rewrite Z1, Z2 in Q. discriminate.
Qed.
Lemma find_some : forall s, items s <> [] -> exists i s', find s = Some (i, s').
Proof.
  intros s N. unfold find. destruct (items s) as [|i0 its]; [congruence|].
  destruct (walk _ _ _ _ _) as [g c].
  destruct (if length (scope (nth g (i0 :: its) item0)) =? c then _ else _) as [[[? ?] ?] ?].
  eauto.
Qed.

Lemma step_total : forall e s, (forall r, e = Rd r -> items s <> []) ->
  exists s', step1 e s = Some s' /\
    (items s <> [] \/ (exists b, e = Bd b) -> items s' <> []).
Proof.
  intros e s Hr. destruct e as [k su lp|k fo|r|b|lp].
  - eexists. split; [reflexivity|]. intros [N|[b Q]]; [exact N|discriminate].
  - unfold step1. destruct fo.
    + eexists. split; [reflexivity|]. intros [N|[b Q]]; [|discriminate].
      unfold forget. destruct (stack s); exact N.
    + eexists. split; [reflexivity|]. intros [N|[b Q]]; [exact N|discriminate].
  - destruct (find_some s (Hr r eq_refl)) as (i & s' & E). unfold step1, visit_read. rewrite E.
    pose proof (find_items _ _ _ E) as N.
    destruct (checked i) as [|c l]; [eexists; split; [reflexivity|intros _; exact N]|].
    destruct (existsb _ _); eexists; (split; [reflexivity|intros _; exact N]).
  - unfold step1, visit_add.
    destruct (find_some (St (stack s) (Item (ids (stack s)) (BNode b) false [] :: items s) (an s)))
      as (i & s' & E); [discriminate|]. rewrite E. pose proof (find_items _ _ _ E) as N.
    eexists. split; [reflexivity|]. intros _. exact N.
  - unfold step1. destruct lp.
    + eexists. split; [reflexivity|]. intros [N|[b Q]]; [|discriminate].
      unfold pop_loop. destruct (stack s) as [|b r]; [exact N|].
      destruct (noted b) as [[|]|]; [|exact N|exact N].
      destruct (find (pop s)) as [[i s']|] eqn:E; [exact (find_items _ _ _ E)|exact N].
    + eexists. split; [reflexivity|]. intros [N|[b Q]]; [exact N|discriminate].
Qed.
Lemma steps_total : forall es s,
  (forall u r w, es = u ++ Rd r :: w -> bds u <> [] \/ items s <> []) ->
  exists s', steps es s = Some s'.
Proof.
  induction es as [|e es IH]; intros s Hr; [eexists; reflexivity|].
  destruct (step_total e s) as (s1 & E1 & N1).
  { intros r ->. destruct (Hr [] r es eq_refl) as [Q|Q]; [contradiction Q; reflexivity|exact Q]. }
  simpl. rewrite E1. simpl. apply IH. intros u r w ->.
  destruct (Hr (e :: u) r w eq_refl) as [N|N]; [|right; auto].
  destruct e; simpl in N; auto. right. apply N1. right. eauto.
Qed.

Section Named.
  Context {V : Type} (x : nat).

  Definition rp (pre es : list ev) : Prop := forall u r w, es = u ++ Rd r :: w -> bds (pre ++ u) <> [].
  Lemma rp_app : forall pre u w, rp pre u -> rp (pre ++ u) w -> rp pre (u ++ w).
  Proof.
    intros pre u w Ku Kw v r y E. destruct (app_split _ _ _ _ _ _ E) as [(n & -> & _)|(n & -> & ->)].
    - apply (Ku v r n eq_refl).
    - rewrite app_assoc. apply (Kw n r y eq_refl).
  Qed.
  Lemma rp_none : forall pre es, rds es = [] -> rp pre es.
  Proof.
    intros pre es N u r w ->. rewrite rds_app in N. simpl in N. destruct (rds u); discriminate.
  Qed.
  Lemma rp_wrap : forall pre e es lp, rds [e] = [] -> rp (pre ++ [e]) es -> rp pre (e :: es ++ [Close lp]).
  Proof.
    intros pre e es lp N K. apply (rp_app pre [e]); [apply rp_none; exact N|].
    apply rp_app; [exact K|apply rp_none; reflexivity].
  Qed.
  Lemma bds_l : forall pre u, bds pre <> [] -> bds (pre ++ u) <> [].
  Proof. intros pre u N Z. rewrite bds_app in Z. apply app_eq_nil in Z. tauto. Qed.
  Lemma bds_r : forall pre u, bds u <> [] -> bds (pre ++ u) <> [].
  Proof. intros pre u N Z. rewrite bds_app in Z. apply app_eq_nil in Z. tauto. Qed.

  Lemma more_e : forall before (a : expr V) pre, (In x before -> bds pre <> []) ->
    In x (bound_e a ++ before) -> bds (pre ++ evs_e x a) <> [].
  Proof.
    intros before a pre Hb I. apply in_app_or in I. destruct I as [I|I].
    - apply bds_r. apply bound_e_bds. exact I.
    - apply bds_l. auto.
  Qed.
  Lemma more : forall before (a : stmt V) pre, (In x before -> bds pre <> []) ->
    In x (bound a ++ before) -> bds (pre ++ evs x a) <> [].
  Proof.
    intros before a pre Hb I. apply in_app_or in I. destruct I as [I|I].
    - apply bds_r. apply bound_bds. exact I.
    - apply bds_l. auto.
  Qed.

  Lemma rp_e : forall (e : expr V) before pre, named_e before e ->
    (In x before -> bds pre <> []) -> rp pre (evs_e x e).
  Proof.
    induction e; cbn [named_e evs_e]; intros before pre N Hb.
    - apply rp_none. reflexivity.
    - unfold one. destruct (Nat.eqb_spec x0 x) as [->|]; [|apply rp_none; reflexivity].
      intros [|z u] r' w E; [|destruct u; discriminate]. rewrite app_nil_r. auto.
    - destruct N as [N1 N2]. apply rp_app; [eauto|]. eapply IHe2; [exact N2|]. apply more_e. exact Hb.
    - apply rp_app; [eauto|]. apply rp_none. apply rds_one_bd.
    - destruct N as [N1 N2]. apply rp_app; [eauto|]. apply rp_wrap; [reflexivity|].
      eapply IHe2; [exact N2|]. intros I. apply bds_l. revert I. apply more_e. exact Hb.
    - destruct N as [N1 N2]. apply rp_app; [eauto|]. apply rp_wrap; [reflexivity|].
      eapply IHe2; [exact N2|]. intros I. apply bds_l. revert I. apply more_e. exact Hb.
    - destruct N as (N1 & N2 & N3). apply rp_app; [eauto|]. apply rp_app.
      + apply rp_wrap; [reflexivity|]. eapply IHe2; [exact N2|]. intros I. apply bds_l.
        revert I. apply more_e. exact Hb.
      + apply rp_wrap; [reflexivity|]. eapply IHe3; [exact N3|]. intros I. apply bds_l.
        apply in_app_or in I. destruct I as [I|I].
        * apply bds_r. rewrite bds_blocked. apply bound_e_bds. exact I.
        * apply bds_l. revert I. apply more_e. exact Hb.
  Qed.
  Lemma rp_s : forall (p : stmt V) before pre, named before p ->
    (In x before -> bds pre <> []) -> rp pre (evs x p).
  Proof.
    induction p; cbn [named evs]; intros before pre N Hb;
      try (apply rp_none; reflexivity); try (eapply rp_e; eauto; fail).
    - apply rp_app; [eapply rp_e; eauto|]. apply rp_none. apply rds_one_bd.
    - destruct N as [N1 N2]. apply rp_app; [eauto|]. eapply IHp2; [exact N2|]. apply more. exact Hb.
    - destruct N as (N1 & N2 & N3). apply rp_app; [eapply rp_e; eauto|]. apply rp_app.
      + apply (rp_wrap _ (Open k1 true false) (Body k1 false :: evs x p1)); [reflexivity|].
        apply (rp_app _ [_]); [apply rp_none; reflexivity|].
        eapply IHp1; [exact N2|]. intros I. apply bds_l. apply bds_l. revert I. apply more_e. exact Hb.
      + apply (rp_wrap _ (Open k2 true false) (Body k2 false :: evs x p2)); [reflexivity|].
        apply (rp_app _ [_]); [apply rp_none; reflexivity|].
        eapply IHp2; [exact N3|]. intros I. apply bds_l. apply bds_l.
        apply in_app_or in I. destruct I as [I|I].
        * apply bds_r. rewrite bds_branch. apply bound_bds. exact I.
        * apply bds_l. revert I. apply more_e. exact Hb.
    - destruct N as (N1 & N2). apply rp_wrap; [reflexivity|]. apply rp_app.
      + eapply rp_e; [exact N1|]. intros I. apply bds_l. auto.
      + apply (rp_app _ [_]); [apply rp_none; reflexivity|].
        eapply IHp; [exact N2|]. intros I. apply bds_l. revert I. apply more_e.
        intros I. apply bds_l. auto.
    - destruct N as (N1 & N2). apply rp_app; [eapply rp_e; eauto|]. apply rp_wrap; [reflexivity|].
      apply rp_app; [apply rp_none; apply rds_one_bd|].
      apply (rp_app _ [_]); [apply rp_none; reflexivity|].
      eapply IHp; [exact N2|]. intros I. apply bds_l. destruct I as [->|I].
      + apply bds_r. unfold one. rewrite Nat.eqb_refl. discriminate.
      + apply bds_l. apply bds_l. revert I. apply more_e. exact Hb.
  Qed.

  Lemma resolve_total : forall p : stmt V, named [] p -> exists a, resolve x p = Some a.
  Proof.
    intros p N. unfold resolve. rewrite scan_steps.
    destruct (steps_total (evs x p) (St [Blk 0 true None] [] ann0)) as [s E].
    - intros u r w Ev. left. apply (rp_s p [] [] N (fun I => match I with end) u r w Ev).
    - rewrite E. eexists. reflexivity.
  Qed.
End Named.

(** ** The variables *)

Definition wf (f : fs) : Prop := fc f = None ->
  (fv f = Unb \/ fv f = Flow.Inv) /\
  (forall v n h, In (v, n, h) (sv f) -> v = Unb \/ v = Flow.Inv).
Lemma wf_step : forall strict a H e f f', fstep strict a H e f = Some f' -> wf f -> wf f'.
Proof.
  intros strict a H e f f' E W N. destruct e as [k su lp|k fo|r|b|lp]; simpl in E.
  - injection E as <-. simpl in N. destruct (W N) as [W1 W2]. simpl. split.
    + destruct (lp && H k); auto.
    + intros v n h [Q|I]; [injection Q as <- _ _; exact W1|exact (W2 v n h I)].
  - destruct (decls a k) as [[|d]|].
    + discriminate.
    + destruct (strict && _); [discriminate|]. injection E as <-. discriminate.
    + injection E as <-. auto.
  - assert (f' = f) as ->; [|auto].
    destruct (checks a r); [destruct (fc f) as [[]|], (fv f)|destruct (fv f)]; congruence.
  - destruct (kinds a b), (fc f) as [[]|] eqn:Ec, (fv f); try discriminate; injection E as <-;
      simpl in N; discriminate.
  - destruct (sv f) as [|[[v0 n0] h] r] eqn:Es; [discriminate|].
    assert (Ef : f' = Fs (fc f) (if n0 <? fn f then Flow.Inv else v0) (fn f) r).
    { destruct (n0 <? fn f), h as [[|]|]; simpl in E; congruence. }
    subst f'. simpl in *. destruct (W N) as [W1 W2]. rewrite Es in W2. split.
    + destruct (n0 <? fn f); [auto|]. apply (W2 v0 n0 h). left. reflexivity.
    + intros v n h' I. apply (W2 v n h'). right. exact I.
Qed.
Lemma wf_flow : forall strict a H es f f', flow strict a H es f = Some f' -> wf f -> wf f'.
Proof.
  intros strict a H. induction es as [|e es IH]; intros f f' E W; simpl in E; [injection E as <-; exact W|].
  destruct (fstep strict a H e f) as [f1|] eqn:E1; [|discriminate]. simpl in E.
  eauto using wf_step.
Qed.

Section Accept.
  Context {V : Type} (strict : bool) (A : nat -> option ann) (H : nat -> nat -> bool).
  Context (All : forall x, exists a, A x = Some a).
  Local Notation Fl := (Fl strict A H).
  Local Notation agree := (agree A).
  Local Notation sim_e := (sim_e (V := V) (fun _ => true) strict A H).
  Local Notation sim_s := (sim_s (V := V) (fun _ => true) (fun _ => []) strict A H).

  Definition wfs (F : nat -> fs) : Prop := forall x a, A x = Some a -> wf (F x).
  Lemma wfs_flow : forall E F F', Fl E F F' -> wfs F -> wfs F'.
  Proof. intros E F F' L W x a Ha. exact (wf_flow _ _ _ _ _ _ (L x a Ha) (W x a Ha)). Qed.
  Lemma wfs_open : forall k lp F, wfs F -> wfs (fun x => opened (H x) k lp (F x)).
  Proof.
    intros k lp F W x a Ha N. simpl in *. destruct (W x a Ha N) as [W1 W2]. split.
    - destruct (lp && H x k); auto.
    - intros v n h [Q|I]; [injection Q as <- _ _; exact W1|exact (W2 v n h I)].
  Qed.

  Lemma target_total : forall b x g0 g F0 F F', agree g0 F0 -> agree g F ->
    (forall a, A x = Some a -> fc (F x) = fc (F0 x)) ->
    Fl (fun y => one y x (Bd b)) F F' ->
    exists t r, target A b x g0 = Some t /\ assigned A b x t g = Some r.
  Proof.
    intros b x g0 g F0 F F' G0 G Ec L. destruct (All x) as [a Ha].
    destruct (Fl_single _ _ _ _ _ _ _ L) as [_ Lx]. specialize (Lx a Ha). simpl in Lx.
    unfold target, assigned. rewrite Ha. simpl.
    destruct (G0 x a Ha) as [C0 _], (G x a Ha) as [C1 C2]. rewrite C0, <- (Ec a Ha).
    destruct (kinds a b) eqn:Ek.
    - eexists _, _. split; reflexivity.
    - destruct (fc (F x)) as [nd|]; [|destruct (fv (F x)); discriminate]. simpl.
      eexists _, _. split; reflexivity.
    - destruct (fc (F x)) as [[n|k]|]; try (destruct (fv (F x)); discriminate). simpl.
      eexists _, _. split; [reflexivity|]. rewrite (C2 k eq_refl). reflexivity.
  Qed.
  Lemma quiet : forall x (e : expr V) F F', not_in x (bound_e e) = true ->
    Fl (fun y => evs_e y e) F F' -> forall a, A x = Some a -> fc (F' x) = fc (F x).
  Proof.
    intros x e F F' N L a Ha.
    destruct (seg_evs_e strict a (H x) V x e _ _ (L x a Ha)) as (_ & _ & B).
    apply (B (intros_not_in V a x e N)).
  Qed.

  Ltac split_and :=
    repeat match goal with E : _ && _ = true |- _ => apply andb_prop in E; destruct E end.

  Lemma agree_e : forall e g te g' F F', elab_e (V := V) A e g = Some (te, g') ->
    own_e e = true -> Fl (fun x => evs_e x e) F F' -> agree g F -> agree g' F'.
  Proof. intros e g te g' F F' E O L G. apply (sim_e _ _ _ _ _ _ O E L G). Qed.
  Lemma agree_s : forall e g te g' F F', elab (V := V) A e g = Some (te, g') ->
    own e = true -> Fl (fun x => evs x e) F F' -> agree g F -> agree g' F'.
  Proof. intros e g te g' F F' E O L G. apply (sim_s _ _ _ _ _ _ O E L G). Qed.

  Lemma elab_e_total : forall e g F F', own_e e = true ->
    Fl (fun x => evs_e x e) F F' -> agree g F -> wfs F ->
    exists r, elab_e (V := V) A e g = Some r.
  Proof.
    assert (S : forall e x a, A x = Some a -> seg strict a (H x) (evs_e x (V := V) e))
      by (intros; apply seg_evs_e).
    induction e; intros g F F' O L G W; cbn [evs_e] in L; simpl in O; cbn [elab_e]; split_and.
    - eexists. reflexivity.
    - destruct (All x) as [a Ha]. rewrite Ha. cbn [andthen].
      destruct (Fl_single _ _ _ _ _ _ _ L) as [_ Lx]. specialize (Lx a Ha). simpl in Lx.
      destruct (G x a Ha) as [-> _]. destruct (fc (F x)) as [n|] eqn:Ec; [eexists; reflexivity|].
      destruct (W x a Ha Ec) as [[Q|Q] _]; rewrite Q in Lx; destruct (checks a r); discriminate.
    - destruct (Fl_app _ _ _ _ _ _ _ L) as (F1 & L1 & L2).
      destruct (IHe1 g F F1) as [[ta g1] E1]; auto. rewrite E1. cbn [andthen].
      pose proof (agree_e _ _ _ _ _ _ E1 ltac:(assumption) L1 G) as G1.
      destruct (IHe2 g1 F1 F') as [[tb g2] E2]; eauto using wfs_flow. rewrite E2. eexists. reflexivity.
    - destruct (Fl_app _ _ _ _ _ _ _ L) as (F1 & L1 & L2).
      destruct (IHe g F F1) as [[ta g1] E1]; auto. rewrite E1.
      pose proof (agree_e _ _ _ _ _ _ E1 ltac:(assumption) L1 G) as G1.
      destruct (target_total b x g g1 F F1 F') as (t & [[n fl] g2] & Et & Ea); auto.
      { eapply quiet; eauto. }
      rewrite Et. cbn [andthen]. rewrite Ea. eexists. reflexivity.
    - destruct (Fl_app _ _ _ _ _ _ _ L) as (F1 & L1 & L2).
      destruct (IHe1 g F F1) as [[ta g1] E1]; auto. rewrite E1. cbn [andthen].
      pose proof (agree_e _ _ _ _ _ _ E1 ltac:(assumption) L1 G) as G1.
      destruct (blocked_agree (V := V) _ _ _ _ _ g1 _ _ (S e2) L2) as (F2 & L3 & B1 & _).
      destruct (IHe2 g1 _ F2 ltac:(assumption) L3 (B1 _ G1)) as [[tb g2] E2]; eauto using wfs_flow, wfs_open.
      rewrite E2. eexists. reflexivity.
    - destruct (Fl_app _ _ _ _ _ _ _ L) as (F1 & L1 & L2).
      destruct (IHe1 g F F1) as [[ta g1] E1]; auto. rewrite E1. cbn [andthen].
      pose proof (agree_e _ _ _ _ _ _ E1 ltac:(assumption) L1 G) as G1.
      destruct (blocked_agree (V := V) _ _ _ _ _ g1 _ _ (S e2) L2) as (F2 & L3 & B1 & _).
      destruct (IHe2 g1 _ F2 ltac:(assumption) L3 (B1 _ G1)) as [[tb g2] E2]; eauto using wfs_flow, wfs_open.
      rewrite E2. eexists. reflexivity.
    - destruct (Fl_app _ _ _ _ _ _ _ L) as (F1 & L1 & L2).
      destruct (Fl_app _ _ _ _ _ _ _ L2) as (F2 & L3 & L4).
      destruct (IHe1 g F F1) as [[ta g1] E1]; auto. rewrite E1. cbn [andthen].
      pose proof (agree_e _ _ _ _ _ _ E1 ltac:(assumption) L1 G) as G1.
      destruct (blocked_agree (V := V) _ _ _ _ _ g1 _ _ (S e2) L3) as (F3 & L5 & B1 & _).
      destruct (IHe2 g1 _ F3 ltac:(assumption) L5 (B1 _ G1)) as [[tb g2] E2]; eauto using wfs_flow, wfs_open.
      rewrite E2. cbn [andthen].
      pose proof (agree_e _ _ _ _ _ _ E2 ltac:(assumption) L5 (B1 _ G1)) as G2.
      destruct (blocked_agree (V := V) _ _ _ _ _ g2 _ _ (S e2) L3) as (F3' & L5' & B1' & B2' & _).
      assert (G2' : agree g2 F2).
      { apply B2'. exact (agree_e _ _ _ _ _ _ E2 ltac:(assumption) L5' (B1' _ G1)). }
      destruct (blocked_agree (V := V) _ _ _ _ _ g2 _ _ (S e3) L4) as (F4 & L6 & C1 & _).
      destruct (IHe3 g2 _ F4 ltac:(assumption) L6 (C1 _ G2')) as [[tc g3] E3]; eauto using wfs_flow, wfs_open.
      rewrite E3. eexists. reflexivity.
  Qed.

  Lemma suite_total : forall k (a : stmt V) g0 F F',
    (forall g G G', own a = true -> Fl (fun x => evs x a) G G' -> agree g G -> wfs G ->
       exists r, elab A a g = Some r) ->
    own a = true -> agree g0 F -> wfs F -> Fl (fun x => branch k (evs x a)) F F' ->
    exists ta g1, elab A a (enter A k g0) = Some (ta, g1) /\ agree g1 F'.
  Proof.
    intros k a g0 F F' IH O G W L.
    assert (S : forall x b, A x = Some b -> seg strict b (H x) (suite_of k a x)).
    { intros x b Hb. apply (seg_app strict b (H x) [_]); [apply seg_one; reflexivity|apply seg_evs]. }
    pose proof (Fl_block _ _ _ k true false false (suite_of k a) F F' S L) as (F2 & L2 & B).
    destruct (Fl_cons _ _ _ _ _ _ _ L2) as (F1 & L1 & L3).
    assert (G' : agree g0 (fun x => opened (H x) k false (F x))).
    { intros x b Hb. exact (G x b Hb). }
    destruct (suite_step (V := V) _ _ _ _ _ _ _ _ G' L1) as [G1 _].
    destruct (IH _ _ _ O L3 G1) as [[ta g1] E]; [eauto using wfs_flow, wfs_open|].
    exists ta, g1. split; [exact E|].
    destruct (sim_s _ _ _ _ _ _ O E L3 G1) as [G2 _].
    intros x b Hb. destruct (B x b Hb) as (-> & _). exact (G2 x b Hb).
  Qed.

  Lemma elab_total : forall p g F F', own p = true ->
    Fl (fun x => evs x p) F F' -> agree g F -> wfs F ->
    exists r, elab (V := V) A p g = Some r.
  Proof.
    assert (Se : forall e x a, A x = Some a -> seg strict a (H x) (evs_e x (V := V) e))
      by (intros; apply seg_evs_e).
    assert (Ss : forall e x a, A x = Some a -> seg strict a (H x) (evs x (V := V) e))
      by (intros; apply seg_evs).
    induction p; intros g F F' O L G W; cbn [evs] in L; simpl in O; cbn [elab]; split_and;
      try (eexists; reflexivity).
    - destruct (elab_e_total e g F F') as [[te g1] E]; auto. rewrite E. eexists. reflexivity.
    - destruct (Fl_app _ _ _ _ _ _ _ L) as (F1 & L1 & L2).
      destruct (elab_e_total e g F F1) as [[ta g1] E1]; auto. rewrite E1.
      pose proof (agree_e _ _ _ _ _ _ E1 ltac:(assumption) L1 G) as G1.
      destruct (target_total b x g g1 F F1 F') as (t & [[n fl] g2] & Et & Ea); auto.
      { eapply quiet; eauto. }
      rewrite Et. cbn [andthen]. rewrite Ea. eexists. reflexivity.
    - destruct (Fl_app _ _ _ _ _ _ _ L) as (F1 & L1 & L2).
      destruct (IHp1 g F F1) as [[ta g1] E1]; auto. rewrite E1. cbn [andthen].
      pose proof (agree_s _ _ _ _ _ _ E1 ltac:(assumption) L1 G) as G1.
      destruct (IHp2 g1 F1 F') as [[tb g2] E2]; eauto using wfs_flow. rewrite E2. eexists. reflexivity.
    - destruct (Fl_app _ _ _ _ _ _ _ L) as (F1 & L1 & L2).
      destruct (Fl_app _ _ _ _ _ _ _ L2) as (F2 & L3 & L4).
      destruct (elab_e_total c g F F1) as [[tc g1] E1]; auto. rewrite E1. cbn [andthen].
      pose proof (agree_e _ _ _ _ _ _ E1 ltac:(assumption) L1 G) as G1.
      destruct (suite_total k1 p1 g1 F1 F2) as (ta & g2 & E2 & G2); eauto using wfs_flow.
      rewrite E2. cbn [andthen].
      destruct (suite_total k2 p2 g2 F2 F') as (tb & g3 & E3 & G3); eauto using wfs_flow.
      rewrite E3. eexists. reflexivity.
    - assert (S : forall x a, A x = Some a ->
                  seg strict a (H x) (evs_e x c ++ Body k false :: evs x p)).
      { intros x a Ha. apply seg_app; [apply Se; exact Ha|].
        apply (seg_app strict a (H x) [_]); [apply seg_one; reflexivity|apply Ss; exact Ha]. }
      destruct (Fl_block _ _ _ _ _ _ _ (fun x => evs_e x c ++ Body k false :: evs x p) _ _ S L)
        as (F4 & L4 & _).
      destruct (Fl_app _ _ _ _ _ _ _ L4) as (F2 & L1 & L2).
      destruct (Fl_cons _ _ _ _ _ _ _ L2) as (F3 & L3 & L5).
      assert (G0 : agree g (fun x => opened (H x) k true (F x)))
        by (intros x a Ha; exact (G x a Ha)).
      destruct (elab_e_total c g _ F2 ltac:(assumption) L1 G0) as [[tc g1] E1];
        [auto using wfs_open|]. rewrite E1. cbn [andthen].
      pose proof (agree_e _ _ _ _ _ _ E1 ltac:(assumption) L1 G0) as G1.
      destruct (suite_step (V := V) _ _ _ _ _ _ _ _ G1 L3) as [G3 _].
      destruct (IHp _ _ _ ltac:(assumption) L5 G3) as [[ta g2] E2];
        [eauto using wfs_open, wfs_flow|]. rewrite E2. eexists. reflexivity.
    - destruct (Fl_app _ _ _ _ _ _ _ L) as (F0 & L0 & LL).
      destruct (elab_e_total e g F F0) as [[te g1] E1]; auto. rewrite E1. cbn [andthen].
      pose proof (agree_e _ _ _ _ _ _ E1 ltac:(assumption) L0 G) as G0.
      assert (S : forall y a, A y = Some a ->
                  seg strict a (H y) (one y x (Bd b) ++ Body k true :: evs y p)).
      { intros y a Ha. apply seg_app; [apply seg_single; reflexivity|].
        apply (seg_app strict a (H y) [_]); [apply seg_one; reflexivity|apply Ss; exact Ha]. }
      destruct (Fl_block _ _ _ _ _ _ _ (fun y => one y x (Bd b) ++ Body k true :: evs y p) _ _ S LL)
        as (F4 & L4 & _).
      destruct (Fl_app _ _ _ _ _ _ _ L4) as (F2 & L1 & L2).
      destruct (Fl_cons _ _ _ _ _ _ _ L2) as (F3 & L3 & L5).
      assert (G1 : agree g1 (fun x => opened (H x) k true (F0 x)))
        by (intros y a Ha; exact (G0 y a Ha)).
      destruct (target_total b x g1 g1 _ _ F2 G1 G1 (fun _ _ => eq_refl) L1)
        as (t & [[n fl] g2] & Et & Ea).
      rewrite Et. cbn [andthen]. rewrite Ea. cbn [andthen].
      apply target_resolved in Et.
      destruct (assign_step (V := V) _ _ _ _ _ _ _ _ _ _ _ _ Et Ea G1 L1) as [G2 _].
      destruct (suite_step (V := V) _ _ _ _ _ _ _ _ G2 L3) as [G3 _].
      destruct (IHp _ _ _ ltac:(assumption) L5 G3) as [[ta g3] E2];
        [eauto using wfs_open, wfs_flow|]. rewrite E2. eexists. reflexivity.
    - destruct (elab_e_total e g F F') as [[te g1] E]; auto. rewrite E. eexists. reflexivity.
  Qed.
End Accept.

Section Compiles.
  Context {V : Type} (p : stmt V).
  Lemma accepted : covered p = true -> well_numbered p -> named [] p ->
    exists q, compile p = Some q.
  Proof.
    intros Cov Num Nam. unfold compile.
    set (A := fun x => resolve x p).
    set (g0 := Tenv (fun _ => None) (fun _ => None)).
    set (H := fun x k => match A x with Some a => Link.H a (all x p) k | None => false end).
    set (F' := fun x => match A x with
                        | Some a => match flow false a (H x) (all x p) fs0 with
                                    | Some f => f | None => fs0 end
                        | None => fs0 end).
    assert (L : Fl false A H (fun x => all x p) (fun _ => fs0) F').
    { intros x a Ha. destruct (flows p Cov Num false ltac:(discriminate) x a Ha) as [f Ef].
      assert (Hx : H x = Link.H a (all x p)) by (unfold H; rewrite Ha; reflexivity).
      rewrite <- Hx in Ef. unfold F'. rewrite Ha, Ef. reflexivity. }
    unfold all in L. destruct (Fl_cons _ _ _ _ _ _ _ L) as (F1 & L1 & L2).
    destruct (Fl_cons _ _ _ _ _ _ _ L2) as (F2 & L3 & L4).
    assert (G1 : agree A g0 F1).
    { intros x a Ha. specialize (L1 x a Ha). simpl in L1. injection L1 as <-. simpl.
      split; [reflexivity|discriminate]. }
    assert (W : wfs A F2).
    { eapply wfs_flow; [exact L3|]. eapply wfs_flow; [exact L1|].
      intros x a Ha _. simpl. split; [auto|contradiction]. }
    destruct (suite_step (V := V) _ _ _ _ _ _ _ _ G1 L3) as [G2 _].
    destruct (elab_total (V := V) false A H (fun x => resolve_total x p Nam) p (enter A 0 g0) F2 F'
      (covered_own _ Cov) L4 G2 W) as [[q g'] E].
    rewrite E. eexists. reflexivity.
  Qed.
End Compiles.
