(** The events of a name in a covered function.  Proof machinery only. *)
From Coq Require Import List Bool Arith Lia.
From Verif.Scope Require Import Spec Model Events Flow Link Path Items.
Import ListNotations.

(** ** Numbers *)

Inductive sub {A} : list A -> list A -> Prop :=
| sub_nil : forall l, sub [] l
| sub_keep : forall x u l, sub u l -> sub (x :: u) (x :: l)
| sub_drop : forall x u l, sub u l -> sub u (x :: l).

Lemma sub_in : forall A (u l : list A) x, sub u l -> In x u -> In x l.
Proof.
  induction 1 as [|y u l S IH|y u l S IH]; intros I; simpl in *; [destruct I| |auto].
  destruct I; auto.
Qed.
Lemma sub_nodup : forall A (u l : list A), sub u l -> NoDup l -> NoDup u.
Proof.
  induction 1 as [|y u l S IH|y u l S IH]; intros N; [constructor| |].
  - inversion N; subst. constructor; auto. intros I. eauto using sub_in.
  - inversion N; auto.
Qed.
Lemma sub_app : forall A (u l u' l' : list A), sub u l -> sub u' l' -> sub (u ++ u') (l ++ l').
Proof.
  induction 1 as [l|y u l S IH|y u l S IH]; intros S'; simpl.
  - induction l; simpl; [exact S'|constructor; auto].
  - constructor. auto.
  - constructor. auto.
Qed.
Lemma sub_refl : forall A (l : list A), sub l l.
Proof. induction l; constructor; auto. Qed.

Section Numbers.
  Context {V : Type} (x : nat).

  Lemma opens_one : forall y e, dep 0 [e] = Some 0 -> opens (one x y e) = [].
  Proof. intros y e D. unfold one. destruct (Nat.eqb y x); [|reflexivity]. destruct e; auto; discriminate. Qed.
  Lemma opens_blocked : forall k es, opens (blocked k es) = k :: opens es.
  Proof. intros. unfold blocked. simpl. rewrite opens_app. simpl. rewrite app_nil_r. reflexivity. Qed.
  Lemma opens_branch : forall k es, opens (branch k es) = k :: opens es.
  Proof. intros. unfold branch. simpl. rewrite opens_app. simpl. rewrite app_nil_r. reflexivity. Qed.
  Lemma opens_evs_e : forall e : expr V, opens (evs_e x e) = parts_e e.
  Proof.
    induction e; cbn [evs_e parts_e]; rewrite ?opens_app, ?opens_blocked, ?opens_one by reflexivity;
      rewrite ?IHe, ?IHe1, ?IHe2, ?IHe3, ?app_nil_r; auto.
  Qed.
  Lemma opens_evs : forall p : stmt V, opens (evs x p) = parts p.
  Proof.
    induction p; cbn [evs parts];
      rewrite ?opens_app, ?opens_branch, ?opens_one, ?opens_evs_e by reflexivity;
      rewrite ?IHp, ?IHp1, ?IHp2, ?app_nil_r; auto.
    - simpl. rewrite !opens_app. simpl. rewrite opens_evs_e, IHp, app_nil_r. reflexivity.
    - simpl. rewrite !opens_app, opens_one by reflexivity. simpl. rewrite IHp, app_nil_r. reflexivity.
  Qed.

  Lemma bds_one_bd : forall y b, sub (bds (one x y (Bd b))) [b].
  Proof. intros. unfold one. destruct (Nat.eqb y x); simpl; [apply sub_refl|constructor]. Qed.
  Lemma bds_one_rd : forall y b, bds (one x y (Rd b)) = [].
  Proof. intros. unfold one. destruct (Nat.eqb y x); reflexivity. Qed.
  Lemma rds_one_bd : forall y b, rds (one x y (Bd b)) = [].
  Proof. intros. unfold one. destruct (Nat.eqb y x); reflexivity. Qed.
  Lemma rds_one_rd : forall y b, sub (rds (one x y (Rd b))) [b].
  Proof. intros. unfold one. destruct (Nat.eqb y x); simpl; [apply sub_refl|constructor]. Qed.
  Lemma bds_blocked : forall k es, bds (blocked k es) = bds es.
  Proof. intros. unfold blocked. simpl. rewrite bds_app. simpl. apply app_nil_r. Qed.
  Lemma rds_blocked : forall k es, rds (blocked k es) = rds es.
  Proof. intros. unfold blocked. simpl. rewrite rds_app. simpl. apply app_nil_r. Qed.
  Lemma bds_branch : forall k es, bds (branch k es) = bds es.
  Proof. intros. unfold branch. simpl. rewrite bds_app. simpl. apply app_nil_r. Qed.
  Lemma rds_branch : forall k es, rds (branch k es) = rds es.
  Proof. intros. unfold branch. simpl. rewrite rds_app. simpl. apply app_nil_r. Qed.

  Lemma bds_evs_e : forall e : expr V, sub (bds (evs_e x e)) (nodes_e e).
  Proof.
    induction e; cbn [evs_e nodes_e]; rewrite ?bds_app, ?bds_blocked, ?bds_one_rd;
      repeat apply sub_app; auto; try apply bds_one_bd; apply sub_nil.
  Qed.
  Lemma rds_evs_e : forall e : expr V, sub (rds (evs_e x e)) (nodes_e e).
  Proof.
    induction e; cbn [evs_e nodes_e]; rewrite ?rds_app, ?rds_blocked, ?rds_one_bd;
      repeat apply sub_app; auto; try apply rds_one_rd; apply sub_nil.
  Qed.
  Lemma bds_evs : forall p : stmt V, sub (bds (evs x p)) (nodes p).
  Proof.
    induction p; cbn [evs nodes]; rewrite ?bds_app, ?bds_branch;
      repeat apply sub_app; auto using bds_evs_e; try apply bds_one_bd; try apply sub_nil.
    - simpl. rewrite !bds_app. simpl. rewrite app_nil_r. apply sub_app; auto using bds_evs_e.
    - simpl. rewrite !bds_app. simpl. rewrite app_nil_r.
      apply (sub_app _ _ [b]); auto using bds_one_bd.
  Qed.
  Lemma rds_evs : forall p : stmt V, sub (rds (evs x p)) (nodes p).
  Proof.
    induction p; cbn [evs nodes]; rewrite ?rds_app, ?rds_branch, ?rds_one_bd;
      repeat apply sub_app; auto using rds_evs_e; try apply sub_nil.
    - simpl. rewrite !rds_app. simpl. rewrite app_nil_r. apply sub_app; auto using rds_evs_e.
    - simpl. rewrite !rds_app. simpl. rewrite app_nil_r, rds_one_bd. constructor. auto.
  Qed.
  Lemma bodies_blocked : forall k es, bodies (blocked k es) = bodies es.
  Proof. intros. unfold blocked. simpl. rewrite bodies_app. simpl. apply app_nil_r. Qed.
  Lemma bodies_branch : forall k es, bodies (branch k es) = k :: bodies es.
  Proof. intros. unfold branch. simpl. rewrite bodies_app. simpl. rewrite app_nil_r. reflexivity. Qed.
  Lemma bodies_one : forall y b, bodies (one x y (Bd b)) = [] /\ bodies (one x y (Rd b)) = [].
  Proof. intros. unfold one. destruct (Nat.eqb y x); auto. Qed.
  Lemma bodies_evs_e : forall e : expr V, bodies (evs_e x e) = [].
  Proof.
    induction e; cbn [evs_e]; rewrite ?bodies_app, ?bodies_blocked, ?IHe, ?IHe1, ?IHe2, ?IHe3; auto;
      apply bodies_one.
  Qed.
  Lemma bodies_evs : forall p : stmt V, sub (bodies (evs x p)) (parts p).
  Proof.
    induction p; cbn [evs parts];
      rewrite ?bodies_app, ?bodies_branch, ?bodies_evs_e, ?(proj1 (bodies_one _ _)); simpl;
      try apply sub_nil.
    - apply sub_app; auto.
    - apply (sub_app _ [] (parts_e c) (k1 :: bodies (evs x p1) ++ k2 :: bodies (evs x p2))); [constructor|].
      constructor. apply sub_app; auto. constructor. auto.
    - rewrite !bodies_app. simpl. rewrite bodies_evs_e, app_nil_r. simpl. constructor.
      apply (sub_app _ []); [constructor|auto].
    - rewrite !bodies_app. simpl. rewrite (proj1 (bodies_one _ _)), app_nil_r. simpl.
      apply (sub_app _ []); [constructor|]. constructor. auto.
  Qed.
End Numbers.

(** ** Blocks *)

Definition cm (es : list ev) : Prop := forall u lp w, es = u ++ Close lp :: w ->
  exists p1 k su m, u = p1 ++ Open k su lp :: m /\ bal m.
Definition bm (es : list ev) : Prop := forall u k fo w, es = u ++ Body k fo :: w ->
  exists p1 lp m, u = p1 ++ Open k true lp :: m /\ bal m /\ (fo = true -> lp = true /\ rds m = []).

Lemma cm_nil : cm []. Proof. intros [] ? ? E; discriminate. Qed.
Lemma bm_nil : bm []. Proof. intros [] ? ? ? E; discriminate. Qed.
Lemma cm_app : forall u w, cm u -> cm w -> cm (u ++ w).
Proof.
  intros u w Cu Cw v lp y E. destruct (app_split _ _ _ _ _ _ E) as [(n & -> & _)|(n & -> & ->)].
  - apply (Cu v lp n eq_refl).
  - destruct (Cw n lp y eq_refl) as (p1 & k & su & m & -> & B).
    exists (u ++ p1), k, su, m. rewrite <- app_assoc. auto.
Qed.
Lemma bm_app : forall u w, bm u -> bm w -> bm (u ++ w).
Proof.
  intros u w Cu Cw v k fo y E. destruct (app_split _ _ _ _ _ _ E) as [(n & -> & _)|(n & -> & ->)].
  - apply (Cu v k fo n eq_refl).
  - destruct (Cw n k fo y eq_refl) as (p1 & lp & m & -> & R).
    exists (u ++ p1), lp, m. rewrite <- app_assoc. auto.
Qed.
Lemma cm_one : forall e, dep 0 [e] = Some 0 -> cm [e].
Proof. intros e D [|z u] lp w E; simpl in E; injection E as -> E; [discriminate|destruct u; discriminate]. Qed.
Lemma cm_block : forall k su lp es, bal es -> cm es -> cm (Open k su lp :: es ++ [Close lp]).
Proof.
  intros k su lp es B C [|z u] lp' w E; simpl in E; [discriminate|injection E as <- E].
  destruct (snoc_split _ _ _ _ _ _ E) as [(-> & -> & Q)|(w' & -> & ->)].
  - injection Q as ->. exists [], k, su, es. auto.
  - destruct (C u lp' w' eq_refl) as (p1 & k' & su' & m & -> & B').
    exists (Open k su lp :: p1), k', su', m. auto.
Qed.
Lemma bm_none : forall es, bodies es = [] -> bm es.
Proof.
  intros es N u k fo w ->. rewrite bodies_app in N. simpl in N. destruct (bodies u); discriminate.
Qed.
Lemma bm_block : forall k lp c fo es lp', bal c -> bodies c = [] ->
  (fo = true -> lp = true /\ rds c = []) -> bm es ->
  bm (Open k true lp :: (c ++ Body k fo :: es) ++ [Close lp']).
Proof.
  intros k lp c fo es lp' B Nc R C [|z u] k' fo' w E; simpl in E; [discriminate|injection E as <- E].
  destruct (snoc_split _ _ _ _ _ _ E) as [(_ & _ & Q)|(w' & -> & E')]; [discriminate|].
  destruct (split_cons _ _ _ _ _ _ _ E') as [(x & -> & _)|[(-> & Q & _)|(x & -> & ->)]].
  - rewrite bodies_app in Nc. simpl in Nc. destruct (bodies u); discriminate.
  - injection Q as -> ->. exists [], lp, u. auto.
  - destruct (C x k' fo' w' eq_refl) as (p1 & lp1 & m & -> & R').
    exists (Open k true lp :: c ++ Body k fo :: p1), lp1, m. simpl. rewrite <- app_assoc. auto.
Qed.

Section Blocks.
  Context {V : Type} (x : nat).
  Lemma cm_single : forall y e, dep 0 [e] = Some 0 -> cm (one x y e).
  Proof. intros. unfold one. destruct (Nat.eqb y x); auto using cm_nil, cm_one. Qed.
  Lemma cm_evs_e : forall e : expr V, cm (evs_e x e).
  Proof.
    induction e; cbn [evs_e]; repeat apply cm_app; auto using cm_nil;
      try (apply cm_single; reflexivity); apply cm_block; auto using evs_e_bal.
  Qed.
  Lemma cm_branch : forall k (p : stmt V), cm (evs x p) -> cm (branch k (evs x p)).
  Proof.
    intros k p C. apply (cm_block k true false (Body k false :: evs x p)).
    - exact (evs_bal V x p).
    - apply (cm_app [_]); [apply cm_one; reflexivity|exact C].
  Qed.
  Lemma cm_evs : forall p : stmt V, cm (evs x p).
  Proof.
    induction p; cbn [evs]; repeat apply cm_app; auto using cm_nil, cm_evs_e, cm_branch;
      try (apply cm_single; reflexivity).
    - apply cm_block.
      + apply bal_app; [apply evs_e_bal|exact (evs_bal V x p)].
      + apply cm_app; [apply cm_evs_e|]. apply (cm_app [_]); [apply cm_one; reflexivity|exact IHp].
    - apply cm_block.
      + apply bal_app; [apply one_bal; reflexivity|exact (evs_bal V x p)].
      + apply cm_app; [apply cm_single; reflexivity|].
        apply (cm_app [_]); [apply cm_one; reflexivity|exact IHp].
  Qed.
  Lemma bm_branch : forall k (p : stmt V), bm (evs x p) -> bm (branch k (evs x p)).
  Proof.
    intros k p C. apply (bm_block k false [] false (evs x p) false); auto;
      solve [reflexivity|discriminate].
  Qed.
  Lemma bm_evs : forall p : stmt V, bm (evs x p).
  Proof.
    induction p; cbn [evs]; repeat apply bm_app; auto using bm_nil, bm_branch;
      try (apply bm_none; apply bodies_evs_e); try (apply bm_none; apply bodies_one).
    - apply bm_block; auto using evs_e_bal, bodies_evs_e. discriminate.
    - apply bm_block; auto.
      + apply one_bal. reflexivity.
      + apply bodies_one.
      + intros _. split; [reflexivity|apply rds_one_bd].
  Qed.
End Blocks.

(** ** Where a name is bound *)

Definition passed (pre : list ev) (st : list (nat * bool)) : Prop := forall j su,
  In (j, su) st -> su = true /\ exists fo, In (Body j fo) pre.
Definition ok pre := passed pre (ostack pre).
Definition ok1 pre := passed pre (tl (ostack pre)).
Definition bb (e : ev) : Prop := (exists b, e = Bd b) \/ (exists k fo, e = Body k fo).
Definition kf (pre es : list ev) : Prop := forall u e w, es = u ++ e :: w -> bb e -> ok1 (pre ++ u).

Lemma passed_app : forall pre u st, passed pre st -> passed (pre ++ u) st.
Proof.
  intros pre u st P j su I. destruct (P j su I) as (-> & fo & J). split; [reflexivity|].
  exists fo. apply in_or_app. auto.
Qed.
Lemma ok_ok1 : forall pre, ok pre -> ok1 pre.
Proof. intros pre O j su I. apply O. destruct (ostack pre); [destruct I|right; exact I]. Qed.
Lemma ok_bal : forall pre u, bal u -> ok pre -> ok (pre ++ u).
Proof. intros pre u B O. unfold ok. rewrite ostack_bal by exact B. apply passed_app. exact O. Qed.
Lemma ok1_bal : forall pre u, bal u -> ok1 pre -> ok1 (pre ++ u).
Proof. intros pre u B O. unfold ok1. rewrite ostack_bal by exact B. apply passed_app. exact O. Qed.
Lemma ok_open : forall pre k su lp, ok pre -> ok1 (pre ++ [Open k su lp]).
Proof. intros pre k su lp O. unfold ok1. rewrite ostack_app. simpl. apply passed_app. exact O. Qed.
Lemma ok_body : forall pre k fo st, ostack pre = (k, true) :: st -> ok1 pre -> ok (pre ++ [Body k fo]).
Proof.
  intros pre k fo st E O. unfold ok. rewrite ostack_app. simpl. rewrite E.
  intros j su [Q|I].
  - injection Q as <- <-. split; [reflexivity|]. exists fo. apply in_or_app. right. left. reflexivity.
  - apply (passed_app pre [Body k fo] st); [|exact I]. unfold ok1 in O. rewrite E in O. exact O.
Qed.
Lemma kf_nil : forall pre, kf pre []. Proof. intros pre [] ? ? E; discriminate. Qed.
Lemma kf_app : forall pre u w, kf pre u -> kf (pre ++ u) w -> kf pre (u ++ w).
Proof.
  intros pre u w Ku Kw v e y E B. destruct (app_split _ _ _ _ _ _ E) as [(n & -> & _)|(n & -> & ->)].
  - apply (Ku v e n eq_refl B).
  - rewrite app_assoc. apply (Kw n e y eq_refl B).
Qed.
Lemma kf_one : forall pre e, ok1 pre -> kf pre [e].
Proof.
  intros pre e O [|z u] e' w E B; simpl in E; injection E as -> E; [|destruct u; discriminate].
  rewrite app_nil_r. exact O.
Qed.
Lemma kf_open : forall pre k su lp es, kf (pre ++ [Open k su lp]) es ->
  kf pre (Open k su lp :: es).
Proof.
  intros pre k su lp es K [|z u] e w E B; simpl in E; injection E as <- E.
  - destruct B as [[b Q]|(k' & fo & Q)]; discriminate.
  - subst es. specialize (K u e w eq_refl B). rewrite <- app_assoc in K. exact K.
Qed.
Lemma kf_close : forall pre es lp, kf pre es -> kf pre (es ++ [Close lp]).
Proof.
  intros pre es lp K u e w E B.
  destruct (snoc_split _ _ _ _ _ _ E) as [(_ & _ & ->)|(w' & _ & ->)].
  - destruct B as [[b Q]|(k' & fo & Q)]; discriminate.
  - exact (K u e w' eq_refl B).
Qed.

Section Bound.
  Context {V : Type} (x : nat).
  Lemma kf_single : forall pre y e, ok1 pre -> kf pre (one x y e).
  Proof. intros. unfold one. destruct (Nat.eqb y x); auto using kf_nil, kf_one. Qed.
  Lemma no_walrus_bds : forall e : expr V, no_walrus e = true -> bds (evs_e x e) = [].
  Proof.
    induction e; cbn [no_walrus evs_e]; intros N;
      repeat match goal with H : _ && _ = true |- _ => apply andb_prop in H; destruct H end;
      rewrite ?bds_app, ?bds_blocked, ?IHe, ?IHe1, ?IHe2, ?IHe3 by auto;
      try apply bds_one_rd; auto; discriminate.
  Qed.
  Lemma kf_none : forall pre es, bds es = [] -> bodies es = [] -> kf pre es.
  Proof.
    intros pre es Nb Nk u e w -> B. exfalso. rewrite bds_app in Nb. rewrite bodies_app in Nk.
    destruct B as [[b ->]|(k & fo & ->)]; simpl in *.
    - destruct (bds u); discriminate.
    - destruct (bodies u); discriminate.
  Qed.
  Lemma kf_no_walrus : forall pre k (e : expr V), no_walrus e = true -> kf pre (blocked k (evs_e x e)).
  Proof.
    intros pre k e N. apply kf_none.
    - rewrite bds_blocked. apply no_walrus_bds. exact N.
    - rewrite bodies_blocked. apply bodies_evs_e.
  Qed.
  Lemma kf_flat : forall (e : expr V) pre, flat_walrus e = true -> ok1 pre -> kf pre (evs_e x e).
  Proof.
    induction e; cbn [flat_walrus evs_e]; intros pre N O;
      repeat match goal with H : _ && _ = true |- _ => apply andb_prop in H; destruct H end;
      repeat apply kf_app; auto using kf_nil, kf_single, kf_no_walrus, ok1_bal, evs_e_bal.
  Qed.
  Lemma kf_blocked : forall pre k (e : expr V), flat_walrus e = true -> ok pre ->
    kf pre (blocked k (evs_e x e)).
  Proof.
    intros pre k e F O. unfold blocked. apply kf_open. apply kf_close. apply kf_flat; auto using ok_open.
  Qed.
  Lemma kf_cond : forall (e : expr V) pre, cond_walrus e = true -> ok pre -> kf pre (evs_e x e).
  Proof.
    induction e; cbn [cond_walrus evs_e]; intros pre N O;
      repeat match goal with H : _ && _ = true |- _ => apply andb_prop in H; destruct H end;
      repeat apply kf_app; auto 6 using kf_nil, kf_single, kf_blocked, ok_bal, evs_e_bal, ok_ok1, blocked_bal.
  Qed.
  Lemma kf_branch : forall pre k (p : stmt V), ok pre -> (forall pre, ok pre -> kf pre (evs x p)) ->
    kf pre (branch k (evs x p)).
  Proof.
    intros pre k p O K. unfold branch. apply kf_open. apply (kf_close _ (Body k false :: evs x p)).
    apply (kf_app _ [_]); [apply kf_one; apply ok_open; exact O|].
    apply K. apply (ok_body _ _ _ (ostack pre)); [|apply ok_open; exact O].
    rewrite ostack_app. reflexivity.
  Qed.
  Lemma kf_evs : forall (p : stmt V) pre, covered p = true -> ok pre -> kf pre (evs x p).
  Proof.
    induction p; cbn [covered evs]; intros pre N O;
      repeat match goal with H : _ && _ = true |- _ => apply andb_prop in H; destruct H end.
    - apply kf_nil.
    - apply kf_cond; auto.
    - apply kf_app; [apply kf_cond; auto|]. apply kf_single.
      apply ok_ok1. apply ok_bal; [apply evs_e_bal|exact O].
    - apply kf_app; auto. apply IHp2; auto. apply ok_bal; [apply evs_bal|exact O].
    - apply kf_app; [apply kf_cond; auto|]. apply kf_app.
      + apply kf_branch; auto. apply ok_bal; [apply evs_e_bal|exact O].
      + apply kf_branch; auto. apply ok_bal; [apply branch_bal; apply evs_bal|].
        apply ok_bal; [apply evs_e_bal|exact O].
    - apply kf_open. apply kf_close. apply kf_app.
      + apply kf_flat; auto using ok_open.
      + assert (O1 : ok1 ((pre ++ [Open k true true]) ++ evs_e x c)).
        { apply ok1_bal; [apply evs_e_bal|]. apply ok_open. exact O. }
        apply (kf_app _ [_]); [apply kf_one; exact O1|]. apply IHp; auto.
        apply (ok_body _ _ _ (ostack pre)); [|exact O1].
        rewrite ostack_bal by apply evs_e_bal. rewrite ostack_app. reflexivity.
    - apply kf_app; [apply kf_cond; auto|]. apply kf_open. apply kf_close.
      assert (O0 : ok (pre ++ evs_e x e)) by (apply ok_bal; [apply evs_e_bal|exact O]).
      apply kf_app.
      + apply kf_single. apply ok_open. exact O0.
      + assert (O1 : ok1 (((pre ++ evs_e x e) ++ [Open k true true]) ++ one x x0 (Bd b))).
        { apply ok1_bal; [apply one_bal; reflexivity|]. apply ok_open. exact O0. }
        apply (kf_app _ [_]); [apply kf_one; exact O1|]. apply IHp; auto.
        apply (ok_body _ _ _ (ostack (pre ++ evs_e x e))); [|exact O1].
        rewrite ostack_bal by (apply one_bal; reflexivity). rewrite ostack_app. reflexivity.
    - apply kf_nil.
    - apply kf_nil.
    - apply kf_cond; auto.
  Qed.

  (** ** Loops *)

  Lemma bound_e_bds : forall e : expr V, In x (bound_e e) <-> bds (evs_e x e) <> [].
  Proof.
    assert (A : forall (P Q : Prop) (u w : list nat), (P <-> u <> []) -> (Q <-> w <> []) ->
                (P \/ Q <-> u ++ w <> [])).
    { intros P Q u w Hu Hw. rewrite Hu, Hw. destruct u, w; simpl; split; intros H; try tauto;
        try (left; discriminate); try (right; discriminate); discriminate. }
    assert (B : forall y b, In x [y] <-> bds (one x y (Bd b)) <> []).
    { intros y b. unfold one. destruct (Nat.eqb_spec y x) as [->|]; simpl.
      - split; [discriminate|auto].
      - split; [intros [Q|[]]; congruence|congruence]. }
    induction e; cbn [bound_e evs_e]; rewrite ?bds_app, ?bds_blocked, ?in_app_iff.
    - simpl. tauto.
    - rewrite bds_one_rd. simpl. tauto.
    - apply A; auto.
    - apply A; auto.
    - apply A; auto.
    - apply A; auto.
    - repeat apply A; auto.
  Qed.
  Lemma bound_bds : forall p : stmt V, In x (bound p) <-> bds (evs x p) <> [].
  Proof.
    assert (A : forall (P Q : Prop) (u w : list nat), (P <-> u <> []) -> (Q <-> w <> []) ->
                (P \/ Q <-> u ++ w <> [])).
    { intros P Q u w Hu Hw. rewrite Hu, Hw. destruct u, w; simpl; split; intros H; try tauto;
        try (left; discriminate); try (right; discriminate); discriminate. }
    assert (B : forall y b, In x [y] <-> bds (one x y (Bd b)) <> []).
    { intros y b. unfold one. destruct (Nat.eqb_spec y x) as [->|]; simpl.
      - split; [discriminate|auto].
      - split; [intros [Q|[]]; congruence|congruence]. }
    pose proof bound_e_bds as E.
    induction p; cbn [bound evs]; rewrite ?bds_app, ?bds_branch, ?in_app_iff; auto.
    - simpl. tauto.
    - simpl. rewrite !bds_app. simpl. rewrite app_nil_r. apply A; auto.
    - simpl. rewrite !bds_app. simpl. rewrite app_nil_r. apply A; auto.
      rewrite <- (A (In x [x0]) (In x (bound p))); auto. simpl. tauto.
    - simpl. tauto.
    - simpl. tauto.
  Qed.

  Definition la (pre es : list ev) : Prop := forall u k su m b w,
    es = u ++ Open k su true :: m ++ Bd b :: w -> stays m -> bds (pre ++ u) <> [].

  Lemma la_app : forall pre u w, bal u -> la pre u -> la (pre ++ u) w -> la pre (u ++ w).
  Proof.
    intros pre u w B Lu Lw v k su m b y E S.
    destruct (app_split _ _ _ _ _ _ E) as [(n & Eu & Ey)|(n & -> & ->)].
    - symmetry in Ey. destruct (app_split _ _ _ _ _ _ Ey) as [(n2 & -> & _)|(n2 & -> & _)].
      + apply (Lu v k su m b n2 Eu S).
      + exfalso. apply stays_app_l in S. destruct S as [d S]. unfold bal in B. rewrite Eu in B.
        rewrite dep_app in B. destruct (dep 0 v) as [dv|]; [|discriminate]. simpl in B.
        rewrite (dep_lower n (Datatypes.S dv) d S) in B. injection B as B. lia.
    - rewrite app_assoc. apply (Lw n k su m b y eq_refl S).
  Qed.
  Lemma la_bound : forall pre es, (bds es <> [] -> bds pre <> []) -> la pre es.
  Proof.
    intros pre es H u k su m b w -> _. rewrite bds_app. intros Z. apply app_eq_nil in Z.
    destruct Z as [Z _]. revert Z. apply H. rewrite bds_app. simpl. rewrite bds_app. simpl.
    intros Z. apply app_eq_nil in Z. destruct Z as [_ Z]. apply app_eq_nil in Z.
    destruct Z as [_ Z]. discriminate.
  Qed.
  Lemma noloop_e : forall (e : expr V) k su, ~ In (Open k su true) (evs_e x e).
  Proof.
    assert (O : forall y e k su, dep 0 [e] = Some 0 -> ~ In (Open k su true) (one x y e)).
    { intros y e k su D I. unfold one in I. destruct (Nat.eqb y x); [|destruct I].
      destruct I as [->|[]]. discriminate. }
    assert (Bk : forall k es k' su, ~ In (Open k' su true) es -> ~ In (Open k' su true) (blocked k es)).
    { intros k es k' su N I. unfold blocked in I. destruct I as [I|I]; [discriminate|].
      apply in_app_or in I. destruct I as [I|[I|[]]]; [auto|discriminate]. }
    induction e; cbn [evs_e]; intros kk su I; rewrite ?in_app_iff in I.
    - destruct I.
    - revert I. apply O. reflexivity.
    - firstorder.
    - destruct I as [I|I]; [exact (IHe _ _ I)|revert I; apply O; reflexivity].
    - destruct I as [I|I]; [exact (IHe1 _ _ I)|exact (Bk _ _ _ _ (IHe2 kk su) I)].
    - destruct I as [I|I]; [exact (IHe1 _ _ I)|exact (Bk _ _ _ _ (IHe2 kk su) I)].
    - destruct I as [I|[I|I]]; [exact (IHe1 _ _ I)|exact (Bk _ _ _ _ (IHe2 kk su) I)
        |exact (Bk _ _ _ _ (IHe3 kk su) I)].
  Qed.
  Lemma la_e : forall pre (e : expr V), la pre (evs_e x e).
  Proof.
    intros pre e u k su m b w E _. exfalso. apply (noloop_e e k su). rewrite E.
    apply in_or_app. right. left. reflexivity.
  Qed.
  Lemma la_block : forall pre k su es lp, la (pre ++ [Open k su false]) es ->
    la pre (Open k su false :: es ++ [Close lp]).
  Proof.
    intros pre k su es lp L [|z u] k' su' m b w E S; simpl in E; [discriminate|injection E as <- E].
    rewrite app_comm_cons, app_assoc in E.
    destruct (snoc_split _ _ _ _ _ _ E) as [(_ & _ & Q)|(w' & _ & E')]; [discriminate|].
    rewrite <- app_assoc in E'. specialize (L u k' su' m b w' E' S). rewrite <- app_assoc in L.
    exact L.
  Qed.
  Lemma la_branch : forall pre k (p : stmt V), la ((pre ++ [Open k true false]) ++ [Body k false]) (evs x p) ->
    la pre (branch k (evs x p)).
  Proof.
    intros pre k p L. apply (la_block pre k true (Body k false :: evs x p)).
    apply (la_app _ [_]); [reflexivity| |exact L].
    intros [|z u] ? ? ? ? ? E; [discriminate|]. destruct u; discriminate.
  Qed.
  Lemma la_evs : forall (p : stmt V) before pre, loops_after before p ->
    (In x before -> bds pre <> []) -> la pre (evs x p).
  Proof.
    assert (G : forall pre u, bds pre <> [] -> bds (pre ++ u) <> []).
    { intros pre u N Z. rewrite bds_app in Z. apply app_eq_nil in Z. tauto. }
    assert (G2 : forall pre u, bds u <> [] -> bds (pre ++ u) <> []).
    { intros pre u N Z. rewrite bds_app in Z. apply app_eq_nil in Z. tauto. }
    assert (Gn : forall pre, la pre []).
    { intros pre [|] ? ? ? ? ? E; discriminate. }
    assert (Go : forall pre y b, la pre (one x y (Bd b))).
    { intros pre y b u k su m b' w E _. unfold one in E. destruct (Nat.eqb y x).
      - destruct u as [|z u]; simpl in E; [discriminate|]. injection E as _ E. destruct u; discriminate.
      - destruct u; discriminate. }
    induction p; cbn [loops_after evs]; intros before pre L Hb; auto using la_e.
    - apply la_app; auto using evs_e_bal, la_e.
    - destruct L as [L1 L2]. apply la_app; [apply evs_bal|eauto|].
      eapply IHp2; [exact L2|]. intros I. apply in_app_or in I. destruct I as [I|I].
      + apply G2. apply bound_bds. exact I.
      + apply G. auto.
    - destruct L as [L1 L2]. apply la_app; [apply evs_e_bal|apply la_e|].
      apply la_app; [apply branch_bal; apply evs_bal| |].
      + apply la_branch. eapply IHp1; [exact L1|]. intros I. apply G. apply G.
        apply in_app_or in I. destruct I as [I|I]; [apply G2; apply bound_e_bds; exact I|apply G; auto].
      + apply la_branch. eapply IHp2; [exact L2|]. intros I. apply G. apply G.
        apply in_app_or in I. destruct I as [I|I].
        * apply G2. rewrite bds_branch. apply bound_bds. exact I.
        * apply G. apply in_app_or in I.
          destruct I as [I|I]; [apply G2; apply bound_e_bds; exact I|apply G; auto].
    - apply la_bound. intros N. apply Hb. apply L.
      assert (I : In x (bound (SWhile c k p))) by (apply bound_bds; exact N). exact I.
    - apply la_app; [apply evs_e_bal|apply la_e|]. apply la_bound. intros N.
      assert (I : In x (x0 :: bound p)).
      { simpl in N. rewrite !bds_app in N. simpl in N. rewrite app_nil_r in N.
        destruct (Nat.eqb_spec x0 x) as [->|Nx]; [left; reflexivity|]. right. apply bound_bds.
        unfold one in N. destruct (Nat.eqb_spec x0 x); [congruence|]. exact N. }
      apply L in I. apply in_app_or in I. destruct I as [I|I].
      + apply G2. apply bound_e_bds. exact I.
      + apply G. auto.
  Qed.
End Bound.
