(** A resolved function whose names all pass the analysis of Flow.v runs as
    Python's does, up to NameErrors Python does not raise when the analysis is
    not [strict].  Proof machinery only. *)
From Coq Require Import List Bool Arith Lia.
From Verif.Scope Require Import Spec Model Events Flow.
Import ListNotations.

Lemma intros_not_in : forall V a x (e : expr V),
  not_in x (bound_e e) = true -> intros a (evs_e x e) = 0.
Proof.
  assert (N : forall x u w, not_in x (u ++ w) = true ->
            not_in x u = true /\ not_in x w = true).
  { intros x u w E. unfold not_in in *. rewrite existsb_app, negb_orb in E.
    apply andb_prop in E. exact E. }
  induction e; cbn [evs_e bound_e]; intros E; rewrite ?intros_app.
  - reflexivity.
  - unfold one. destruct (x0 =? x); reflexivity.
  - apply N in E. destruct E. rewrite IHe1, IHe2; auto.
  - apply N in E. destruct E as [E1 E2]. rewrite IHe by exact E1.
    unfold not_in in E2. simpl in E2. rewrite orb_false_r, Nat.eqb_sym in E2.
    unfold one. destruct (x0 =? x); [discriminate|reflexivity].
  - apply N in E. destruct E. unfold blocked. simpl. rewrite intros_app, IHe1, IHe2; auto.
  - apply N in E. destruct E. unfold blocked. simpl. rewrite intros_app, IHe1, IHe2; auto.
  - apply N in E. destruct E as [E1 E2]. apply N in E2. destruct E2.
    unfold blocked. simpl. rewrite !intros_app, IHe1, IHe2, IHe3; auto.
Qed.

Section Sim.
  Context {V : Type} (truth : V -> bool) (elems : V -> list V).
  Context (strict : bool) (A : nat -> option ann) (H : nat -> nat -> bool).
  Local Notation env := (nat -> option V).
  Local Notation store := (@store V).

  Definition rel (f : fs) (ex : option V) (mx : node -> option V) (fx : nat -> bool) : Prop :=
    match fv f with
    | Inv => True
    | Unb => ex = None
    | May => forall k, fc f = Some (NSuite k) ->
        (fx k = true -> exists v, ex = Some v /\ mx (NSuite k) = Some v) /\
        (strict = true -> fx k = false -> ex = None)
    | Def => exists n v, fc f = Some n /\ ex = Some v /\ mx n = Some v /\
                         (forall k, n = NSuite k -> fx k = true)
    end.

  Lemma rel_ext : forall f ex mx mx' fx fx',
    (forall n, mx' n = mx n) -> (forall k, fx' k = fx k) ->
    rel f ex mx fx -> rel f ex mx' fx'.
  Proof.
    intros f ex mx mx' fx fx' Em Ef R. unfold rel in *. destruct (fv f); auto.
    - intros k E. rewrite Em, Ef. auto.
    - destruct R as (n & v & R1 & R2 & R3 & R4). exists n, v. rewrite Em.
      repeat split; auto. intros k E. rewrite Ef. auto.
  Qed.

  Definition weaker (f' f : fs) : Prop := fv f' = Inv \/ (fc f' = fc f /\ le (fv f') (fv f)).
  Lemma weaker_refl : forall f, weaker f f.
  Proof. right. auto using le_refl. Qed.
  Lemma weaker_trans : forall f g h, weaker f g -> weaker g h -> weaker f h.
  Proof.
    intros f g h [?|[E L]] K; [left; auto|].
    destruct K as [K|[E' L']].
    - left. rewrite K in L. destruct L as [L|[L|[_ L]]]; congruence.
    - right. split; [congruence|eauto using le_trans].
  Qed.
  Lemma rel_weaker : forall f' f ex mx fx, weaker f' f -> rel f ex mx fx -> rel f' ex mx fx.
  Proof.
    intros f' f ex mx fx W R. unfold rel in *.
    destruct W as [->|[E L]]; [exact I|]. rewrite E.
    destruct L as [->|[->|[-> D]]]; [exact R|exact I|].
    rewrite D in R. destruct R as (n & v & Hn & Hv & Hm & Hf).
    intros k Ek. rewrite Ek in Hn. injection Hn as <-. specialize (Hf k eq_refl).
    split; intros; [eauto|congruence].
  Qed.

  Definition relall (F : nat -> fs) (m : env) (s : store) : Prop :=
    forall x a, A x = Some a -> rel (F x) (m x) (mem s x) (flags s x).
  Definition Fl (E : nat -> list ev) (F F' : nat -> fs) : Prop :=
    forall x a, A x = Some a -> flow strict a (H x) (E x) (F x) = Some (F' x).
  Definition agree (g : tenv) (F : nat -> fs) : Prop :=
    forall x a, A x = Some a -> cur g x = fc (F x) /\
      (forall k, fc (F x) = Some (NSuite k) -> flag g x = Some k).

  Lemma Fl_app : forall u w F F', Fl (fun x => u x ++ w x) F F' ->
    exists F1, Fl u F F1 /\ Fl w F1 F'.
  Proof.
    intros u w F F' E.
    exists (fun x => match A x with
      | Some a => match flow strict a (H x) (u x) (F x) with Some f => f | None => F x end
      | None => F x end).
    split; intros x a Ha; specialize (E x a Ha); cbv beta in E; rewrite flow_app in E; rewrite Ha;
      destruct (flow strict a (H x) (u x) (F x)); try discriminate; [reflexivity|exact E].
  Qed.
  Lemma Fl_block : forall k su lp lp' E F F',
    (forall x a, A x = Some a -> seg strict a (H x) (E x)) ->
    Fl (fun x => Open k su lp :: E x ++ [Close lp']) F F' ->
    exists F2, Fl E (fun x => opened (H x) k lp (F x)) F2 /\
      forall x a, A x = Some a ->
        fc (F' x) = fc (F2 x) /\
        weaker (F' x) (F2 x) /\ weaker (F' x) (F x) /\ weaker (opened (H x) k lp (F x)) (F x) /\
        weaker (F' x) (opened (H x) k lp (F x)) /\
        (intros a (E x) <> 0 -> fv (F' x) = Inv) /\
        (lp = true -> weaker (opened (H x) k lp (F x)) (F2 x)).
  Proof.
    intros k su lp lp' E F F' S L.
    exists (fun x => match A x with
      | Some a => match flow strict a (H x) (E x) (opened (H x) k lp (F x)) with
                  | Some f => f | None => F x end
      | None => F x end).
    split; intros x a Ha; specialize (L x a Ha); rewrite Ha;
      destruct (flow_block _ _ _ _ _ _ _ _ _ _ (S x a Ha) L)
        as (f2 & L2 & B1 & B2 & B3 & B4 & B5 & B6); rewrite L2; [reflexivity|].
    split; [exact B1|].
    destruct (Nat.eqb_spec (intros a (E x)) 0) as [Z|Z].
    - destruct (B5 Z) as [C1 C2].
      assert (Ev : fv (opened (H x) k lp (F x)) = fv (F x)).
      { simpl. destruct lp; [|reflexivity]. rewrite (B6 eq_refl). reflexivity. }
      rewrite Ev in C2. unfold weaker. rewrite Ev. rewrite B1, B2. simpl.
      repeat split; try (right; split; [congruence|auto using le_refl]); congruence.
    - unfold weaker. rewrite B2.
      repeat split; auto.
      + simpl. destruct (lp && H x k); auto using le_refl.
      + intros ->. left. simpl. rewrite (B6 eq_refl). reflexivity.
  Qed.
  Lemma Fl_single : forall y e F F', Fl (fun x => one x y e) F F' ->
    (forall x a, A x = Some a -> x <> y -> F' x = F x) /\
    (forall a, A y = Some a -> fstep strict a (H y) e (F y) = Some (F' y)).
  Proof.
    intros y e F F' L. split.
    - intros x a Ha N. specialize (L x a Ha). unfold one in L.
      destruct (Nat.eqb_spec y x); [congruence|]. simpl in L. congruence.
    - intros a Ha. specialize (L y a Ha). unfold one in L. rewrite Nat.eqb_refl in L.
      simpl in L. rewrite andthen_some in L. exact L.
  Qed.
  Lemma Fl_cons : forall e E F F', Fl (fun x => e :: E x) F F' ->
    exists F1, Fl (fun _ => [e]) F F1 /\ Fl E F1 F'.
  Proof. intros e E F F' L. exact (Fl_app (fun _ => [e]) E F F' L). Qed.
  Lemma seg_weaker : forall E F F', (forall x a, A x = Some a -> seg strict a (H x) (E x)) ->
    Fl E F F' -> forall x a, A x = Some a -> intros a (E x) = 0 -> weaker (F x) (F' x).
  Proof.
    intros E F F' S L x a Ha Z. destruct (S x a Ha _ _ (L x a Ha)) as (_ & _ & B).
    destruct (B Z). right. split; congruence.
  Qed.

  Lemma relall_weaker : forall F' F m s, (forall x a, A x = Some a -> weaker (F' x) (F x)) ->
    relall F m s -> relall F' m s.
  Proof. intros F' F m s W R x a Ha. eapply rel_weaker; eauto. Qed.

  (** *** Assignments *)

  Lemma same_refl : forall n, same n n = true.
  Proof. destruct n; simpl; apply Nat.eqb_refl. Qed.

  Definition resolved (b x : nat) (t : option node) (g : tenv) : Prop :=
    match t with
    | Some n => cur g x = Some n /\ exists a, A x = Some a /\ kinds a b <> KNew
    | None => exists a, A x = Some a /\ kinds a b = KNew
    end.

  Lemma target_resolved : forall b x g t, target A b x g = Some t -> resolved b x t g.
  Proof.
    intros b x g t E. unfold target in E. destruct (A x) as [a|] eqn:Ha; [|discriminate].
    simpl in E. unfold resolved.
    destruct (kinds a b) eqn:Ek.
    - injection E as <-. exists a. rewrite Ha. auto.
    - destruct (cur g x) eqn:Ec; [|discriminate]. simpl in E. injection E as <-.
      split; [auto|]. exists a. split; [auto|congruence].
    - destruct (cur g x) eqn:Ec; [|discriminate]. simpl in E. injection E as <-.
      split; [auto|]. exists a. split; [auto|congruence].
  Qed.

  Lemma assign_step : forall b x t g n fl g1 F F',
    resolved b x t g -> assigned A b x t g = Some (n, fl, g1) ->
    agree g F -> Fl (fun y => one y x (Bd b)) F F' ->
    agree g1 F' /\
    (forall v m s, relall F m s -> relall F' (put x v m) (write x n fl v s)).
  Proof.
    intros b x t g n fl g1 F F' R E G L.
    destruct (Fl_single _ _ _ _ L) as [Lo Lx].
    assert (Ha : exists a, A x = Some a).
    { unfold assigned in E. destruct (A x); [eauto|discriminate]. }
    destruct Ha as [a Ha]. specialize (Lx a Ha). simpl in Lx.
    unfold assigned in E. rewrite Ha in E. simpl in E.
    destruct (G x a Ha) as [Gc Gf].
    assert (X : fc (F' x) = Some n /\ fv (F' x) = Def /\ cur g1 x = Some n /\
                flag g1 x = flag g x /\
                (forall k, n = NSuite k -> fl = Some k /\ flag g x = Some k) /\
                (forall y, y <> x -> cur g1 y = cur g y /\ flag g1 y = flag g y)).
    { unfold resolved in R. destruct t as [n0|].
      - destruct R as (Rc & a' & Ha' & Rk). rewrite Ha in Ha'. injection Ha' as <-.
        rewrite Gc in Rc.
        destruct (kinds a b) eqn:Ek; [congruence| |].
        + injection E as <- <- <-.
          destruct (fv (F x)), (fc (F x)) as [[j|j]|] eqn:Ec; try discriminate;
            injection Lx as <-; simpl; injection Rc as <-;
            repeat split; auto; try congruence; discriminate.
        + destruct (flag g x) as [kf|] eqn:Ef; [|discriminate]. simpl in E.
          injection E as <- <- <-.
          destruct (fv (F x)), (fc (F x)) as [[j|j]|] eqn:Ec; try discriminate;
            injection Lx as <-; simpl; injection Rc as <-;
            repeat split; auto; try congruence; try (intros; specialize (Gf _ eq_refl); congruence).
      - destruct R as (a' & Ha' & Rk). rewrite Ha in Ha'. injection Ha' as <-.
        rewrite Rk in Lx. injection Lx as <-. injection E as <- <- <-. simpl.
        unfold upd. rewrite Nat.eqb_refl.
        repeat split; auto; try discriminate.
        destruct (Nat.eqb_spec y x); congruence. }
    destruct X as (X1 & X2 & X3 & X4 & X5 & X6). split.
    - intros y a' Hy. destruct (Nat.eq_dec y x) as [->|N].
      + split; [congruence|]. intros k Ek. rewrite X4. rewrite X1 in Ek.
        injection Ek as ->. apply (X5 k eq_refl).
      + destruct (X6 y N) as [-> ->]. rewrite (Lo y a' Hy N). exact (G y a' Hy).
    - intros v m s Rl y a' Hy. destruct (Nat.eq_dec y x) as [->|N].
      + unfold rel. rewrite X2. exists n, v. split; [exact X1|].
        unfold put, write. simpl. rewrite Nat.eqb_refl, same_refl. simpl.
        split; [reflexivity|]. split; [reflexivity|]. intros k ->.
        destruct (X5 k eq_refl) as [-> _]. rewrite !Nat.eqb_refl. reflexivity.
      + rewrite (Lo y a' Hy N). specialize (Rl y a' Hy). unfold put, write. simpl.
        destruct (Nat.eqb_spec y x) as [|Ny]; [congruence|].
        eapply rel_ext; [| |exact Rl]; [reflexivity|]. intros j.
        destruct fl as [k|]; [|reflexivity]. destruct (Nat.eqb_spec y x); [congruence|reflexivity].
  Qed.

  (** *** Suites *)

  Lemma suite_step : forall k fo g F F', agree g F -> Fl (fun _ => [Body k fo]) F F' ->
    agree (enter A k g) F' /\
    (forall m s, relall F m s -> relall F' m (reset k (resets A k) s)).
  Proof.
    intros k fo g F F' G L.
    assert (X : forall x a, A x = Some a ->
      (decls a k = None /\ F' x = F x) \/
      (exists n, decls a k = Some (S n) /\ fc (F' x) = Some (NSuite k) /\ fv (F' x) = May /\
         (strict = true -> fv (F x) = Unb))).
    { intros x a Ha. specialize (L x a Ha). simpl in L. rewrite andthen_some in L.
      destruct (decls a k) as [[|n]|]; try discriminate.
      - right. exists n. destruct (strict && _) eqn:B; [discriminate|].
        injection L as <-. simpl. repeat split; auto. intros ->. simpl in B.
        destruct (fv (F x)); congruence.
      - left. split; congruence. }
    split.
    - intros x a Ha. unfold enter, declared. simpl. rewrite Ha.
      destruct (X x a Ha) as [[-> ->]|(n & -> & -> & _)]; [exact (G x a Ha)|].
      split; [reflexivity|]. congruence.
    - intros m s Rl x a Ha. specialize (Rl x a Ha). unfold reset, resets, declared. simpl.
      rewrite Ha. destruct (X x a Ha) as [[-> ->]|(n & -> & Ec & Ev & Es)].
      + eapply rel_ext; [| |exact Rl]; [reflexivity|]. intros j.
        rewrite andb_false_r. reflexivity.
      + unfold rel in *. rewrite Ev. intros j Ej. rewrite Ec in Ej. injection Ej as <-.
        rewrite Nat.eqb_refl. simpl. split; [discriminate|]. intros St _.
        rewrite (Es St) in Rl. exact Rl.
  Qed.

  (** *** Expressions *)

  Definition res_rel (P : env -> store -> Prop) (r : res (V * env)) (r' : res (V * store)) : Prop :=
    match r, r' with
    | Val (v, m), Val (v', s) => v = v' /\ P m s
    | Undef x, Undef y => x = y
    | _, _ => False
    end \/ (strict = false /\ exists y, r' = Undef y).

  Lemma res_bind : forall P Q r r' f f', res_rel P r r' ->
    (forall v m s, P m s -> res_rel Q (f (v, m)) (f' (v, s))) ->
    res_rel Q (bind r f) (bind r' f').
  Proof.
    intros P Q r r' f f' [R|[Hs [y ->]]] K; [|right; split; [exact Hs|exists y; reflexivity]].
    destruct r as [[v m]|x|], r' as [[v' s]|y|]; try contradiction; simpl.
    - destruct R as [<- R]. apply K. exact R.
    - left. exact R.
  Qed.

  Lemma res_mono : forall (P Q : env -> store -> Prop) r r',
    (forall m s, P m s -> Q m s) -> res_rel P r r' -> res_rel Q r r'.
  Proof.
    intros P Q r r' K [R|R]; [left|right; exact R].
    destruct r as [[v m]|x|], r' as [[v' s]|y|]; auto. destruct R; auto.
  Qed.

  Lemma target_e : forall b x (e : expr V) g te g1 t F F1,
    not_in x (bound_e e) = true -> resolved b x t g ->
    elab_e A e g = Some (te, g1) -> agree g F -> agree g1 F1 ->
    Fl (fun y => evs_e y e) F F1 -> resolved b x t g1.
  Proof.
    intros b x e g te g1 t F F1 N R E G G1 L. unfold resolved in *.
    destruct t as [n|]; [|exact R]. destruct R as (Rc & a & Ha & Rk).
    split; [|eauto]. rewrite (proj1 (G1 x a Ha)). rewrite (proj1 (G x a Ha)) in Rc.
    destruct (seg_evs_e strict a (H x) V x e _ _ (L x a Ha)) as (_ & _ & B).
    destruct (B (intros_not_in V a x e N)). congruence.
  Qed.

  Lemma blocked_agree : forall k E g1 F F',
    (forall x a, A x = Some a -> seg strict a (H x) (E x)) ->
    Fl (fun x => blocked k (E x)) F F' ->
    exists F2, Fl E (fun x => opened (H x) k false (F x)) F2 /\
      (forall g, agree g F -> agree g (fun x => opened (H x) k false (F x))) /\
      (agree g1 F2 -> agree g1 F') /\
      (forall m s, relall F m s -> relall (fun x => opened (H x) k false (F x)) m s) /\
      (forall m s, relall F2 m s -> relall F' m s) /\
      (forall m s, relall F m s -> relall F' m s).
  Proof.
    intros k E g1 F F' S L.
    destruct (Fl_block _ _ _ _ _ _ _ S L) as (F2 & L2 & B). exists F2. split; [exact L2|].
    split; [|split; [|split; [|split]]].
    - intros g G x a Ha. exact (G x a Ha).
    - intros G x a Ha. destruct (B x a Ha) as (-> & _). exact (G x a Ha).
    - intros m s. apply relall_weaker. intros x a Ha. apply (B x a Ha).
    - intros m s. apply relall_weaker. intros x a Ha. apply (B x a Ha).
    - intros m s. apply relall_weaker. intros x a Ha. apply (B x a Ha).
  Qed.

  (** Every walrus is outside its own right-hand side. *)
  Fixpoint own_e (e : expr V) : bool :=
    match e with
    | EConst _ | EVar _ _ => true
    | EOp _ a b | EAnd a _ b | EOr a _ b => own_e a && own_e b
    | EWalrus _ x a => own_e a && not_in x (bound_e a)
    | EIf c _ a _ b => own_e c && own_e a && own_e b
    end.
  Lemma no_own : forall e, no_walrus e = true -> own_e e = true.
  Proof.
    induction e; simpl; intros E; auto; try discriminate;
      repeat match goal with E : _ && _ = true |- _ => apply andb_prop in E; destruct E end;
      rewrite ?IHe1, ?IHe2, ?IHe3 by assumption; auto.
  Qed.
  Lemma flat_own : forall e, flat_walrus e = true -> own_e e = true.
  Proof.
    induction e; simpl; intros E; auto; try discriminate;
      repeat match goal with E : _ && _ = true |- _ => apply andb_prop in E; destruct E end;
      rewrite ?IHe, ?IHe1, ?IHe2, ?IHe3, ?no_own by assumption; auto.
  Qed.
  Lemma cond_own : forall e, cond_walrus e = true -> own_e e = true.
  Proof.
    induction e; simpl; intros E; auto; try discriminate;
      repeat match goal with E : _ && _ = true |- _ => apply andb_prop in E; destruct E end;
      rewrite ?IHe, ?IHe1, ?IHe2, ?IHe3, ?flat_own by assumption; auto.
  Qed.

  Lemma sim_e : forall e g te g' F F', own_e e = true ->
    elab_e A e g = Some (te, g') -> Fl (fun x => evs_e x e) F F' -> agree g F ->
    agree g' F' /\
    (forall m s, relall F m s -> res_rel (relall F') (peval truth e m) (teval truth te s)).
  Proof.
    assert (S : forall e x a, A x = Some a -> seg strict a (H x) (evs_e x (V := V) e))
      by (intros; apply seg_evs_e).
    induction e; intros g te g' F F' O E L G; cbn [evs_e] in L; simpl in E, O;
      repeat match goal with E : _ && _ = true |- _ => apply andb_prop in E; destruct E end.
    - injection E as <- <-.
      assert (Ef : forall x a, A x = Some a -> F' x = F x).
      { intros x a Ha. specialize (L x a Ha). simpl in L. congruence. }
      split; [intros x a Ha; rewrite (Ef x a Ha); exact (G x a Ha)|].
      intros m s R. left. simpl. split; [reflexivity|]. intros x a Ha.
      rewrite (Ef x a Ha). exact (R x a Ha).
    - destruct (A x) as [a|] eqn:Ha; [|discriminate]. simpl in E.
      destruct (cur g x) as [n|] eqn:Ec; [|discriminate]. simpl in E. injection E as <- <-.
      destruct (Fl_single _ _ _ _ L) as [Lo Lx]. specialize (Lx a Ha). simpl in Lx.
      destruct (G x a Ha) as [Gc Gf].
      assert (Ef : forall y b, A y = Some b -> F' y = F y).
      { intros y b Hy. destruct (Nat.eq_dec y x) as [->|N]; [|eauto].
        destruct (checks a r); [destruct (fc (F x)) as [[]|], (fv (F x))|destruct (fv (F x))];
          congruence. }
      split; [intros y b Hy; rewrite (Ef y b Hy); exact (G y b Hy)|].
      intros m s R.
      assert (R' : relall F' m s) by (intros y b Hy; rewrite (Ef y b Hy); exact (R y b Hy)).
      specialize (R x a Ha). unfold rel in R. rewrite Gc in Ec. simpl.
      destruct (checks a r).
      + rewrite Ec in Lx. destruct n as [b|k]; [discriminate|]. rewrite (Gf k Ec).
        destruct (fv (F x)); try discriminate.
        * destruct (R k Ec) as [R1 R2]. destruct (flags s x k) eqn:Ek.
          -- destruct (R1 eq_refl) as (v & -> & ->). left. split; auto.
          -- destruct strict eqn:Es.
             ++ rewrite (R2 eq_refl eq_refl). left. simpl. reflexivity.
             ++ right. eauto.
        * destruct R as (n & v & R1 & -> & R3 & R4). rewrite Ec in R1. injection R1 as <-.
          rewrite (R4 k eq_refl), R3. left. split; auto.
      + destruct (fv (F x)); try discriminate.
        destruct R as (n' & v & R1 & -> & R3 & R4). rewrite Ec in R1. injection R1 as <-.
        rewrite R3. left. split; auto.
    - destruct (elab_e A e1 g) as [[ta g1]|] eqn:E1; [|discriminate]. simpl in E.
      destruct (elab_e A e2 g1) as [[tb g2]|] eqn:E2; [|discriminate]. simpl in E.
      injection E as <- <-. destruct (Fl_app _ _ _ _ L) as (F1 & L1 & L2).
      destruct (IHe1 _ _ _ _ _ ltac:(assumption) E1 L1 G) as [G1 R1].
      destruct (IHe2 _ _ _ _ _ ltac:(assumption) E2 L2 G1) as [G2 R2].
      split; [exact G2|]. intros m s R. simpl.
      eapply res_bind; [exact (R1 m s R)|]. intros v m1 s1 P1.
      eapply res_bind; [exact (R2 m1 s1 P1)|]. intros w m2 s2 P2. left. split; auto.
    - destruct (target A b x g) as [t|] eqn:Et; [|discriminate]. simpl in E.
      destruct (elab_e A e g) as [[ta g1]|] eqn:E1; [|discriminate]. simpl in E.
      destruct (assigned A b x t g1) as [[[n fl] g2]|] eqn:Ea; [|discriminate]. simpl in E.
      injection E as <- <-. destruct (Fl_app _ _ _ _ L) as (F1 & L1 & L2).
      destruct (IHe _ _ _ _ _ ltac:(assumption) E1 L1 G) as [G1 R1].
      apply target_resolved in Et.
      assert (Rt : resolved b x t g1) by (eapply (target_e b x e g); eauto).
      destruct (assign_step _ _ _ _ _ _ _ _ _ Rt Ea G1 L2) as [G2 W].
      split; [exact G2|]. intros m s R. simpl.
      eapply res_bind; [exact (R1 m s R)|]. intros v m1 s1 P1. left. split; auto.
    - destruct (elab_e A e1 g) as [[ta g1]|] eqn:E1; [|discriminate]. simpl in E.
      destruct (elab_e A e2 g1) as [[tb g2]|] eqn:E2; [|discriminate]. simpl in E.
      injection E as <- <-. destruct (Fl_app _ _ _ _ L) as (F1 & L1 & L2).
      destruct (IHe1 _ _ _ _ _ ltac:(assumption) E1 L1 G) as [G1 R1].
      destruct (blocked_agree _ _ g2 _ _ (S e2) L2) as (F2 & L3 & B1 & B2 & B3 & B4 & B5).
      destruct (IHe2 _ _ _ _ _ ltac:(assumption) E2 L3 (B1 _ G1)) as [G2 R2].
      split; [auto|]. intros m s R. simpl.
      eapply res_bind; [exact (R1 m s R)|]. intros v m1 s1 P1. destruct (truth v).
      + eapply res_mono; [|exact (R2 m1 s1 (B3 _ _ P1))]. exact B4.
      + left. split; auto.
    - destruct (elab_e A e1 g) as [[ta g1]|] eqn:E1; [|discriminate]. simpl in E.
      destruct (elab_e A e2 g1) as [[tb g2]|] eqn:E2; [|discriminate]. simpl in E.
      injection E as <- <-. destruct (Fl_app _ _ _ _ L) as (F1 & L1 & L2).
      destruct (IHe1 _ _ _ _ _ ltac:(assumption) E1 L1 G) as [G1 R1].
      destruct (blocked_agree _ _ g2 _ _ (S e2) L2) as (F2 & L3 & B1 & B2 & B3 & B4 & B5).
      destruct (IHe2 _ _ _ _ _ ltac:(assumption) E2 L3 (B1 _ G1)) as [G2 R2].
      split; [auto|]. intros m s R. simpl.
      eapply res_bind; [exact (R1 m s R)|]. intros v m1 s1 P1. destruct (truth v).
      + left. split; auto.
      + eapply res_mono; [|exact (R2 m1 s1 (B3 _ _ P1))]. exact B4.
    - destruct (elab_e A e1 g) as [[ta g1]|] eqn:E1; [|discriminate]. simpl in E.
      destruct (elab_e A e2 g1) as [[tb g2]|] eqn:E2; [|discriminate]. simpl in E.
      destruct (elab_e A e3 g2) as [[tc g3]|] eqn:E3; [|discriminate]. simpl in E.
      injection E as <- <-. destruct (Fl_app _ _ _ _ L) as (F1 & L1 & L2).
      destruct (Fl_app _ _ _ _ L2) as (F2 & L3 & L4).
      destruct (IHe1 _ _ _ _ _ ltac:(assumption) E1 L1 G) as [G1 R1].
      destruct (blocked_agree _ _ g2 _ _ (S e2) L3) as (F3 & L5 & B1 & B2 & B3 & B4 & B5).
      destruct (IHe2 _ _ _ _ _ ltac:(assumption) E2 L5 (B1 _ G1)) as [G2 R2].
      destruct (blocked_agree _ _ g3 _ _ (S e3) L4) as (F4 & L6 & C1 & C2 & C3 & C4 & C5).
      destruct (IHe3 _ _ _ _ _ ltac:(assumption) E3 L6 (C1 _ (B2 G2))) as [G3 R3].
      split; [auto|]. intros m s R. simpl.
      eapply res_bind; [exact (R1 m s R)|]. intros v m1 s1 P1. destruct (truth v).
      + eapply res_mono; [|exact (R2 m1 s1 (B3 _ _ P1))]. intros; apply C5; apply B4; assumption.
      + eapply res_mono; [|exact (R3 m1 s1 (C3 _ _ (B5 _ _ P1)))]. exact C4.
  Qed.

  (** *** Statements *)

  Definition outs (P K : env -> store -> Prop) (r : list V * @ending V env)
      (r' : list V * @ending V store) : Prop :=
    (fst r = fst r' /\
     match snd r, snd r' with
     | Fin m, Fin s => P m s
     | Brk m, Brk s => K m s
     | Cnt m, Cnt s => K m s
     | Ret v, Ret w => v = w
     | NameError x, NameError y => x = y
     | Out, Out => True
     | _, _ => False
     end) \/
    (strict = false /\ (exists y, snd r' = NameError y) /\ exists t, fst r = fst r' ++ t).

  Lemma outs_mono : forall (P P' K K' : env -> store -> Prop) r r',
    (forall m s, P m s -> P' m s) -> (forall m s, K m s -> K' m s) ->
    outs P K r r' -> outs P' K' r r'.
  Proof.
    intros P P' K K' r r' HP HK [[E R]|R]; [left|right; exact R]. split; [exact E|].
    destruct (snd r), (snd r'); auto.
  Qed.
  Lemma outs_after : forall P K o r r', outs P K r r' -> outs P K (after o r) (after o r').
  Proof.
    intros P K o r r' [[E R]|(Hs & N & t & E)]; unfold after; simpl.
    - left. split; [simpl; congruence|exact R].
    - right. split; [exact Hs|]. split; [exact N|]. exists t. simpl. rewrite E. apply app_assoc.
  Qed.
  Lemma outs_with_val : forall (P Q K : env -> store -> Prop) r r' f f', res_rel P r r' ->
    (forall v m s, P m s -> outs Q K (f (v, m)) (f' (v, s))) ->
    outs Q K (with_val r f) (with_val r' f').
  Proof.
    intros P Q K r r' f f' [R|[Hs [y ->]]] C.
    - destruct r as [[v m]|x|], r' as [[v' s]|y|]; try contradiction; simpl.
      + destruct R as [<- R]. apply C. exact R.
      + left. auto.
    - right. split; [exact Hs|]. split; [exists y; reflexivity|]. simpl. eauto.
  Qed.
  Lemma outs_seq : forall (P P' K K' : env -> store -> Prop) r r' f f', outs P K r r' ->
    (forall m s, P m s -> outs P' K' (f m) (f' s)) ->
    (forall m s, K m s -> K' m s) ->
    outs P' K' (match r with (o, Fin m) => after o (f m) | r => r end)
               (match r' with (o, Fin s) => after o (f' s) | r => r end).
  Proof.
    intros P P' K K' [o r] [o' r'] f f' [[E R]|(Hs & [y N] & t & E)] C M; simpl in *; subst.
    - destruct r, r'; try contradiction; try (left; simpl; auto; fail).
      apply outs_after. apply C. exact R.
    - right. split; [exact Hs|]. split; [exists y; reflexivity|].
      destruct r; simpl; eauto. rewrite <- app_assoc. eauto.
  Qed.
  Lemma outs_next : forall (P P' K K' : env -> store -> Prop) r r' f f', outs P K r r' ->
    (forall m s, P m s -> outs P' K' (f m) (f' s)) ->
    (forall m s, K m s -> outs P' K' (f m) (f' s)) ->
    (forall m s, K m s -> P' m s) ->
    outs P' K' (next r f) (next r' f').
  Proof.
    intros P P' K K' [o r] [o' r'] f f' [[E R]|(Hs & [y N] & t & E)] C C' M; simpl in *; subst.
    - destruct r, r'; try contradiction; try (left; simpl; auto; fail);
        apply outs_after; auto.
    - right. split; [exact Hs|]. split; [exists y; reflexivity|].
      destruct r; simpl; eauto; rewrite <- app_assoc; eauto.
  Qed.
  Lemma outs_each : forall (P K Q : env -> store -> Prop) body body',
    (forall v m s, P m s -> outs P Q (body v m) (body' v s)) ->
    (forall m s, Q m s -> P m s) ->
    forall vs m s, P m s -> outs P K (each body vs m) (each body' vs s).
  Proof.
    intros P K Q body body' B M. induction vs as [|v vs IH]; intros m s R; simpl.
    - left. split; [reflexivity|exact R].
    - eapply outs_next; [exact (B v m s R)| | |]; auto.
  Qed.

  Fixpoint own (s : stmt V) : bool :=
    match s with
    | SSkip | SBreak | SContinue => true
    | SPrint e | SReturn e => own_e e
    | SAssign _ x e => own_e e && not_in x (bound_e e)
    | SSeq a b => own a && own b
    | SIf c _ a _ b => own_e c && own a && own b
    | SWhile c _ a => own_e c && own a
    | SFor _ _ e _ a => own_e e && own a
    end.
  Lemma covered_own : forall s, covered s = true -> own s = true.
  Proof.
    induction s; simpl; intros E; auto using cond_own;
      repeat match goal with E : _ && _ = true |- _ => apply andb_prop in E; destruct E end;
      rewrite ?IHs, ?IHs1, ?IHs2 by assumption;
      rewrite ?cond_own, ?flat_own by assumption; auto.
  Qed.

  Definition keep (E : nat -> list ev) (F : nat -> fs) (m : env) (s : store) : Prop :=
    forall x a, A x = Some a -> intros a (E x) = 0 -> rel (F x) (m x) (mem s x) (flags s x).

  Lemma relall_keep : forall E F m s, relall F m s -> keep E F m s.
  Proof. intros E F m s R x a Ha _. exact (R x a Ha). Qed.

  Definition suite_of (k : nat) (a : stmt V) (x : nat) : list ev := Body k false :: evs x a.

  (** A block that is a suite, not a loop. *)
  Lemma branch_facts : forall k (a : stmt V) g0 F F',
    (forall g ta g1 G G', own a = true -> elab A a g = Some (ta, g1) ->
       Fl (fun x => evs x a) G G' -> agree g G ->
       agree g1 G' /\ forall n m s, relall G m s ->
         outs (relall G') (keep (fun x => evs x a) G) (pexec truth elems n a m)
              (texec truth elems n ta s)) ->
    own a = true -> agree g0 F -> Fl (fun x => branch k (evs x a)) F F' ->
    forall ta g1, elab A a (enter A k g0) = Some (ta, g1) ->
    agree g1 F' /\
    (forall n m s, relall F m s ->
       outs (relall F') (keep (fun x => branch k (evs x a)) F)
         (pexec truth elems n a m) (texec truth elems n ta (reset k (resets A k) s))) /\
    (forall m s, relall F m s -> relall F' m s) /\
    (forall x b, A x = Some b -> intros b (branch k (evs x a)) = 0 -> weaker (F x) (F' x)).
  Proof.
    intros k a g0 F F' IH O G L ta g1 E.
    assert (S : forall x b, A x = Some b -> seg strict b (H x) (suite_of k a x)).
    { intros x b Hb. apply (seg_app strict b (H x) [_]); [apply seg_one; reflexivity|apply seg_evs]. }
    pose proof (Fl_block k true false false (suite_of k a) F F' S L) as (F2 & L2 & B).
    destruct (Fl_cons _ _ _ _ L2) as (F1 & L1 & L3).
    assert (G' : agree g0 (fun x => opened (H x) k false (F x))).
    { intros x b Hb. exact (G x b Hb). }
    destruct (suite_step _ _ _ _ _ G' L1) as [G1 R1].
    destruct (IH _ _ _ _ _ O E L3 G1) as [G2 R2].
    split; [|split; [|split]].
    - intros x b Hb. destruct (B x b Hb) as (-> & _). exact (G2 x b Hb).
    - intros n m s R.
      eapply outs_mono; [| |apply R2; apply R1].
      + intros m' s'. apply relall_weaker. intros x b Hb. apply (B x b Hb).
      + intros m' s' K x b Hb Z. unfold branch in Z. simpl in Z. rewrite intros_app in Z.
        assert (Zb : intros b [Body k false] = 0) by (simpl; destruct (decls b k); simpl in *; lia).
        assert (Za : intros b (evs x a) = 0) by lia.
        eapply rel_weaker; [|exact (K x b Hb Za)].
        pose proof (seg_weaker (fun _ => [Body k false]) _ _ ltac:(intros; apply seg_one; reflexivity) L1 x b Hb Zb) as W.
        eapply weaker_trans; [|exact W]. right. simpl. split; [reflexivity|apply le_refl].
      + eapply relall_weaker; [|exact R]. intros x b Hb. apply (B x b Hb).
    - intros m s. apply relall_weaker. intros x b Hb. apply (B x b Hb).
    - exact (seg_weaker (fun x => branch k (evs x a)) _ _ ltac:(intros; apply seg_branch; apply seg_evs) L).
  Qed.

  Lemma sim_s : forall p g tp g' F F', own p = true ->
    elab A p g = Some (tp, g') -> Fl (fun x => evs x p) F F' -> agree g F ->
    agree g' F' /\
    (forall n m s, relall F m s ->
       outs (relall F') (keep (fun x => evs x p) F)
            (pexec truth elems n p m) (texec truth elems n tp s)).
  Proof.
    assert (Se : forall e x a, A x = Some a -> seg strict a (H x) (evs_e x (V := V) e))
      by (intros; apply seg_evs_e).
    assert (Ss : forall e x a, A x = Some a -> seg strict a (H x) (evs x (V := V) e))
      by (intros; apply seg_evs).
    assert (Idle : forall F F' : nat -> fs, Fl (fun _ => []) F F' ->
              forall x a, A x = Some a -> F' x = F x).
    { intros F F' L x a Ha. specialize (L x a Ha). simpl in L. congruence. }
    assert (Z : forall P K m s, outs P K (pexec truth elems 0 m s) ([], Out))
      by (intros; left; simpl; auto).
    induction p; intros g tp g' F F' O E L G; cbn [evs] in L; simpl in E, O;
      repeat match goal with E : _ && _ = true |- _ => apply andb_prop in E; destruct E end.
    - (* skip *)
      injection E as <- <-. specialize (Idle _ _ L).
      split; [intros x a Ha; rewrite (Idle x a Ha); exact (G x a Ha)|].
      intros [|n] m s R; [apply Z|]. left. simpl. split; [reflexivity|].
      intros x a Ha. rewrite (Idle x a Ha). exact (R x a Ha).
    - (* print *)
      destruct (elab_e A e g) as [[te g1]|] eqn:E1; [|discriminate]. simpl in E.
      injection E as <- <-.
      destruct (sim_e _ _ _ _ _ _ O E1 L G) as [G1 R1]. split; [exact G1|].
      intros [|n] m s R; [apply Z|]. simpl.
      eapply outs_with_val; [exact (R1 m s R)|]. intros v m1 s1 P1. left. split; [reflexivity|]. simpl. auto.
    - (* assign *)
      destruct (target A b x g) as [t|] eqn:Et; [|discriminate]. simpl in E.
      destruct (elab_e A e g) as [[te g1]|] eqn:E1; [|discriminate]. simpl in E.
      destruct (assigned A b x t g1) as [[[nd fl] g2]|] eqn:Ea; [|discriminate]. simpl in E.
      injection E as <- <-. destruct (Fl_app _ _ _ _ L) as (F1 & L1 & L2).
      destruct (sim_e e _ _ _ _ _ ltac:(assumption) E1 L1 G) as [G1 R1].
      apply target_resolved in Et.
      assert (Rt : resolved b x t g1) by (eapply (target_e b x e g); eauto).
      destruct (assign_step _ _ _ _ _ _ _ _ _ Rt Ea G1 L2) as [G2 W].
      split; [exact G2|]. intros [|n] m s R; [apply Z|]. simpl.
      eapply outs_with_val; [exact (R1 m s R)|]. intros v m1 s1 P1. left. split; [reflexivity|]. simpl. auto.
    - (* sequence *)
      destruct (elab A p1 g) as [[ta g1]|] eqn:E1; [|discriminate]. simpl in E.
      destruct (elab A p2 g1) as [[tb g2]|] eqn:E2; [|discriminate]. simpl in E.
      injection E as <- <-. destruct (Fl_app _ _ _ _ L) as (F1 & L1 & L2).
      destruct (IHp1 _ _ _ _ _ ltac:(assumption) E1 L1 G) as [G1 R1].
      destruct (IHp2 _ _ _ _ _ ltac:(assumption) E2 L2 G1) as [G2 R2].
      split; [exact G2|]. intros [|n] m s R; [apply Z|]. simpl.
      pose proof (R1 n m s R) as Q1.
      destruct (pexec truth elems n p1 m) as [o r], (texec truth elems n ta s) as [o' r'].
      assert (X := outs_seq (relall F1) (relall F') _ (keep (fun x => evs x (SSeq p1 p2)) F)
                     (o, r) (o', r') (pexec truth elems n p2) (texec truth elems n tb) Q1).
      enough (Y : (forall m s, relall F1 m s ->
                outs (relall F') (keep (fun x => evs x (SSeq p1 p2)) F)
                     (pexec truth elems n p2 m) (texec truth elems n tb s)) /\
              (forall m s, keep (fun x => evs x p1) F m s ->
                           keep (fun x => evs x (SSeq p1 p2)) F m s)).
      { destruct Y as [Y1 Y2]. specialize (X Y1 Y2). destruct r, r'; exact X. }
      split.
      + intros m1 s1 P1. eapply outs_mono; [| |exact (R2 n m1 s1 P1)]; [auto|].
        intros m' s' K x a Ha Zx. cbn [evs] in Zx. rewrite intros_app in Zx.
        eapply rel_weaker; [|apply (K x a Ha); lia].
        apply (seg_weaker _ _ _ (Ss p1) L1 x a Ha). lia.
      + intros m' s' K x a Ha Zx. cbn [evs] in Zx. rewrite intros_app in Zx.
        apply (K x a Ha). lia.
    - (* if *)
      destruct (elab_e A c g) as [[tc g1]|] eqn:E1; [|discriminate]. simpl in E.
      destruct (elab A p1 (enter A k1 g1)) as [[ta g2]|] eqn:E2; [|discriminate]. simpl in E.
      destruct (elab A p2 (enter A k2 g2)) as [[tb g3]|] eqn:E3; [|discriminate]. simpl in E.
      injection E as <- <-. destruct (Fl_app _ _ _ _ L) as (F1 & L1 & L2).
      destruct (Fl_app _ _ _ _ L2) as (F2 & L3 & L4).
      destruct (sim_e c _ _ _ _ _ ltac:(assumption) E1 L1 G) as [G1 R1].
      destruct (branch_facts k1 p1 g1 F1 F2 IHp1 ltac:(assumption) G1 L3 _ _ E2)
        as (G2 & R2 & S2 & W2).
      destruct (branch_facts k2 p2 g2 F2 F' IHp2 ltac:(assumption) G2 L4 _ _ E3)
        as (G3 & R3 & S3 & W3).
      split; [exact G3|]. intros [|n] m s R; [apply Z|]. simpl.
      eapply outs_with_val; [exact (R1 m s R)|]. intros v m1 s1 P1.
      assert (Wc : forall x a, A x = Some a -> intros a (evs_e x c) = 0 -> weaker (F x) (F1 x))
        by exact (seg_weaker _ _ _ (Se c) L1).
      destruct (truth v).
      + eapply outs_mono; [| |exact (R2 n m1 s1 P1)].
        * exact S3.
        * intros m' s' K x a Ha Zx.
          change (intros a (evs_e x c ++ branch k1 (evs x p1) ++ branch k2 (evs x p2)) = 0) in Zx.
          rewrite !intros_app in Zx.
          eapply rel_weaker; [|apply (K x a Ha); lia]. apply (Wc x a Ha). lia.
      + eapply outs_mono; [| |exact (R3 n m1 s1 (S2 _ _ P1))].
        * auto.
        * intros m' s' K x a Ha Zx.
          change (intros a (evs_e x c ++ branch k1 (evs x p1) ++ branch k2 (evs x p2)) = 0) in Zx.
          rewrite !intros_app in Zx.
          eapply rel_weaker; [|apply (K x a Ha); lia].
          eapply weaker_trans; [apply (Wc x a Ha); lia|apply (W2 x a Ha); lia].
    - (* while *)
      destruct (elab_e A c g) as [[tc g1]|] eqn:E1; [|discriminate]. simpl in E.
      destruct (elab A p (enter A k g1)) as [[ta g2]|] eqn:E2; [|discriminate]. simpl in E.
      injection E as <- <-.
      assert (S : forall x a, A x = Some a ->
                  seg strict a (H x) (evs_e x c ++ Body k false :: evs x p)).
      { intros x a Ha. apply seg_app; [apply Se; exact Ha|].
        apply (seg_app strict a (H x) [_]); [apply seg_one; reflexivity|apply Ss; exact Ha]. }
      destruct (Fl_block _ _ _ _ (fun x => evs_e x c ++ Body k false :: evs x p) _ _ S L)
        as (F4 & L4 & B).
      set (F1 := fun x => opened (H x) k true (F x)) in *.
      destruct (Fl_app _ _ _ _ L4) as (F2 & L1 & L2).
      destruct (Fl_cons _ _ _ _ L2) as (F3 & L3 & L5).
      assert (G0 : agree g F1) by (intros x a Ha; exact (G x a Ha)).
      destruct (sim_e c _ _ _ _ _ ltac:(assumption) E1 L1 G0) as [G1 R1].
      destruct (suite_step _ _ _ _ _ G1 L3) as [G3 R3].
      destruct (IHp _ _ _ _ _ ltac:(assumption) E2 L5 G3) as [G4 R4].
      split.
      { intros x a Ha. destruct (B x a Ha) as (-> & _). exact (G4 x a Ha). }
      assert (Wc : forall x a, A x = Some a -> intros a (evs_e x c) = 0 -> weaker (F1 x) (F2 x))
        by exact (seg_weaker _ _ _ (Se c) L1).
      assert (Wb : forall x a, A x = Some a -> intros a [Body k false] = 0 -> weaker (F2 x) (F3 x))
        by (exact (seg_weaker (fun _ => [Body k false]) _ _ ltac:(intros; apply seg_one; reflexivity) L3)).
      assert (Split : forall x a, intros a (evs_e x c ++ Body k false :: evs x p) =
                intros a (evs_e x c) + (intros a [Body k false] + intros a (evs x p))).
      { intros x a. rewrite intros_app. simpl. lia. }
      assert (Kb : forall m s, keep (fun x => evs x p) F3 m s -> relall F1 m s).
      { intros m s K x a Ha.
        destruct (Nat.eq_dec (intros a (evs_e x c ++ Body k false :: evs x p)) 0) as [Zx|Nx].
        - rewrite Split in Zx. eapply rel_weaker; [|apply (K x a Ha); lia].
          eapply weaker_trans; [apply (Wc x a Ha); lia|apply (Wb x a Ha); lia].
        - destruct (B x a Ha) as (_ & _ & _ & _ & W & I & _).
          specialize (I Nx). unfold rel.
          assert (fv (F1 x) = Inv) as ->; [|exact Logic.I].
          specialize (L x a Ha).
          destruct (flow_block _ _ _ _ _ _ _ _ _ _ (S x a Ha) L)
            as (f2 & _ & _ & _ & _ & _ & _ & B6).
          unfold F1. simpl. rewrite (B6 eq_refl).
          destruct (Nat.eqb_spec (intros a (evs_e x c ++ Body k false :: evs x p)) 0);
            [congruence|reflexivity]. }
      assert (Loop : forall n m s, relall F1 m s ->
        outs (relall F') (keep (fun x => evs x (SWhile c k p)) F)
          (pexec truth elems n (SWhile c k p) m)
          (texec truth elems n (TWhile tc (TDecl k (resets A k) ta)) s)).
      { induction n as [|n IHn]; intros m s R; [apply Z|]. cbn [pexec texec].
        eapply outs_with_val; [exact (R1 m s R)|]. intros v m1 s1 P1. destruct (truth v).
        - eapply outs_next; [exact (R4 n m1 _ (R3 _ _ P1))| | |].
          + intros m2 s2 P2. apply IHn. eapply relall_weaker; [|exact P2].
            intros x a Ha. apply (B x a Ha). reflexivity.
          + intros m2 s2 K2. apply IHn. apply Kb. exact K2.
          + intros m2 s2 K2. eapply relall_weaker; [|exact (Kb _ _ K2)].
            intros x a Ha. apply (B x a Ha).
        - left. simpl. split; [reflexivity|].
          intros x a Ha. destruct (Nat.eq_dec (intros a (evs_e x c)) 0) as [Zx|Nx].
          + destruct (B x a Ha) as (_ & _ & _ & _ & W & _).
            eapply rel_weaker; [|exact (P1 x a Ha)].
            eapply weaker_trans; [exact W|]. apply (Wc x a Ha Zx).
          + destruct (B x a Ha) as (_ & _ & _ & _ & _ & I & _).
            unfold rel. rewrite I; [exact Logic.I|]. rewrite Split. lia. }
      intros n m s R. apply Loop. eapply relall_weaker; [|exact R].
      intros x a Ha. apply (B x a Ha).
    - (* for *)
      destruct (elab_e A e g) as [[te g1]|] eqn:E1; [|discriminate]. simpl in E.
      destruct (target A b x g1) as [t|] eqn:Et; [|discriminate]. simpl in E.
      destruct (assigned A b x t g1) as [[[nd fl] g2]|] eqn:Ea; [|discriminate]. simpl in E.
      destruct (elab A p (enter A k g2)) as [[ta g3]|] eqn:E2; [|discriminate]. simpl in E.
      injection E as <- <-. destruct (Fl_app _ _ _ _ L) as (F0 & L0 & LL).
      destruct (sim_e e _ _ _ _ _ ltac:(assumption) E1 L0 G) as [G0 R0].
      assert (S : forall y a, A y = Some a ->
                  seg strict a (H y) (one y x (Bd b) ++ Body k true :: evs y p)).
      { intros y a Ha. apply seg_app; [apply seg_single; reflexivity|].
        apply (seg_app strict a (H y) [_]); [apply seg_one; reflexivity|apply Ss; exact Ha]. }
      destruct (Fl_block _ _ _ _ (fun y => one y x (Bd b) ++ Body k true :: evs y p) _ _ S LL)
        as (F4 & L4 & B).
      set (F1 := fun x => opened (H x) k true (F0 x)) in *.
      destruct (Fl_app _ _ _ _ L4) as (F2 & L1 & L2).
      destruct (Fl_cons _ _ _ _ L2) as (F3 & L3 & L5).
      assert (G1 : agree g1 F1) by (intros y a Ha; exact (G0 y a Ha)).
      apply target_resolved in Et.
      destruct (assign_step _ _ _ _ _ _ _ _ _ Et Ea G1 L1) as [G2 W].
      destruct (suite_step _ _ _ _ _ G2 L3) as [G3 R3].
      destruct (IHp _ _ _ _ _ ltac:(assumption) E2 L5 G3) as [G4 R4].
      split.
      { intros y a Ha. destruct (B y a Ha) as (-> & _). exact (G4 y a Ha). }
      assert (Wc : forall y a, A y = Some a -> intros a (one y x (Bd b)) = 0 -> weaker (F1 y) (F2 y))
        by (exact (seg_weaker (fun y => one y x (Bd b)) _ _ ltac:(intros; apply seg_single; reflexivity) L1)).
      assert (Wb : forall x a, A x = Some a -> intros a [Body k true] = 0 -> weaker (F2 x) (F3 x))
        by (exact (seg_weaker (fun _ => [Body k true]) _ _ ltac:(intros; apply seg_one; reflexivity) L3)).
      assert (Split : forall y a, intros a (one y x (Bd b) ++ Body k true :: evs y p) =
                intros a (one y x (Bd b)) + (intros a [Body k true] + intros a (evs y p))).
      { intros y a. rewrite intros_app. simpl. lia. }
      assert (Kb : forall m s, keep (fun y => evs y p) F3 m s -> relall F1 m s).
      { intros m s K y a Ha.
        destruct (Nat.eq_dec (intros a (one y x (Bd b) ++ Body k true :: evs y p)) 0) as [Zx|Nx].
        - rewrite Split in Zx. eapply rel_weaker; [|apply (K y a Ha); lia].
          eapply weaker_trans; [apply (Wc y a Ha); lia|apply (Wb y a Ha); lia].
        - unfold rel.
          assert (fv (F1 y) = Inv) as ->; [|exact Logic.I].
          specialize (LL y a Ha).
          destruct (flow_block _ _ _ _ _ _ _ _ _ _ (S y a Ha) LL)
            as (f2 & _ & _ & _ & _ & _ & _ & B6).
          unfold F1. simpl. rewrite (B6 eq_refl).
          destruct (Nat.eqb_spec (intros a (one y x (Bd b) ++ Body k true :: evs y p)) 0);
            [congruence|reflexivity]. }
      intros [|n] m s R; [apply Z|]. cbn [pexec texec].
      eapply outs_with_val; [exact (R0 m s R)|]. intros v m1 s1 P1.
      eapply outs_mono with (P := relall F1) (K := fun _ _ => False).
      + intros m' s'. apply relall_weaker. intros y a Ha. apply (B y a Ha).
      + contradiction.
      + apply outs_each with (Q := relall F1); auto.
        * intros w m2 s2 P2.
          eapply outs_mono; [| |exact (R4 n _ _ (R3 _ _ (W w _ _ P2)))].
          -- intros m' s'. apply relall_weaker. intros y a Ha. apply (B y a Ha). reflexivity.
          -- exact Kb.
        * eapply relall_weaker; [|exact P1]. intros y a Ha. apply (B y a Ha).
    - injection E as <- <-. specialize (Idle _ _ L).
      split; [intros x a Ha; rewrite (Idle x a Ha); exact (G x a Ha)|].
      intros [|n] m s R; [apply Z|]. left. simpl. split; [reflexivity|].
      apply relall_keep. exact R.
    - injection E as <- <-. specialize (Idle _ _ L).
      split; [intros x a Ha; rewrite (Idle x a Ha); exact (G x a Ha)|].
      intros [|n] m s R; [apply Z|]. left. simpl. split; [reflexivity|].
      apply relall_keep. exact R.
    - destruct (elab_e A e g) as [[te g1]|] eqn:E1; [|discriminate]. simpl in E.
      injection E as <- <-.
      destruct (sim_e _ _ _ _ _ _ O E1 L G) as [G1 R1]. split; [exact G1|].
      intros [|n] m s R; [apply Z|]. simpl.
      eapply outs_with_val; [exact (R1 m s R)|]. intros v m1 s1 P1. left. split; [reflexivity|]. simpl. auto.
  Qed.
End Sim.
