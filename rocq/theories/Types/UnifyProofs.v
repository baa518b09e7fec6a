(** Every destructive unification is a sequence of small updates of the store. *)
From Coq Require Import List Bool Arith ZArith Lia.
From Verif.Common Require Import Result.
From Verif.Types Require Import Unify UnifySpec.
Import ListNotations.
Open Scope res_scope.
Open Scope nat_scope.

Ltac inv H := inversion H; subst; clear H.

Lemma kind_eqb_ok a b : kind_eqb a b = true <-> a = b.
Proof. destruct a, b; simpl; split; congruence. Qed.
Lemma kind_eqb_no a b : kind_eqb a b = false <-> a <> b.
Proof. destruct a, b; simpl; split; congruence. Qed.

Lemma bind_ok {A B} (m : res A) (k : A -> res B) r :
  bind m k = Ok r -> exists a, m = Ok a /\ k a = Ok r.
Proof. destruct m; simpl; intros H; try discriminate. eauto. Qed.
Ltac unbind H := apply bind_ok in H; destruct H as [? [? H]].

(** * Terms with nested lists *)
Section TyInd.
Context (P : ty -> Prop) (Q : list ty -> Prop).
Context (HV : forall v, P (Var v)) (HG : forall g k, P (Gen g k)) (HL : forall l, P (Lit l))
        (HC : forall n gs hs, Q gs -> Q hs -> P (Cls n gs hs))
        (HN : Q []) (HK : forall t l, P t -> Q l -> Q (t :: l)).
Fixpoint ty_rec2 (t : ty) : P t :=
  match t with
  | Var v => HV v | Gen g k => HG g k | Lit l => HL l
  | Cls n gs hs =>
      let go := fix go (l : list ty) : Q l := match l with [] => HN | t :: l => HK t l (ty_rec2 t) (go l) end in
      HC n gs hs (go gs) (go hs)
  end.
End TyInd.
Lemma ty_ind2 (P : ty -> Prop) :
  (forall v, P (Var v)) -> (forall g k, P (Gen g k)) -> (forall l, P (Lit l)) ->
  (forall n gs hs, Forall P gs -> Forall P hs -> P (Cls n gs hs)) -> forall t, P t.
Proof. intros HV HG HL HC. apply (ty_rec2 P (Forall P)); auto. Qed.

Scheme nodes_mind := Minimality for nodes Sort Prop
  with nodess_mind := Minimality for nodess Sort Prop.
Combined Scheme nodes_mut from nodes_mind, nodess_mind.
Scheme compat_mind := Minimality for compat Sort Prop
  with compats_mind := Minimality for compats Sort Prop.
Combined Scheme compat_mut from compat_mind, compats_mind.

(** * Steps *)
Section Steps.
Context (P : ty -> Prop)
        (Pcls : forall n gs hs, P (Cls n gs hs) -> Forall P gs /\ Forall P hs)
        (P64 : P (Lit (LInt 64))).

Inductive step : state -> state -> Prop :=
  | st_level w n s l : link (s w) = None -> n < level (s w) -> step (s, l) (setLevel w n (s, l))
  | st_static v k s l : link (s v) = None -> sk (s v) = Runtime -> step (s, l) (setStatic v k (s, l))
  | st_link v t s l : link (s v) = None -> P t -> P (Var v) ->
      (forall u, reach s t u -> u <> v /\ level (s u) <= level (s v)) ->
      (forall w, t = Var w -> link (s w) = None) -> kindOf s t = sk (s v) ->
      step (s, l) (setLink v t (s, l)).
Inductive steps : state -> state -> Prop :=
  | ss_nil x : steps x x
  | ss_cons x y z : step x y -> steps y z -> steps x z.
Lemma steps_trans x y z : steps x y -> steps y z -> steps x z.
Proof. intros H1 H2. induction H1; auto. econstructor; eauto. Qed.
Lemma steps_one x y : step x y -> steps x y.
Proof. intros H. econstructor; [exact H | constructor]. Qed.

Lemma upd_same s v c : upd s v c v = c.
Proof. unfold upd. rewrite Nat.eqb_refl. reflexivity. Qed.
Lemma upd_other s v c w : w <> v -> upd s v c w = s w.
Proof. intros H. unfold upd. apply Nat.eqb_neq in H. rewrite H. reflexivity. Qed.

Lemma step_everywhere x y : step x y -> everywhere P (fst x) -> everywhere P (fst y).
Proof.
  intros H E. destruct H; simpl in *; intros u t0; destruct (Nat.eq_dec u w) || destruct (Nat.eq_dec u v);
    subst; try (rewrite upd_same; simpl); try (rewrite upd_other by auto); intros Hl; try (eapply E; eauto; fail).
  injection Hl as <-. auto.
Qed.
Lemma steps_everywhere x y : steps x y -> everywhere P (fst x) -> everywhere P (fst y).
Proof. induction 1; auto. intros E. apply IHsteps. eapply step_everywhere; eauto. Qed.

(** only levels of unbound variables differ *)
Definition sameLinks (s s' : store) : Prop := forall v, link (s' v) = link (s v) /\ sk (s' v) = sk (s v).
Lemma reach_same s s' t u : sameLinks s s' -> reach s t u -> reach s' t u.
Proof.
  intros E H. induction H.
  - constructor. destruct (E v) as [-> _]. auto.
  - apply r_link with t; auto. destruct (E v) as [-> _]. auto.
  - eapply r_cls; eauto.
Qed.
Lemma sameLinks_sym s s' : sameLinks s s' -> sameLinks s' s.
Proof. intros E v. destruct (E v). auto. Qed.
Lemma sameLinks_trans s s' s'' : sameLinks s s' -> sameLinks s' s'' -> sameLinks s s''.
Proof. intros E F v. destruct (E v), (F v). split; congruence. Qed.
Lemma kindOf_same s s' t : sameLinks s s' -> kindOf s' t = kindOf s t.
Proof. intros E. destruct t; simpl; auto. apply E. Qed.

Definition lowered (v : nat) (st st' : state) : Prop :=
  steps st st' /\ sameLinks (fst st) (fst st') /\ level (fst st' v) = level (fst st v)
  /\ (forall u, level (fst st' u) <= level (fst st u)).
Lemma lowered_refl v st : lowered v st st.
Proof. repeat split; auto. constructor. Qed.
Lemma lowered_trans v a b c : lowered v a b -> lowered v b c -> lowered v a c.
Proof.
  intros [A [B [C D]]] [A' [B' [C' D']]]. repeat split; try (eapply steps_trans; eauto).
  - destruct (B v0), (B' v0); congruence.
  - destruct (B v0), (B' v0); congruence.
  - congruence.
  - intros u. specialize (D u). specialize (D' u). lia.
Qed.

Lemma occurs_ok fuel : forall v t st b st',
  occurs fuel true v t st = Ok (b, st') ->
  lowered v st st' /\
  if b then reach (fst st) t v
  else forall u, reach (fst st) t u -> u <> v /\ level (fst st' u) <= level (fst st v).
Proof.
  induction fuel as [| fuel IH]; intros v t st b st' H; simpl in H; [discriminate |].
  destruct t as [w | g k | l | c gs hs].
  - destruct (link (fst st w)) as [t |] eqn:Hl.
    + destruct (IH _ _ _ _ _ H) as [HS HR]. split; auto. destruct b.
      * eapply r_link; eauto.
      * intros u Hu. inv Hu; [congruence |]. rewrite Hl in H1. injection H1 as <-. apply HR; auto.
    + destruct (Nat.eqb_spec w v) as [-> | Hwv].
      * injection H as <- <-. split; [apply lowered_refl | constructor; auto].
      * injection H as <- <-.
        assert (HR : forall u, reach (fst st) (Var w) u -> u = w) by (intros u Hu; inv Hu; [auto | congruence]).
        destruct (Nat.ltb_spec (level (fst st v)) (level (fst st w))).
        { cbn [andb]. destruct st as [s l]. simpl fst in *.
          split.
          - split; [apply steps_one; constructor; auto | split; [| split]]; simpl.
            + intros u. destruct (Nat.eq_dec u w) as [-> | Hu]; [rewrite upd_same | rewrite upd_other]; auto.
            + rewrite upd_other; auto.
            + intros u. destruct (Nat.eq_dec u w) as [-> | Hu]; [rewrite upd_same; simpl; lia | rewrite upd_other; auto].
          - intros u Hu. apply HR in Hu. subst. split; auto. simpl. rewrite upd_same. simpl. lia. }
        { cbn [andb]. split; [apply lowered_refl |]. intros u Hu. apply HR in Hu. subst. auto. }
  - injection H as <- <-. split; [apply lowered_refl |]. intros u Hu. inv Hu.
  - injection H as <- <-. split; [apply lowered_refl |]. intros u Hu. inv Hu.
  - assert (G : lowered v st st' /\
       if b then exists g, In g gs /\ reach (fst st) g v
       else forall g u, In g gs -> reach (fst st) g u -> u <> v /\ level (fst st' u) <= level (fst st v)).
    { clear hs c. revert st H. induction gs as [| g gs IHg]; intros st H; simpl in H.
      - injection H as <- <-. split; [apply lowered_refl |]. intros g u [].
      - unbind H. destruct x as [b1 st1]. destruct (IH _ _ _ _ _ H0) as [L1 R1]. destruct b1.
        + injection H as <- <-. split; auto. exists g. split; auto. left. auto.
        + destruct (IHg _ H) as [L2 R2]. split; [eapply lowered_trans; eauto |].
          destruct L1 as [_ [SL [LV _]]]. destruct b.
          * destruct R2 as [g' [Hin Hr]]. exists g'. split; [right; auto |].
            eapply reach_same; [apply sameLinks_sym; exact SL | exact Hr].
          * intros g' u [<- | Hin] Hr.
            { destruct (R1 u Hr). split; auto. destruct L2 as [_ [_ [_ D]]]. specialize (D u). lia. }
            { rewrite <- LV. apply R2 with g'; auto. eapply reach_same; eauto. } }
    destruct G as [L G]. split; auto. destruct b.
    + destruct G as [g [Hin Hr]]. eapply r_cls; eauto.
    + intros u Hu. inv Hu. eauto.
Qed.

Lemma follow_P fuel : forall s t t', follow fuel s t = Ok t' -> everywhere P s -> P t -> P t'.
Proof.
  induction fuel as [| fuel IH]; intros s t t' H E Pt; simpl in H; [discriminate |].
  destruct t as [v | | |]; try (injection H as <-; auto; fail).
  destruct (link (s v)) as [t |] eqn:Hl; [| injection H as <-; auto]. apply (IH s t t'); auto. eapply E; eauto.
Qed.
Lemma follow_end fuel : forall s t t', follow fuel s t = Ok t' -> forall w, t' = Var w -> link (s w) = None.
Proof.
  induction fuel as [| fuel IH]; intros s t t' H w Hw; simpl in H; [discriminate |].
  destruct t as [v | | |]; try (injection H as <-; discriminate).
  destruct (link (s v)) as [t |] eqn:Hl; [eapply IH; eauto |]. injection H as <-. injection Hw as <-. auto.
Qed.
Lemma follow_reach fuel : forall s t t' u, follow fuel s t = Ok t' -> reach s t' u -> reach s t u.
Proof.
  induction fuel as [| fuel IH]; intros s t t' u H Hr; simpl in H; [discriminate |].
  destruct t as [v | | |]; try (injection H as <-; auto; fail).
  destruct (link (s v)) as [t |] eqn:Hl; [| injection H as <-; auto]. eapply r_link; eauto.
Qed.
Lemma follow_same fuel : forall s s' t t', sameLinks s s' -> follow fuel s t = Ok t' -> follow fuel s' t = Ok t'.
Proof.
  induction fuel as [| fuel IH]; intros s s' t t' E H; simpl in H; [discriminate |]. simpl.
  destruct t as [v | | |]; auto. destruct (E v) as [-> _].
  destruct (link (s v)) as [t |]; eauto.
Qed.
Lemma staticKind_ok fuel s t k : staticKind fuel s t = Ok k -> exists t', follow fuel s t = Ok t' /\ kindOf s t' = k.
Proof. unfold staticKind. intros H. unbind H. exists x. split; auto. injection H as <-. reflexivity. Qed.

Lemma bindVar_steps fuel v t st r st' :
  bindVar fuel true v t st = Ok (r, st') -> link (fst st v) = None ->
  (exists k, staticKind fuel (fst st) t = Ok k /\ sk (fst st v) = k) ->
  everywhere P (fst st) -> P t -> P (Var v) -> steps st st'.
Proof.
  unfold bindVar. intros H Hv [k [HK Hk]] E Pt Pv. unbind H. destruct x as [o st1].
  destruct (occurs_ok _ _ _ _ _ _ H0) as [[L1 [L2 [L3 L4]]] HR].
  destruct o; [injection H as <- <-; auto |].
  unbind H. injection H as <- <-. eapply steps_trans; [exact L1 |].
  destruct st1 as [s1 l1]. apply steps_one. simpl in *.
  apply st_link.
  - destruct (L2 v) as [-> _]. auto.
  - eapply follow_P; eauto. eapply steps_everywhere in L1; eauto.
  - exact Pv.
  - intros u Hu. rewrite L3. apply HR. eapply reach_same; [apply sameLinks_sym; exact L2 |].
    eapply follow_reach; eauto.
  - eapply follow_end; eauto.
  - destruct (staticKind_ok _ _ _ _ HK) as [t' [F1 F2]]. apply (follow_same _ _ _ _ _ L2) in F1.
    rewrite F1 in H1. injection H1 as <-. rewrite (kindOf_same _ _ _ L2), F2. destruct (L2 v); congruence.
Qed.

Lemma unifyList_steps U :
  (forall a b st r st', U a b st = Ok (r, st') -> everywhere P (fst st) -> P a -> P b -> steps st st') ->
  forall l1 l2 acc st r st', unifyList U l1 l2 acc st = Ok (r, st') -> everywhere P (fst st) ->
  Forall P l1 -> Forall P l2 -> steps st st'.
Proof.
  intros HU. induction l1 as [| a l1 IH]; intros l2 acc st r st' H E F1 F2; simpl in H.
  - injection H as <- <-. constructor.
  - destruct l2 as [| b l2]; [discriminate |]. unbind H. destruct x as [r1 st1]. inv F1. inv F2.
    assert (S1 : steps st st1) by (eapply HU; eauto).
    destruct r1 as [n |]; [| injection H as <- <-; auto].
    eapply steps_trans; [exact S1 |]. eapply IH; eauto. eapply steps_everywhere; eauto.
Qed.
Lemma classUnify_steps U :
  (forall a b st r st', U a b st = Ok (r, st') -> everywhere P (fst st) -> P a -> P b -> steps st st') ->
  forall a b n1 gs1 hs1 n2 gs2 hs2 st r st', classUnify U a b n1 gs1 hs1 n2 gs2 hs2 st = Ok (r, st') ->
  everywhere P (fst st) -> P a -> P b -> Forall P gs1 -> Forall P hs1 -> Forall P gs2 -> Forall P hs2 ->
  steps st st'.
Proof.
  intros HU a b n1 gs1 hs1 n2 gs2 hs2 st r st' H E Pa Pb G1 H1 G2 H2. unfold classUnify in H.
  destruct (n1 =? nint) eqn:?, (n2 =? nInt) eqn:?; cbn [andb] in H; try (eapply HU; eauto; fail).
  all: destruct ((n2 =? nint) && (n1 =? nInt))%bool;
    [destruct gs1 as [| g gs1]; [discriminate |]; inv G1; eapply HU; eauto |].
  all: destruct (negb (n1 =? n2)); [injection H as <- <-; constructor |].
  all: destruct (negb (length gs1 =? length gs2)); [injection H as <- <-; constructor |].
  all: unbind H; destruct x as [r1 st1];
    assert (S1 : steps st st1) by (eapply unifyList_steps; eauto);
    destruct r1; [| injection H as <- <-; auto];
    eapply steps_trans; [exact S1 |]; eapply unifyList_steps; eauto; eapply steps_everywhere; eauto.
Qed.

Lemma unify_steps_gen fuel : forall a b st r st',
  unify fuel true a b st = Ok (r, st') -> everywhere P (fst st) -> P a -> P b -> steps st st'.
Proof.
  induction fuel as [| fuel IH]; intros a b st r st' H E Pa Pb; simpl in H; [discriminate |].
  destruct a as [v | g k | l | n gs hs].
  - destruct (link (fst st v)) as [t |] eqn:Hv; [apply (IH _ _ _ _ _ H); auto; eapply E; eauto |].
    unbind H. rename x into k.
    destruct (negb (kind_eqb (sk (fst st v)) k) && negb (kind_eqb (sk (fst st v)) Runtime)) eqn:Hk;
      [injection H as <- <-; constructor |].
    match type of H with context [if ?c then setStatic v k st else st] => 
      set (st1 := if c then setStatic v k st else st) in H end.
    assert (S1 : steps st st1 /\ (forall w, link (fst st1 w) = link (fst st w)) /\ sk (fst st1 v) = k
                 /\ forall w, w <> v -> fst st1 w = fst st w).
    { subst st1. destruct (kind_eqb (sk (fst st v)) k) eqn:Hk1; cbn [negb andb] in *.
      - apply kind_eqb_ok in Hk1. repeat split; auto. constructor.
      - destruct st as [s l]. apply negb_false_iff, kind_eqb_ok in Hk. repeat split.
        + apply steps_one. constructor; auto.
        + intros w. simpl. destruct (Nat.eq_dec w v) as [-> |]; [rewrite upd_same | rewrite upd_other]; auto.
        + simpl. rewrite upd_same. reflexivity.
        + intros w Hw. simpl. rewrite upd_other; auto. }
    destruct S1 as [S1 [Ln [Hs1 Ho]]]. eapply steps_trans; [exact S1 |].
    assert (E1 : everywhere P (fst st1)) by (eapply steps_everywhere; eauto).
    assert (SK : staticKind fuel (fst st1) b = Ok k).
    { destruct (staticKind_ok _ _ _ _ H0) as [t' [F1 F2]].
      assert (F3 : follow fuel (fst st1) b = Ok t').
      { clear - F1 Ln. revert b F1. induction fuel as [| fuel IH]; intros b F1; simpl in *; [discriminate |].
        destruct b; auto. rewrite Ln. destruct (link (fst st id)); auto. }
      unfold staticKind. rewrite F3. simpl. f_equal.
      destruct t'; simpl in *; auto. destruct (Nat.eq_dec id v) as [-> |]; [auto |].
      rewrite Ho; auto. }
    assert (B : bindVar fuel true v b st1 = Ok (r, st') -> steps st1 st').
    { intros HB. eapply bindVar_steps; eauto. rewrite Ln; auto. }
    destruct b as [w | | |]; auto.
    + destruct (link (fst st1 w)) as [t |] eqn:Hw; [apply (IH _ _ _ _ _ H); auto; eapply E1; eauto |].
      destruct (v =? w); [injection H as <- <-; constructor |].
      destruct (v <? w); [eapply IH; eauto | auto].
    + injection H as <- <-. constructor.
  - unbind H. destruct (negb (kind_eqb k x) && negb (kind_eqb k Runtime)); [injection H as <- <-; constructor |].
    destruct b as [w | g' k' | |]; try (injection H as <- <-; constructor).
    + destruct (link (fst st w)) as [t |] eqn:Hw; [apply (IH _ _ _ _ _ H); auto; eapply E; eauto |].
      injection H as <- <-; constructor.
    + destruct (g =? g'); injection H as <- <-; constructor.
  - unbind H. rename x into bf. assert (Pf : P bf) by (eapply follow_P; eauto).
    destruct bf; try (eapply IH; eauto; fail).
    + destruct (kind_eqb (lit_kind l) (lit_kind l0)); [injection H as <- <-; constructor |].
      eapply classUnify_steps; eauto.
    + destruct (Pcls _ _ _ Pf). eapply classUnify_steps; eauto.
  - unbind H. rename x into bf. assert (Pf : P bf) by (eapply follow_P; eauto). destruct (Pcls _ _ _ Pa).
    destruct bf; try (eapply IH; eauto; fail).
    + eapply classUnify_steps; eauto.
    + destruct (Pcls _ _ _ Pf). eapply classUnify_steps; eauto.
Qed.
End Steps.

Lemma unify_steps fuel a b st r st' : unify fuel true a b st = Ok (r, st') -> steps (fun _ => True) st st'.
Proof.
  intros H. apply (unify_steps_gen (fun _ => True)) in H; auto.
  - intros. rewrite !Forall_forall. auto.
  - intros v t _. exact I.
Qed.

(** * Dry runs *)
Lemma occurs_dry fuel : forall v t st b st', occurs fuel false v t st = Ok (b, st') -> st' = st.
Proof.
  induction fuel as [| fuel IH]; intros v t st b st' H; simpl in H; [discriminate |].
  destruct t as [w | g k | l | c gs hs]; try congruence.
  - destruct (link (fst st w)); [eapply IH; eauto |]. destruct (w =? v); congruence.
  - revert st H. induction gs as [| g gs IHg]; intros st H; simpl in H; [congruence |].
    unbind H. destruct x as [b1 st1]. apply IH in H0. subst. destruct b1; [congruence | auto].
Qed.
Lemma unifyList_dry U : (forall a b st r st', U a b st = Ok (r, st') -> st' = st) ->
  forall l1 l2 acc st r st', unifyList U l1 l2 acc st = Ok (r, st') -> st' = st.
Proof.
  intros HU. induction l1 as [| a l1 IH]; intros l2 acc st r st' H; simpl in H; [congruence |].
  destruct l2 as [| b l2]; [discriminate |]. unbind H. destruct x as [r1 st1]. apply HU in H0. subst.
  destruct r1; [eauto | congruence].
Qed.
Lemma classUnify_dry U : (forall a b st r st', U a b st = Ok (r, st') -> st' = st) ->
  forall a b n1 gs1 hs1 n2 gs2 hs2 st r st', classUnify U a b n1 gs1 hs1 n2 gs2 hs2 st = Ok (r, st') -> st' = st.
Proof.
  intros HU a b n1 gs1 hs1 n2 gs2 hs2 st r st' H. unfold classUnify in H.
  destruct ((n1 =? nint) && (n2 =? nInt)); [eauto |].
  destruct ((n2 =? nint) && (n1 =? nInt)); [destruct gs1; [discriminate | eauto] |].
  destruct (negb (n1 =? n2)); [congruence |]. destruct (negb (length gs1 =? length gs2)); [congruence |].
  unbind H. destruct x as [r1 st1]. apply unifyList_dry in H0; auto. subst.
  destruct r1; [eapply unifyList_dry; eauto | congruence].
Qed.
Lemma unify_dry fuel : forall a b st r st', unify fuel false a b st = Ok (r, st') -> st' = st.
Proof.
  induction fuel as [| fuel IH]; intros a b st r st' H; simpl in H; [discriminate |].
  assert (B : forall v t st, bindVar fuel false v t st = Ok (r, st') -> st' = st).
  { intros v t st0 HB. unfold bindVar in HB. unbind HB. destruct x as [o st1]. apply occurs_dry in H0. subst.
    destruct o; congruence. }
  destruct a as [v | g k | l | n gs hs].
  - destruct (link (fst st v)); [eauto |]. unbind H. rewrite andb_false_r in H.
    destruct (negb (kind_eqb (sk (fst st v)) x) && negb (kind_eqb (sk (fst st v)) Runtime)); [congruence |].
    destruct b; eauto; [| congruence]. destruct (link (fst st id)); [eauto |].
    destruct (v =? id); [congruence |]. destruct (v <? id); eauto.
  - unbind H. destruct (negb (kind_eqb k x) && negb (kind_eqb k Runtime)); [congruence |].
    destruct b; try congruence. + destruct (link (fst st id)); [eauto | congruence].
    + destruct (g =? id); congruence.
  - unbind H. destruct x; eauto.
    + destruct (kind_eqb (lit_kind l) (lit_kind l0)); [congruence |]. eapply classUnify_dry; eauto.
    + eapply classUnify_dry; eauto.
  - unbind H. destruct x; eauto; eapply classUnify_dry; eauto.
Qed.

(** * Undo *)
Definition restore (l : list (nat * nat)) (f : nat -> nat) : nat -> nat :=
  fold_left (fun f p => fun w => if w =? fst p then snd p else f w) l f.
Lemma restore_ext l : forall f g, (forall w, f w = g w) -> forall w, restore l f w = restore l g w.
Proof.
  induction l as [| p l IH]; intros f g H w; simpl; auto. apply IH. intros u. destruct (u =? fst p); auto.
Qed.

Record undoable (s0 s : store) (l : log) : Prop := {
  u_link : forall v, link (s v) = link (s0 v) \/ In v (linked l);
  u_linked : forall v, In v (linked l) -> link (s0 v) = None;
  u_lev : forall v, restore (leveled l) (fun w => level (s w)) v = level (s0 v);
  u_leveled : forall v n, In (v, n) (leveled l) -> link (s0 v) = None;
  u_sk : forall v, sk (s v) = sk (s0 v) \/ In v (statics l);
  u_statics : forall v, In v (statics l) -> sk (s0 v) = Runtime }.

Lemma undoable_step P s0 x y : step P x y -> undoable s0 (fst x) (snd x) -> undoable s0 (fst y) (snd y).
Proof.
  intros H U. destruct U as [A B C D E F].
  assert (O : forall s v, link (s v) = None -> (link (s v) = link (s0 v) \/ In v (linked (snd x))) -> link (s0 v) = None).
  { intros s v Hn [Hl | Hl]; [congruence | auto]. }
  destruct H as [w n s l Hw Hn | v k s l Hv Hr | v t s l Hv _ _ _ _ _]; simpl in *.
  - constructor; simpl; auto.
    + intros v. destruct (Nat.eq_dec v w) as [-> |]; [rewrite upd_same | rewrite upd_other by auto]; simpl; auto.
    + intros v. rewrite <- C. apply restore_ext. intros u.
      destruct (Nat.eqb_spec u w) as [-> |]; auto. rewrite upd_other; auto.
    + intros v m [Hin | Hin]; [injection Hin as <- <- | eauto]. eauto.
    + intros v. destruct (Nat.eq_dec v w) as [-> |]; [rewrite upd_same | rewrite upd_other by auto]; simpl; auto.
  - constructor; simpl; auto.
    + intros w. destruct (Nat.eq_dec w v) as [-> |]; [rewrite upd_same | rewrite upd_other by auto]; simpl; auto.
    + intros w. rewrite <- C. apply restore_ext. intros u.
      destruct (Nat.eq_dec u v) as [-> |]; [rewrite upd_same; auto | rewrite upd_other; auto].
    + intros w. destruct (Nat.eq_dec w v) as [-> |]; [auto | rewrite upd_other by auto]. destruct (E w); auto.
    + intros w [<- | Hin]; [| auto]. destruct (E v) as [X | Hin]; auto. congruence.
  - constructor; simpl; auto.
    + intros w. destruct (Nat.eq_dec w v) as [-> |]; [auto | rewrite upd_other by auto]. destruct (A w); auto.
    + intros w [<- | Hin]; [| auto]. eauto.
    + intros w. rewrite <- C. apply restore_ext. intros u.
      destruct (Nat.eq_dec u v) as [-> |]; [rewrite upd_same; auto | rewrite upd_other; auto].
    + intros w. destruct (Nat.eq_dec w v) as [-> |]; [rewrite upd_same | rewrite upd_other by auto]; simpl; auto.
Qed.

Lemma undo_links l : forall s v,
  let s' := fold_left (fun s v => upd s v (Cell None (level (s v)) (sk (s v)))) l s in
  level (s' v) = level (s v) /\ sk (s' v) = sk (s v) /\
  (In v l -> link (s' v) = None) /\ (~ In v l -> link (s' v) = link (s v)).
Proof.
  induction l as [| w l IH]; intros s v; cbv zeta; [simpl; tauto |].
  cbn [fold_left]. destruct (IH (upd s w (Cell None (level (s w)) (sk (s w)))) v) as [A [B [C D]]].
  rewrite A, B. destruct (Nat.eq_dec v w) as [-> |].
  - rewrite upd_same in *. simpl in *. repeat split; auto; [| tauto].
    intros _. destruct (in_dec Nat.eq_dec w l); auto. 
  - rewrite upd_other in * by auto. repeat split; auto.
    + intros [|]; [congruence | auto].
    + intros Hn. apply D. intros Hin. apply Hn. right. auto.
Qed.
Lemma undo_statics l : forall s v,
  let s' := fold_left (fun s v => upd s v (Cell (link (s v)) (level (s v)) Runtime)) l s in
  level (s' v) = level (s v) /\ link (s' v) = link (s v) /\
  (In v l -> sk (s' v) = Runtime) /\ (~ In v l -> sk (s' v) = sk (s v)).
Proof.
  induction l as [| w l IH]; intros s v; cbv zeta; [simpl; tauto |].
  cbn [fold_left]. destruct (IH (upd s w (Cell (link (s w)) (level (s w)) Runtime)) v) as [A [B [C D]]].
  rewrite A, B. destruct (Nat.eq_dec v w) as [-> |].
  - rewrite upd_same in *. simpl in *. repeat split; auto; [| tauto].
    intros _. destruct (in_dec Nat.eq_dec w l); auto.
  - rewrite upd_other in * by auto. repeat split; auto.
    + intros [|]; [congruence | auto].
    + intros Hn. apply D. intros Hin. apply Hn. right. auto.
Qed.
Lemma undo_levels l : forall s, (forall v n, In (v, n) l -> link (s v) = None) ->
  exists s', undoLevels l s = Ok s' /\ forall v,
  link (s' v) = link (s v) /\ sk (s' v) = sk (s v) /\ level (s' v) = restore l (fun w => level (s w)) v.
Proof.
  induction l as [| [w n] l IH]; intros s H; [exists s; simpl; auto |]. cbn [undoLevels].
  rewrite (H w n) by (left; auto).
  destruct (IH (upd s w (Cell None n (sk (s w))))) as [s' [E F]].
  - intros v m Hin. destruct (Nat.eq_dec v w) as [-> |]; [rewrite upd_same; auto | rewrite upd_other by auto].
    apply (H v m). right. auto.
  - exists s'. split; auto. intros v. destruct (F v) as [F1 [F2 F3]]. rewrite F1, F2, F3. repeat split.
    + destruct (Nat.eq_dec v w) as [-> |]; [rewrite upd_same | rewrite upd_other by auto; auto].
      simpl. symmetry. apply (H w n). left. auto.
    + destruct (Nat.eq_dec v w) as [-> |]; [rewrite upd_same | rewrite upd_other by auto]; auto.
    + cbn [restore fold_left fst snd]. apply restore_ext. intros u.
      destruct (Nat.eqb_spec u w) as [-> |]; [rewrite upd_same; auto | rewrite upd_other; auto].
Qed.

Lemma undo_ok s0 s l : undoable s0 s l -> exists s', undo (s, l) = Ok s' /\ forall v, s' v = s0 v.
Proof.
  intros [A B C D E F]. unfold undo.
  set (s1 := fold_left (fun s v => upd s v (Cell None (level (s v)) (sk (s v)))) (linked l) s).
  pose proof (undo_links (linked l) s) as U1. cbv zeta in U1. fold s1 in U1.
  assert (L1 : forall v, link (s1 v) = link (s0 v)).
  { intros v. destruct (U1 v) as [_ [_ [X Y]]]. destruct (in_dec Nat.eq_dec v (linked l)).
    - rewrite X, B; auto.
    - rewrite Y; auto. destruct (A v); tauto. }
  destruct (undo_levels (leveled l) s1) as [s2 [E2 F2]].
  { intros v n Hin. rewrite L1. eauto. }
  rewrite E2. cbn [bind]. eexists. split; [reflexivity |].
  intros v. pose proof (undo_statics (statics l) s2 v) as [U3 [U4 [U5 U6]]]. cbv zeta in *.
  match goal with |- ?f v = _ => set (s3 := f) in * end.
  destruct (F2 v) as [F3 [F4 F5]]. destruct (U1 v) as [V1 [V2 _]].
  destruct (s3 v) as [lk lv k3], (s0 v) as [lk0 lv0 k0] eqn:H0; simpl in *. f_equal.
  - rewrite U4, F3, L1, H0. reflexivity.
  - rewrite U3, F5. rewrite (restore_ext _ _ (fun w => level (s w))); [rewrite C, H0; auto |].
    intros w. apply U1.
  - destruct (in_dec Nat.eq_dec v (statics l)).
    + rewrite U5 by auto. pose proof (F v i) as Y. rewrite H0 in Y. auto.
    + destruct (E v) as [X | X]; [| tauto]. rewrite H0 in X. simpl in X. rewrite (U6 n). congruence.
Qed.

Lemma undoable_steps P s0 x y : steps P x y -> undoable s0 (fst x) (snd x) -> undoable s0 (fst y) (snd y).
Proof. induction 1; auto. intros U. apply IHsteps. eapply undoable_step; eauto. Qed.
Lemma undoable_refl s : undoable s s (Log [] [] []).
Proof. constructor; simpl; auto; contradiction. Qed.

Lemma unify_undo fuel a b s r st : unify fuel true a b (s, Log [] [] []) = Ok (r, st) ->
  exists s', undo st = Ok s' /\ forall v, s' v = s v.
Proof.
  intros H. apply unify_steps in H. destruct st as [s1 l1]. apply undo_ok.
  apply (undoable_steps _ s _ _ H). simpl. apply undoable_refl.
Qed.
