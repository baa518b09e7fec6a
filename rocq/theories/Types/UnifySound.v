(** Soundness, most general results, absence of cycles and scoping. *)
From Coq Require Import List Bool Arith ZArith Lia String.
From Verif.Common Require Import Result.
From Verif.Types Require Import Unify UnifySpec UnifyProofs.
Import ListNotations.
Open Scope res_scope.
Open Scope nat_scope.
Open Scope list_scope.

(** * Links are only added *)
Lemma step_ext P x y : step P x y -> forall v t, link (fst x v) = Some t -> link (fst y v) = Some t.
Proof.
  intros H v t E. destruct H; simpl in *; destruct (Nat.eq_dec v w) || destruct (Nat.eq_dec v v0); subst;
    try (rewrite upd_same; simpl); try (rewrite upd_other by auto); congruence.
Qed.
Lemma steps_ext P x y : steps P x y -> forall v t, link (fst x v) = Some t -> link (fst y v) = Some t.
Proof. induction 1; auto. intros v t E. apply IHsteps. eapply step_ext; eauto. Qed.
Lemma sat_back P x y r : steps P x y -> sat r (fst y) -> sat r (fst x).
Proof. intros H S v t E. apply S. eapply steps_ext; eauto. Qed.
Lemma unify_back fuel a b st r st' p : unify fuel true a b st = Ok (r, st') -> sat p (fst st') -> sat p (fst st).
Proof. intros H. apply unify_steps in H. eapply sat_back; eauto. Qed.

Lemma follow_den fuel r : forall s t t', follow fuel s t = Ok t' -> sat r s -> den r t = den r t'.
Proof.
  induction fuel as [| fuel IH]; intros s t t' H S; simpl in H; [discriminate |].
  destruct t as [v | | |]; try congruence. destruct (link (s v)) as [t |] eqn:Hl; [| congruence].
  simpl. rewrite (S v t Hl). eauto.
Qed.

(** * Soundness *)
Lemma lit_eqb_ok a b : lit_eqb a b = true -> a = b.
Proof.
  destruct a, b; simpl; try discriminate; intros H.
  - apply Z.eqb_eq in H. congruence.
  - apply String.eqb_eq in H. congruence.
  - apply Bool.eqb_prop in H. congruence.
Qed.

Section Sound.
Context (r : nat -> ty) (U : ty -> ty -> state -> res (option nat * state))
  (Uback : forall a b st o st', U a b st = Ok (o, st') -> sat r (fst st') -> sat r (fst st))
  (Uok : forall a b st n st', U a b st = Ok (Some n, st') -> sat r (fst st') -> compat (den r a) (den r b)).
Lemma unifyList_back : forall l1 l2 acc st o st', unifyList U l1 l2 acc st = Ok (o, st') -> sat r (fst st') -> sat r (fst st).
Proof.
  induction l1 as [| a l1 IH]; intros l2 acc st o st' H S; simpl in H; [injection H as <- <-; auto |].
  destruct l2 as [| b l2]; [discriminate |]. unbind H. destruct x as [r1 st1].
  apply (Uback _ _ _ _ _ H0). destruct r1; [eauto | injection H as <- <-; auto].
Qed.
Lemma unifyList_ok : forall l1 l2 acc st n st', unifyList U l1 l2 acc st = Ok (Some n, st') -> sat r (fst st') ->
  exists l2' rest, l2 = l2' ++ rest /\ List.length l2' = List.length l1 /\ compats (map (den r) l1) (map (den r) l2').
Proof.
  induction l1 as [| a l1 IH]; intros l2 acc st n st' H S; simpl in H.
  - exists [], l2. repeat split; auto. constructor.
  - destruct l2 as [| b l2]; [discriminate |]. unbind H. destruct x as [r1 st1].
    destruct r1 as [m |]; [| discriminate]. destruct (IH _ _ _ _ _ H S) as [l' [rest [E1 [E2 E3]]]].
    exists (b :: l'), rest. subst. repeat split; [simpl; auto |]. constructor; auto.
    eapply Uok; eauto. eapply unifyList_back; eauto.
Qed.
Lemma classUnify_ok a b n1 gs1 hs1 n2 gs2 hs2 st n st' :
  classUnify U a b n1 gs1 hs1 n2 gs2 hs2 st = Ok (Some n, st') -> sat r (fst st') ->
  (n1 = nint -> n2 = nInt -> compat (den r b) (den r a)) /\
  (n1 = nInt -> n2 = nint -> exists g gs, gs1 = g :: gs /\ compat (den r g) (Lit (LInt 64))) /\
  (~ (n1 = nint /\ n2 = nInt) -> ~ (n1 = nInt /\ n2 = nint) ->
   n1 = n2 /\ compats (map (den r) gs1) (map (den r) gs2) /\
   exists hs2' rest, hs2 = hs2' ++ rest /\ compats (map (den r) hs1) (map (den r) hs2')).
Proof.
  intros H S. unfold classUnify in H.
  destruct (Nat.eqb_spec n1 nint), (Nat.eqb_spec n2 nInt); cbn [andb] in H;
    [subst; repeat split; try (intros; discriminate); try tauto; intros; eapply Uok; eauto | | | ].
  all: destruct (Nat.eqb_spec n2 nint), (Nat.eqb_spec n1 nInt); cbn [andb] in H; try (subst; discriminate).
  all: try (destruct gs1 as [| g gs1]; [discriminate |]; subst; repeat split;
    [intros; discriminate | intros; exists g, gs1; split; auto; apply (Uok _ _ _ _ _ H S) | tauto | tauto | tauto]; fail).
  all: split; [intros; congruence |]; split; [intros; congruence |]; intros _ _.
  all: destruct (Nat.eqb_spec n1 n2); [| discriminate];
    destruct (Nat.eqb_spec (List.length gs1) (List.length gs2)) as [Hlen | ]; [| discriminate];
    cbn [negb] in H; unbind H; destruct x as [[m |] st1]; [| discriminate];
    destruct (unifyList_ok _ _ _ _ _ _ H S) as [h' [rest [E1 [E2 E3]]]];
    assert (S1 : sat r (fst st1)) by (eapply unifyList_back; eauto);
    destruct (unifyList_ok _ _ _ _ _ _ H0 S1) as [g' [rest' [E4 [E5 E6]]]];
    split; [auto |]; split; [| exists h', rest; auto];
    assert (rest' = []) by (rewrite E4, app_length in Hlen; destruct rest'; [auto | simpl in Hlen; lia]);
    subst; rewrite app_nil_r; auto.
Qed.
End Sound.

Lemma compats_nil_l l : compats [] l -> l = [].
Proof. intros H. inv H. auto. Qed.
Lemma compats_nil_r l : compats l [] -> l = [].
Proof. intros H. inv H. auto. Qed.

Lemma unify_sound fuel r : forall a b st n st',
  unify fuel true a b st = Ok (Some n, st') -> sat r (fst st') -> compat (den r a) (den r b).
Proof.
  induction fuel as [| fuel IH]; intros a b st n st' H S; pose proof (unify_back _ _ _ _ _ _ _ H S) as S0;
    simpl in H; [discriminate |].
  assert (UB : forall a b st o st', unify fuel true a b st = Ok (o, st') -> sat r (fst st') -> sat r (fst st))
    by (intros; eapply unify_back; eauto).
  destruct a as [v | g k | l | c gs hs].
  - destruct (link (fst st v)) as [t |] eqn:Hv.
    { simpl. rewrite (S0 _ _ Hv). eapply IH; eauto. }
    unbind H.
    destruct (negb (kind_eqb (sk (fst st v)) x) && negb (kind_eqb (sk (fst st v)) Runtime)); [discriminate |].
    match type of H with context [if ?c then setStatic v x st else st] => 
      set (st1 := if c then setStatic v x st else st) in H end.
    assert (B : bindVar fuel true v b st1 = Ok (Some n, st') -> compat (den r (Var v)) (den r b)).
    { clear H. intros H. unfold bindVar in H. unbind H. destruct x0 as [o st2]. destruct o; [discriminate |].
      unbind H. injection H as <- <-. destruct st2 as [s2 l2]. simpl in *.
      assert (E : r v = den r x0) by (apply (S v); rewrite upd_same; auto). rewrite E.
      assert (S2 : sat r s2).
      { destruct (occurs_ok (fun _ => True) _ _ _ _ _ _ H1) as [[L1 [L2 _]] _]. simpl in L2.
        intros w t0 Hw. destruct (Nat.eq_dec w v) as [-> |].
        - exfalso. destruct (L2 v) as [X _]. rewrite Hw in X. subst st1.
          destruct (negb (kind_eqb (sk (fst st v)) x) && true); destruct st; simpl in *; [rewrite upd_same in X; simpl in X | ]; congruence.
        - apply S. rewrite upd_other; auto. }
      rewrite (follow_den _ _ _ _ _ H2 S2). constructor. }
    destruct b as [w | g k | |]; auto.
    + destruct (link (fst st1 w)) as [t |] eqn:Hw.
      { apply c_sym. pose proof (UB _ _ _ _ _ H S) as S1. change (den r (Var w)) with (r w). rewrite (S1 _ _ Hw).
        eapply IH; eauto. }
      destruct (Nat.eqb_spec v w); [subst; constructor |].
      destruct (v <? w); auto. apply c_sym. eapply IH; eauto.
    + discriminate.
  - unbind H. destruct (negb (kind_eqb k x) && negb (kind_eqb k Runtime)); [discriminate |].
    destruct b as [w | g' k' | |]; try discriminate.
    + destruct (link (fst st w)) as [t |] eqn:Hw; [| discriminate].
      apply c_sym. change (den r (Var w)) with (r w). rewrite (S0 _ _ Hw). eapply IH; eauto.
    + destruct (Nat.eqb_spec g g'); [subst; apply c_gen | discriminate].
  - unbind H. rewrite (follow_den _ _ _ _ _ H0 S0).
    assert (SW : unify fuel true b (Lit l) st = Ok (Some n, st') -> compat (den r (Lit l)) (den r x)).
    { intros X. rewrite <- (follow_den _ _ _ _ _ H0 S0). apply c_sym. eapply IH; eauto. }
    destruct x as [w | g' k' | l' | n' gs' hs']; auto.
    + destruct (kind_eqb (lit_kind l) (lit_kind l')) eqn:Hk.
      { destruct (lit_eqb l l') eqn:El; [| discriminate]. apply lit_eqb_ok in El. subst. constructor. }
      exfalso. destruct l, l'; simpl in *; discriminate.
    + apply (classUnify_ok r _ UB (IH)) in H; auto. destruct H as [H1 [H2 H3]].
      destruct (Nat.eq_dec n' nInt) as [-> |].
      { destruct l; simpl lit_name in *; try (destruct H3 as [H3 _]; [intros [X Y]; discriminate X | intros [X Y]; discriminate X | discriminate H3]).
        apply c_sym. auto. }
      destruct H3 as [<- [H3 [h' [rest [-> H4]]]]]; [tauto | destruct l; intros [X _]; discriminate |].
      apply compats_nil_l in H3. apply compats_nil_l in H4. apply map_eq_nil in H3, H4. subst. simpl.
      apply c_lit.
  - unbind H. rewrite (follow_den _ _ _ _ _ H0 S0).
    assert (SW : unify fuel true b (Cls c gs hs) st = Ok (Some n, st') -> compat (den r (Cls c gs hs)) (den r x)).
    { intros X. rewrite <- (follow_den _ _ _ _ _ H0 S0). apply c_sym. eapply IH; eauto. }
    destruct x as [w | g' k' | l' | n' gs' hs']; auto.
    + apply (classUnify_ok r _ UB (IH)) in H; auto. destruct H as [H1 [H2 H3]].
      destruct (Nat.eq_dec c nInt) as [-> |].
      { destruct l'; simpl lit_name in *; try (destruct H3 as [H3 _]; [intros [X Y]; discriminate Y | intros [X Y]; discriminate Y | discriminate H3]).
        destruct (H2 eq_refl eq_refl) as [g [gs1 [-> Hg]]]. simpl. apply c_int; auto. constructor. }
      destruct H3 as [-> [H3 [h' [rest [H5 H4]]]]]; [destruct l'; intros [_ X]; discriminate | tauto |].
      symmetry in H5. apply app_eq_nil in H5. destruct H5 as [-> ->].
      apply compats_nil_r in H3. apply compats_nil_r in H4. apply map_eq_nil in H3, H4. subst. simpl.
      apply c_sym. apply c_lit.
    + apply (classUnify_ok r _ UB (IH)) in H; auto. destruct H as [H1 [H2 H3]].
      destruct (Nat.eq_dec c nint) as [-> |]; [destruct (Nat.eq_dec n' nInt) as [-> |]; [apply c_sym; auto |] |].
      2: destruct (Nat.eq_dec c nInt) as [-> |]; [destruct (Nat.eq_dec n' nint) as [-> |] |].
      2: { destruct (H2 eq_refl eq_refl) as [g [gs1 [-> Hg]]]. simpl. apply c_int; auto. constructor. }
      all: destruct H3 as [<- [H3 [h' [rest [-> H4]]]]]; [intros [X Y]; congruence | intros [X Y]; congruence |];
        simpl; rewrite map_app; apply c_cls; auto.
Qed.

(** * Unification commits to nothing that is not implied *)
Lemma occurs_same fuel v t st b st' : occurs fuel true v t st = Ok (b, st') -> sameLinks (fst st) (fst st').
Proof. intros H. apply (occurs_ok (fun _ => True)) in H. apply H. Qed.
Lemma sat_same r s s' : sameLinks s s' -> sat r s -> sat r s'.
Proof. intros E S v t H. destruct (E v) as [X _]. rewrite X in H. auto. Qed.
Lemma sat_link r v t s l : sat r s -> r v = den r t -> sat r (fst (setLink v t (s, l))).
Proof.
  intros S E w t0. simpl. destruct (Nat.eq_dec w v) as [-> |]; [rewrite upd_same | rewrite upd_other by auto; auto].
  simpl. intros H. injection H as <-. auto.
Qed.
Lemma bindVar_general fuel r v t st o st' : bindVar fuel true v t st = Ok (o, st') ->
  sat r (fst st) -> r v = den r t -> sat r (fst st').
Proof.
  intros H S E. unfold bindVar in H. unbind H. destruct x as [o1 st1]. apply occurs_same in H0.
  apply (sat_same r) in H0; auto. destruct o1; [injection H as <- <-; auto |]. unbind H. injection H as <- <-.
  destruct st1. apply sat_link; auto. rewrite E. eapply follow_den; eauto.
Qed.
Section General.
Context (r : nat -> ty) (U : ty -> ty -> state -> res (option nat * state))
  (Uok : forall a b st o st', U a b st = Ok (o, st') -> sat r (fst st) -> den r a = den r b -> sat r (fst st')).
Lemma unifyList_general : forall l1 l2 acc st o st', unifyList U l1 l2 acc st = Ok (o, st') -> sat r (fst st) ->
  map (den r) l1 = map (den r) l2 -> sat r (fst st').
Proof.
  induction l1 as [| a l1 IH]; intros l2 acc st o st' H S E; simpl in H; [injection H as <- <-; auto |].
  destruct l2 as [| b l2]; [discriminate |]. unbind H. destruct x as [r1 st1]. simpl in E. injection E as E1 E2.
  apply Uok in H0; auto. destruct r1; [eauto | injection H as <- <-; auto].
Qed.
Lemma classUnify_general a b n gs1 hs1 gs2 hs2 st o st' :
  classUnify U a b n gs1 hs1 n gs2 hs2 st = Ok (o, st') -> sat r (fst st) ->
  map (den r) gs1 = map (den r) gs2 -> map (den r) hs1 = map (den r) hs2 -> sat r (fst st').
Proof.
  intros H S E1 E2. unfold classUnify in H.
  assert (N : (n =? nint) && (n =? nInt) = false) by (destruct n as [| [|]]; reflexivity). rewrite N in H.
  rewrite Nat.eqb_refl in H. cbn [negb] in H.
  destruct (negb (List.length gs1 =? List.length gs2)); [injection H as <- <-; auto |].
  unbind H. destruct x as [r1 st1]. apply unifyList_general in H0; auto.
  destruct r1; [eapply unifyList_general; eauto | injection H as <- <-; auto].
Qed.
End General.
Lemma setStatic_sat r v k st : sat r (fst st) -> sat r (fst (setStatic v k st)).
Proof.
  destruct st as [s l]. intros S w t. simpl.
  destruct (Nat.eq_dec w v) as [-> |]; [rewrite upd_same | rewrite upd_other by auto]; simpl; auto.
Qed.

Lemma unify_general fuel r : forall a b st o st',
  unify fuel true a b st = Ok (o, st') -> sat r (fst st) -> den r a = den r b -> sat r (fst st').
Proof.
  induction fuel as [| fuel IH]; intros a b st o st' H S E; simpl in H; [discriminate |].
  destruct a as [v | g k | l | c gs hs].
  - destruct (link (fst st v)) as [t |] eqn:Hv.
    { eapply IH; eauto. rewrite <- (S _ _ Hv). auto. }
    unbind H.
    destruct (negb (kind_eqb (sk (fst st v)) x) && negb (kind_eqb (sk (fst st v)) Runtime)); [injection H as <- <-; auto |].
    match type of H with context [if ?c then setStatic v x st else st] => 
      remember (if c then setStatic v x st else st) as st1 eqn:Hst1 end.
    assert (S1 : sat r (fst st1)) by (subst st1; destruct (negb _ && true); auto; apply setStatic_sat; auto).
    destruct b as [w | g k | |]; try (eapply bindVar_general; eauto; fail).
    + destruct (link (fst st1 w)) as [t |] eqn:Hw.
      { eapply IH; eauto. simpl in *. rewrite <- (S1 _ _ Hw). auto. }
      destruct (Nat.eqb_spec v w); [injection H as <- <-; auto |].
      destruct (v <? w); [eapply IH; eauto | eapply bindVar_general; eauto].
    + injection H as <- <-; auto.
  - unbind H. destruct (negb (kind_eqb k x) && negb (kind_eqb k Runtime)); [injection H as <- <-; auto |].
    destruct b as [w | g' k' | |]; try (injection H as <- <-; auto; fail).
    + destruct (link (fst st w)) as [t |] eqn:Hw; [| injection H as <- <-; auto].
      eapply IH; eauto. simpl in *. rewrite <- (S _ _ Hw). auto.
    + destruct (g =? g'); injection H as <- <-; auto.
  - unbind H. pose proof (follow_den _ _ _ _ _ H0 S) as F.
    destruct x as [w | g' k' | l' | n' gs' hs'].
    1,2: eapply IH; eauto.
    + rewrite F in E. simpl in E. injection E as <-. destruct (kind_eqb (lit_kind l) (lit_kind l)) eqn:Hk.
      * injection H as <- <-; auto.
      * eapply classUnify_general; eauto.
    + rewrite F in E. discriminate.
  - unbind H. pose proof (follow_den _ _ _ _ _ H0 S) as F.
    destruct x as [w | g' k' | l' | n' gs' hs'].
    1,2: eapply IH; eauto.
    + rewrite F in E. discriminate.
    + rewrite F in E. simpl in E. injection E as <- E1 E2. eapply classUnify_general; eauto.
Qed.

(** * Failure means that no solution exists *)
Fixpoint tsize (t : ty) : nat :=
  match t with
  | Cls _ gs hs => S (list_sum (map tsize gs) + list_sum (map tsize hs))
  | _ => 1
  end.
Lemma tsize_pos t : 1 <= tsize t.
Proof. destruct t; simpl; lia. Qed.
Lemma list_sum_in l x : In x l -> x <= list_sum l.
Proof.
  unfold list_sum. induction l; simpl; [tauto |]. intros [-> | H]; [lia |]. specialize (IHl H). lia.
Qed.
Lemma reach_size r s t u : sat r s -> reach s t u ->
  tsize (r u) <= tsize (den r t) /\ ((exists n gs hs, t = Cls n gs hs) -> tsize (r u) < tsize (den r t)).
Proof.
  intros S H. induction H.
  - simpl. split; auto. intros [? [? [? ?]]]. discriminate.
  - simpl. rewrite (S _ _ H). split; [apply IHreach |]. intros [? [? [? ?]]]. discriminate.
  - assert (tsize (r u) < tsize (den r (Cls n gs hs))).
    { destruct IHreach as [I _]. simpl. rewrite !map_map.
      assert (X := list_sum_in (map (fun x => tsize (den r x)) gs) (tsize (den r g))
                     (in_map (fun x => tsize (den r x)) gs g H)). lia. }
    split; [lia | auto].
Qed.

Definition runtime (s : store) : Prop := forall v, link (s v) = None -> sk (s v) = Runtime.
Lemma follow_simple fuel : forall s t t', follow fuel s t = Ok t' -> simple t -> everywhere simple s -> simple t'.
Proof. intros s t t' H St E. eapply follow_P; eauto. Qed.

Section Complete.
Context (r : nat -> ty) (U : ty -> ty -> state -> res (option nat * state)).
Definition good (st : state) : Prop := sat r (fst st) /\ everywhere simple (fst st) /\ runtime (fst st).
Context (Uok : forall a b st o st', U a b st = Ok (o, st') -> good st -> simple a -> simple b -> den r a = den r b ->
   o <> None /\ good st').
Lemma unifyList_complete : forall l1 l2 acc st o st', unifyList U l1 l2 acc st = Ok (o, st') -> good st ->
  Forall simple l1 -> Forall simple l2 -> map (den r) l1 = map (den r) l2 -> o <> None /\ good st'.
Proof.
  induction l1 as [| a l1 IH]; intros l2 acc st o st' H S F1 F2 E; simpl in H;
    [injection H as <- <-; split; auto; discriminate |].
  destruct l2 as [| b l2]; [discriminate |]. unbind H. destruct x as [r1 st1]. simpl in E. injection E as E1 E2.
  inv F1. inv F2. apply Uok in H0; auto. destruct H0 as [N G]. destruct r1; [eauto | congruence].
Qed.
End Complete.

Lemma unify_complete fuel r : forall a b st o st',
  unify fuel true a b st = Ok (o, st') -> good r st -> simple a -> simple b -> den r a = den r b ->
  o <> None /\ good r st'.
Proof.
  induction fuel as [| fuel IH]; intros a b st o st' H G Sa Sb E; simpl in H; [discriminate |].
  pose proof G as [S [E1 R]].
  destruct a as [v | g k | l | c gs hs]; [| inv Sa | inv Sa |].
  - destruct (link (fst st v)) as [t |] eqn:Hv.
    { eapply IH; eauto. rewrite <- (S _ _ Hv). auto. }
    unbind H. assert (x = Runtime).
    { destruct (staticKind_ok _ _ _ _ H0) as [t' [F1 <-]].
      pose proof (follow_simple _ _ _ _ F1 Sb E1) as St. inv St; simpl; auto. apply R. eapply follow_end; eauto. }
    subst x. rewrite (R _ Hv) in H. cbn [kind_eqb negb andb] in H.
    assert (B : (forall w, b = Var w -> w <> v) -> (forall w, b = Var w -> link (fst st w) = None) ->
                bindVar fuel true v b st = Ok (o, st') -> o <> None /\ good r st').
    { clear H. intros Hw Hn H. pose proof (bindVar_general _ r _ _ _ _ _ H S E) as G'.
      unfold bindVar in H. unbind H. destruct x as [o1 st1].
      destruct (occurs_ok (fun _ => True) _ _ _ _ _ _ H1) as [[_ [SL _]] HO]. destruct o1.
      - exfalso. destruct (reach_size r (fst st) b v S HO) as [_ HR]. inv Sb.
        + specialize (Hw _ eq_refl). specialize (Hn _ eq_refl). inv HO; congruence.
        + simpl den in E at 1. rewrite E in HR. specialize (HR ltac:(eauto)). lia.
      - unbind H. injection H as <- <-. split; [discriminate |]. split; [exact G' |].
        destruct st1 as [s1 l1]. simpl in *. split.
        + intros w t. destruct (Nat.eq_dec w v) as [-> |]; [rewrite upd_same | rewrite upd_other by auto]; simpl.
          * intros X. injection X as <-. eapply follow_simple; eauto. intros u t Hu. destruct (SL u) as [X _].
            rewrite X in Hu. eauto.
          * destruct (SL w) as [-> _]. eauto.
        + intros w. destruct (Nat.eq_dec w v) as [-> |]; [rewrite upd_same | rewrite upd_other by auto]; simpl; [discriminate |].
          destruct (SL w) as [-> ->]. auto. }
    destruct b as [w | | |]; [| inv Sb | inv Sb |].
    + destruct (link (fst st w)) as [t |] eqn:Hw.
      { eapply IH; eauto. simpl in *. rewrite <- (S _ _ Hw). auto. }
      destruct (Nat.eqb_spec v w); [injection H as <- <-; split; auto; discriminate |].
      destruct (v <? w); [eapply IH; eauto | apply B; auto; intros u Hu; injection Hu as <-; auto].
    + apply B; auto; intros; discriminate.
  - unbind H. pose proof (follow_den _ _ _ _ _ H0 S) as F. pose proof (follow_simple _ _ _ _ H0 Sb E1) as Sx.
    rewrite F in E.
    destruct x as [w | g' k' | l' | n' gs' hs'].
    + eapply IH; eauto. congruence.
    + inv Sx.
    + inv Sx.
    + simpl in E. injection E as <- E2 E3. inv Sa. inv Sx. unfold classUnify in H.
      assert (N : (c =? nint) && (c =? nInt) = false) by (destruct c as [| [|]]; reflexivity). rewrite N in H.
      rewrite Nat.eqb_refl in H. cbn [negb] in H.
      rewrite <- (map_length (den r) gs), <- (map_length (den r) gs'), E2, Nat.eqb_refl in H. cbn [negb] in H.
      unbind H. destruct x as [r1 st1].
      destruct (unifyList_complete r _ IH _ _ _ _ _ _ H1 G H2 H3 E2) as [N1 G1].
      destruct r1; [| congruence]. simpl in H. injection H as <- <-. split; auto.
Qed.

(** * Scopes and kinds *)
Lemma step_reach P s l s' l' : step P (s, l) (s', l') ->
  (forall t u, reach s' t u -> reach s t u /\ level (s' u) <= level (s u)) \/
  exists w tw, link (s w) = None /\ s' = upd s w (Cell (Some tw) (level (s w)) (sk (s w))) /\
    (forall u, reach s tw u -> u <> w /\ level (s u) <= level (s w)) /\
    forall t u, reach s' t u -> reach s t u /\ u <> w \/ reach s t w /\ reach s tw u.
Proof.
  intros H. inv H.
  - left. intros t u Hr. split.
    + eapply reach_same; [| exact Hr]. intros v. destruct (Nat.eq_dec v w) as [-> |]; [rewrite upd_same | rewrite upd_other]; auto.
    + destruct (Nat.eq_dec u w) as [-> |]; [rewrite upd_same; simpl; lia | rewrite upd_other; auto].
  - left. intros t u Hr. assert (L : forall w, link (upd s v (Cell (link (s v)) (level (s v)) k) w) = link (s w)).
    { intros w. destruct (Nat.eq_dec w v) as [-> |]; [rewrite upd_same | rewrite upd_other]; auto. }
    split.
    + induction Hr; [constructor; rewrite <- L; auto | eapply r_link; eauto; rewrite <- L; auto | eapply r_cls; eauto].
    + destruct (Nat.eq_dec u v) as [-> |]; [rewrite upd_same | rewrite upd_other]; auto.
  - right. exists v, t. split; [auto |]. split; [auto |]. split; [auto |].
    assert (T : forall t0 u, reach (upd s v (Cell (Some t) (level (s v)) (sk (s v)))) t0 u ->
       reach s t0 u /\ u <> v \/ reach s t0 v /\ reach s t u).
    { intros t0 u Hr. induction Hr.
      - destruct (Nat.eq_dec v0 v) as [-> | N]; [rewrite upd_same in H; discriminate |].
        rewrite upd_other in H by auto. left. split; [constructor |]; auto.
      - destruct (Nat.eq_dec v0 v) as [-> | N].
        + rewrite upd_same in H. injection H as <-. right. split; [constructor; auto |].
          destruct IHHr as [[X _] | [X Y]]; auto.
        + rewrite upd_other in H by auto. destruct IHHr as [[X Y] | [X Y]]; [left | right]; split; auto; eapply r_link; eauto.
      - destruct IHHr as [[X Y] | [X Y]]; [left | right]; split; auto; eapply r_cls; eauto. }
    exact T.
Qed.
Lemma step_scoped P x y : step P x y -> scoped (fst x) -> scoped (fst y).
Proof.
  destruct x as [s l], y as [s' l']. simpl. intros H S v u Hr.
  destruct (step_reach _ _ _ _ _ H) as [A | [w [tw [B1 [-> [B3 B4]]]]]].
  - destruct (A _ _ Hr) as [X Y]. inv H; simpl in *.
    + destruct (Nat.eq_dec v w) as [-> |]; [| rewrite (upd_other _ _ _ v) by auto; pose proof (S _ _ X); lia].
      inv X; [lia | congruence].
    + eapply Nat.le_trans; [exact Y |]. eapply Nat.le_trans; [exact (S _ _ X) |].
      destruct (Nat.eq_dec v v0) as [-> |]; [rewrite upd_same | rewrite upd_other]; auto.
    + eapply Nat.le_trans; [exact Y |]. eapply Nat.le_trans; [exact (S _ _ X) |].
      destruct (Nat.eq_dec v v0) as [-> |]; [rewrite upd_same | rewrite upd_other]; auto.
  - assert (L : forall z, level (upd s w (Cell (Some tw) (level (s w)) (sk (s w))) z) = level (s z)).
    { intros z. destruct (Nat.eq_dec z w) as [-> |]; [rewrite upd_same | rewrite upd_other]; auto. }
    rewrite !L. destruct (B4 _ _ Hr) as [[X _] | [X Y]]; [auto |].
    apply B3 in Y. apply S in X. lia.
Qed.
Lemma steps_scoped P x y : steps P x y -> scoped (fst x) -> scoped (fst y).
Proof. induction 1; auto. intros S. apply IHsteps. eapply step_scoped; eauto. Qed.

Lemma step_level P x y v : step P x y -> level (fst y v) <= level (fst x v).
Proof.
  intros H. destruct H; simpl; destruct (Nat.eq_dec v w) || destruct (Nat.eq_dec v v0); subst;
    try (rewrite upd_same; simpl); try (rewrite upd_other by auto); lia.
Qed.
Lemma steps_level P x y v : steps P x y -> level (fst y v) <= level (fst x v).
Proof. induction 1; auto. pose proof (step_level _ _ _ v H). lia. Qed.

Lemma step_kinded P x y : step P x y -> kinded (fst x) -> kinded (fst y).
Proof.
  intros H K v t. destruct H as [w n s l | w k s l | w tw s l]; simpl in *.
  - intros Hl Hk. assert (X : kindOf s t = sk (s v)).
    { destruct (Nat.eq_dec v w) as [-> |]; [rewrite upd_same in *; simpl in * | rewrite upd_other in * by auto];
        [apply K; auto | apply K; auto]. }
    assert (Y : kindOf (upd s w (Cell (link (s w)) n (sk (s w)))) t = kindOf s t).
    { destruct t; simpl; auto. destruct (Nat.eq_dec id w) as [-> |]; [rewrite upd_same | rewrite upd_other]; auto. }
    rewrite Y, X. destruct (Nat.eq_dec v w) as [-> |]; [rewrite upd_same | rewrite upd_other]; auto.
  - destruct (Nat.eq_dec v w) as [-> |]; [rewrite upd_same; simpl; congruence | rewrite upd_other by auto].
    intros Hl Hk. specialize (K v t Hl Hk). rewrite <- K. destruct t; simpl in *; auto.
    destruct (Nat.eq_dec id w) as [-> |]; [congruence | rewrite upd_other; auto].
  - assert (Y : forall t0, kindOf (upd s w (Cell (Some tw) (level (s w)) (sk (s w)))) t0 = kindOf s t0).
    { destruct t0; simpl; auto. destruct (Nat.eq_dec id w) as [-> |]; [rewrite upd_same | rewrite upd_other]; auto. }
    rewrite Y. destruct (Nat.eq_dec v w) as [-> |]; [rewrite upd_same; simpl | rewrite upd_other by auto; auto].
    intros X _. injection X as <-. auto.
Qed.
Lemma steps_kinded P x y : steps P x y -> kinded (fst x) -> kinded (fst y).
Proof. induction 1; auto. intros S. apply IHsteps. eapply step_kinded; eauto. Qed.

(** * No cycles *)
Lemma plain_cls n gs hs : plain (Cls n gs hs) -> Forall plain gs /\ Forall plain hs.
Proof. intros H. inv H. auto. Qed.
Lemma unify_plain fuel a b st r st' : unify fuel true a b st = Ok (r, st') -> everywhere plain (fst st) ->
  plain a -> plain b -> steps plain st st'.
Proof. intros. eapply unify_steps_gen; eauto using plain_cls. constructor. Qed.

Lemma nodes_congr s s' : (forall v, link (s' v) = link (s v)) ->
  (forall t n, nodes s t n -> nodes s' t n) /\ (forall l n, nodess s l n -> nodess s' l n).
Proof.
  intros E. apply nodes_mut; intros; try (econstructor; eauto; fail).
  - constructor. rewrite E. auto.
  - econstructor; eauto. rewrite E. auto.
Qed.
Lemma nodes_avoid s w tw lv k : everywhere plain s -> link (s w) = None ->
  let s' := upd s w (Cell (Some tw) lv k) in
  (forall t n, nodes s t n -> plain t -> ~ reach s t w -> nodes s' t n) /\
  (forall l n, nodess s l n -> Forall plain l -> (forall t, In t l -> ~ reach s t w) -> nodess s' l n).
Proof.
  intros E Hw s'. apply nodes_mut.
  - intros v Hv _ Hr. constructor. subst s'. rewrite upd_other; auto. intros ->. apply Hr. constructor. auto.
  - intros v t n Hv _ IH _ Hr. apply n_link with t.
    + subst s'. rewrite upd_other; auto. intros ->. congruence.
    + apply IH; [eapply E; eauto |]. intros X. apply Hr. eapply r_link; eauto.
  - constructor.
  - constructor.
  - intros c gs hs n m _ IH1 _ IH2 Hp Hr. inv Hp. constructor.
    + apply IH1; auto. intros t Ht X. apply Hr. eapply r_cls; eauto.
    + apply IH2; auto.
  - constructor.
  - intros t l n m _ IH1 _ IH2 Hp Hr. inv Hp. constructor; [apply IH1; auto; apply Hr; left; auto |].
    apply IH2; auto. intros t0 Ht. apply Hr. right. auto.
Qed.
Lemma nodes_extend s w tw lv k m : link (s w) = None ->
  let s' := upd s w (Cell (Some tw) lv k) in
  nodes s' tw m ->
  (forall t n, nodes s t n -> exists n', nodes s' t n') /\ (forall l n, nodess s l n -> exists n', nodess s' l n').
Proof.
  intros Hw s' Hm. apply nodes_mut.
  - intros v Hv. destruct (Nat.eq_dec v w) as [-> | N].
    + exists (S m). apply n_link with tw; auto. subst s'. rewrite upd_same. auto.
    + exists 1. constructor. subst s'. rewrite upd_other; auto.
  - intros v t n Hv _ [n' IH]. exists (S n'). apply n_link with t; auto. subst s'.
    rewrite upd_other; auto. intros ->. congruence.
  - eexists. constructor.
  - eexists. constructor.
  - intros c gs hs n1 n2 _ [a A] _ [b B]. eexists. constructor; eauto.
  - eexists. constructor.
  - intros t l n1 n2 _ [a A] _ [b B]. eexists. constructor; eauto.
Qed.
Lemma plain_nodes s t : acyclic s -> plain t -> exists n, nodes s t n.
Proof.
  intros A. induction t using ty_ind2; intros Hp; auto.
  - eexists. constructor.
  - eexists. constructor.
  - inversion Hp as [| | | n0 gs0 _ Hps]. subst n0 gs0 hs. assert (X : exists n, nodess s gs n).
    { clear Hp. induction gs as [| t l IH]; [eexists; constructor |].
      apply Forall_cons_iff in H, Hps. destruct H as [Ht Hl], Hps as [Pt Pl].
      destruct (Ht Pt) as [a Ha]. destruct (IH Hl Pl) as [b Hb]. eexists. constructor; eauto. }
    destruct X as [a Ha]. eexists. constructor; [eauto | constructor].
Qed.
Lemma step_acyclic x y : step plain x y -> everywhere plain (fst x) -> acyclic (fst x) -> acyclic (fst y).
Proof.
  intros H E A v. destruct (A v) as [n Hn]. destruct H as [w m s l | w k s l | w tw s l Hw Pt _ Hr]; simpl in *.
  1,2: exists n; eapply (nodes_congr s); eauto; intros u; destruct (Nat.eq_dec u w) as [-> |];
    [rewrite upd_same | rewrite upd_other]; auto.
  destruct (plain_nodes s tw A Pt) as [m Hm].
  assert (X : nodes (upd s w (Cell (Some tw) (level (s w)) (sk (s w)))) tw m).
  { apply (nodes_avoid s w tw); auto. intros Y. destruct (Hr _ Y). auto. }
  eapply (nodes_extend s w tw); eauto.
Qed.
Lemma steps_acyclic x y : steps plain x y -> everywhere plain (fst x) -> acyclic (fst x) -> acyclic (fst y).
Proof.
  induction 1; auto. intros E A. apply IHsteps; [eapply step_everywhere; eauto | eapply step_acyclic; eauto].
Qed.
