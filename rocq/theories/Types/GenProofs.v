(** Generalisation, instantiation and realised types. *)
From Coq Require Import List Bool Arith ZArith Lia.
From Verif.Common Require Import Result.
From Verif.Types Require Import Unify UnifySpec UnifyProofs.
Import ListNotations.
Open Scope res_scope.
Open Scope nat_scope.
Open Scope list_scope.

Section Slots.
Context (slot hslot : nat -> nat -> kind).

Scheme resolves_mind := Minimality for resolves Sort Prop
  with resolvess_mind := Minimality for resolvess Sort Prop.
Combined Scheme resolves_mut from resolves_mind, resolvess_mind.

(** * Compatible types are compiled to the same type *)
Lemma real_nth n gs i : nth_error
  ((fix go (i : nat) (l : list ty) : list ty :=
        match l with [] => [] | t :: l => inKind (slot n i) (real slot t) :: go (S i) l end) 0 gs) i =
  option_map (fun t => inKind (slot n i) (real slot t)) (nth_error gs i).
Proof.
  assert (G : forall l j, nth_error
  ((fix go (i : nat) (l : list ty) : list ty :=
        match l with [] => [] | t :: l => inKind (slot n i) (real slot t) :: go (S i) l end) j l) i =
  option_map (fun t => inKind (slot n (j + i)) (real slot t)) (nth_error l i)).
  { induction i as [| i IH]; intros [| t l] j; simpl; auto.
    - rewrite Nat.add_0_r. auto.
    - rewrite IH. replace (j + S i) with (S j + i) by lia. reflexivity. }
  apply G.
Qed.
Lemma nth_ext_eq {A} (l m : list A) : (forall i, nth_error l i = nth_error m i) -> l = m.
Proof.
  revert m. induction l as [| x l IH]; intros [| y m] H; auto.
  - specialize (H 0). discriminate.
  - specialize (H 0). discriminate.
  - pose proof (H 0) as H0. simpl in H0. injection H0 as <-. f_equal. apply IH. intros i. apply (H (S i)).
Qed.
Lemma real_cls n gs hs : n <> nInt -> exists l, real slot (Cls n gs hs) = Cls n l [] /\
  forall i, nth_error l i = option_map (fun t => inKind (slot n i) (real slot t)) (nth_error gs i).
Proof.
  intros Hn. eexists. split; [| intros i; apply real_nth].
  cbn [real]. apply Nat.eqb_neq in Hn. rewrite Hn. reflexivity.
Qed.
Lemma real_Int z hs : asClass (real slot (Cls nInt [Lit (LInt z)] hs)) =
  if Z.eqb z 64 then Cls nint [] [] else Cls nInt [inKind (slot nInt 0) (Lit (LInt z))] [].
Proof.
  simpl. destruct (Z.eqb z 64); reflexivity.
Qed.

Lemma compat_real : 
  (forall a b, compat a b ->
     (proper slot a -> proper slot b -> asClass (real slot a) = asClass (real slot b)) /\
     (forall l l', a = Lit l -> b = Lit l' -> l = l')) /\
  (forall l m, compats l m -> length l = length m /\ forall i a b, nth_error l i = Some a -> nth_error m i = Some b ->
     (proper slot a -> proper slot b -> asClass (real slot a) = asClass (real slot b)) /\
     (forall l l', a = Lit l -> b = Lit l' -> l = l')).
Proof.
  apply compat_mut.
  - intros t. split; auto. intros; congruence.
  - intros a b _ [I1 I2]. split; [intros; symmetry; auto |]. intros. symmetry. eauto.
  - intros. split; [| intros; congruence]. intros H. inversion H.
  - intros l hs. split; [| intros; congruence]. intros _ H. inv H.
    destruct (real_cls (lit_name l) [] []) as [x [E1 E2]]; [destruct l; discriminate |].
    rewrite E1. simpl. f_equal. apply nth_ext_eq. intros i. rewrite E2. destruct i; reflexivity.
  - intros g gs hs b _ [_ I2] Hb. split; [| intros; congruence]. intros Ha Pb. inversion Ha as [| n1 gs1 _ A2 _]. subst.
    destruct (A2 eq_refl) as [z Ez]. injection Ez as -> ->.
    specialize (I2 _ _ eq_refl eq_refl). injection I2 as ->. rewrite real_Int. simpl Z.eqb. cbv iota.
    inv Hb; [| reflexivity]. inversion Pb as [| n1 gs1 _ _ A3]. subst. rewrite A3 by auto. reflexivity.
  - intros n gs gs' hs hs' rest _ [L I] _ _. split; [| intros; congruence]. intros Ha Hb.
    inversion Ha as [| n1 gs1 A1 A2 _]. inversion Hb as [| n2 gs2 B1 B2 _]. subst.
    destruct (Nat.eq_dec n nInt) as [-> | Hn].
    + destruct (A2 eq_refl) as [z ->]. destruct (B2 eq_refl) as [z' ->].
      destruct (I 0 _ _ eq_refl eq_refl) as [_ I2]. specialize (I2 _ _ eq_refl eq_refl). injection I2 as ->. reflexivity.
    + destruct (real_cls n gs [] Hn) as [x [E1 E2]]. destruct (real_cls n gs' [] Hn) as [y [F1 F2]].
      rewrite E1, F1. simpl. f_equal. apply nth_ext_eq. intros i. rewrite E2, F2.
      destruct (nth_error gs i) as [a |] eqn:Ga, (nth_error gs' i) as [b |] eqn:Gb; simpl; auto.
      * destruct (A1 _ _ Ga) as [Pa Sa]. destruct (B1 _ _ Gb) as [Pb Sb]. destruct (I i a b Ga Gb) as [I1 I2].
        f_equal. assert (D : slot n i = Runtime \/ slot n i <> Runtime) by (destruct (slot n i); auto; right; discriminate).
        destruct D as [D | D].
        { rewrite D. simpl. auto. }
        { destruct (Sa D) as [la [-> _]]. destruct (Sb D) as [lb [-> _]]. rewrite (I2 _ _ eq_refl eq_refl). reflexivity. }
      * exfalso. apply nth_error_None in Gb. assert (nth_error gs i <> None) as X by congruence. apply nth_error_Some in X. lia.
      * exfalso. apply nth_error_None in Ga. assert (nth_error gs' i <> None) as X by congruence. apply nth_error_Some in X. lia.
  - split; auto. intros i a b H. destruct i; discriminate H.
  - intros a b l m _ I _ [L J]. split; [simpl; auto |]. intros i x y Hx Hy. destruct i as [| i]; simpl in *.
    + injection Hx as <-. injection Hy as <-. auto.
    + eapply J; eauto.
Qed.

(** * Generalisation *)
Lemma follow_resolves fuel : forall s t t', follow fuel s t = Ok t' -> forall t0, resolves slot hslot s t t0 ->
  (forall l, t' = Lit l -> t0 = Lit l) /\ ((forall l, t' <> Lit l) -> forall l, t0 <> Lit l).
Proof.
  induction fuel as [| fuel IH]; intros s t t' H t0 R; simpl in H; [discriminate |].
  destruct t as [v | | |].
  - destruct (link (s v)) as [t |] eqn:Hv.
    + inv R; [congruence |]. rewrite Hv in H1. injection H1 as <-. eauto.
    + injection H as <-. inv R; [| congruence]. split; intros; discriminate.
  - injection H as <-. inv R. split; intros; discriminate.
  - injection H as <-. inv R. split; [intros; congruence |]. intros X. exfalso. eapply X. reflexivity.
  - injection H as <-. inv R. split; intros; discriminate.
Qed.
Lemma follow_lit fuel : forall s t l, follow fuel s t = Ok (Lit l) -> resolves slot hslot s t (Lit l).
Proof.
  induction fuel as [| fuel IH]; intros s t l H; simpl in H; [discriminate |].
  destruct t as [v | | |]; try (injection H as ->; constructor); try discriminate.
  destruct (link (s v)) as [t |] eqn:Hv; [| discriminate]. eapply rs_link; eauto.
Qed.

Definition gen (s : store) (L : nat) (v : nat) : ty := if L <=? level (s v) then Gen v (sk (s v)) else Var v.

Lemma generalize_ok fuel s L : forall t t', generalize slot hslot fuel s L t = Ok t' ->
  exists t0, resolves slot hslot s t t0 /\ t' = den (gen s L) t0.
Proof.
  induction fuel as [| fuel IH]; intros t t' H; [discriminate |]. cbn [generalize] in H.
  destruct t as [v | g k | l | n gs hs].
  - destruct (link (s v)) as [t |] eqn:Hv.
    + destruct (IH _ _ H) as [t0 [R E]]. exists t0. split; auto. eapply rs_link; eauto.
    + injection H as <-. exists (Var v). split; [constructor; auto |]. unfold gen. simpl. reflexivity.
  - injection H as <-. exists (Gen g k). split; [constructor | reflexivity].
  - injection H as <-. exists (Lit l). split; [constructor | reflexivity].
  - cbv zeta in H.
    assert (G : forall k l i l' x, mapSlots (inSlot fuel s (fun t (_ : unit) => t <- generalize slot hslot fuel s L t ;; Ok (t, tt)))
                k i l tt = Ok (l', x) -> exists l0, resolvess slot hslot s k i l l0 /\ l' = map (den (gen s L)) l0).
    { clear H. intros k. induction l as [| t l IHl]; intros i l' x H; simpl in H.
      - injection H as <- _. exists []. split; [constructor | reflexivity].
      - unbind H. destruct x0 as [t1 []]. unbind H. destruct x0 as [l1 []]. injection H as <- _.
        destruct (IHl _ _ _ H1) as [l0 [R E]]. subst l1.
        assert (X : exists t0, resolves slot hslot s t t0 /\ t1 = den (gen s L) (inKind (k i) t0)).
        { unfold inSlot in H0. unbind H0. rename x0 into f.
          assert (C : (exists lt, k i = Runtime /\ f = Lit lt) \/
                      (k i <> Runtime \/ forall lt, f <> Lit lt) /\
                      (t2 <- generalize slot hslot fuel s L t ;; Ok (t2, tt)) = Ok (t1, tt)).
          { destruct (k i), f; try (right; split; [right; intros; discriminate | exact H0]);
              try (right; split; [left; discriminate | exact H0]); left; eauto. }
          destruct C as [[lt [Hk ->]] | [Hk HG]].
          - rewrite Hk in H0. injection H0 as <-. exists (Lit lt). split; [eapply follow_lit; eauto |].
            rewrite Hk. reflexivity.
          - unbind HG. injection HG as ->. destruct (IH _ _ H2) as [t0 [R0 E0]]. exists t0. split; auto.
            rewrite E0. f_equal. unfold inKind. destruct (k i) eqn:Ek; auto. destruct Hk as [Hk | Hk]; [congruence |].
            pose proof (proj2 (follow_resolves _ _ _ _ H _ R0) Hk) as N.
            destruct t0; auto. exfalso. eapply N. reflexivity. }
        destruct X as [t0 [R0 ->]]. exists (inKind (k i) t0 :: l0). split; [constructor; auto | reflexivity]. }
    unbind H. destruct x as [gs1 []]. unbind H. destruct x as [hs1 []]. injection H as <-.
    destruct (G _ _ _ _ _ H0) as [gs0 [R1 ->]]. destruct (G _ _ _ _ _ H1) as [hs0 [R2 ->]].
    exists (Cls n gs0 hs0). split; [constructor; auto | reflexivity].
Qed.

(** * Instantiation *)
Section Inst.
Context (K : nat -> kind).

Record grows (L : nat) (x x' : inst) : Prop := {
  g_next : next x <= next x';
  g_old : forall v, v < next x -> ist x' v = ist x v;
  g_keep : forall g t, lookup g (icache x) = Some t -> lookup g (icache x') = Some t;
  g_new : forall g t, lookup g (icache x) = None -> lookup g (icache x') = Some t ->
            exists n, t = Var n /\ next x <= n < next x' /\ ist x' n = Cell None L (K g);
  g_inj : forall g g' t, lookup g (icache x) = None -> lookup g' (icache x) = None ->
            lookup g (icache x') = Some t -> lookup g' (icache x') = Some t -> g = g' }.
Lemma grows_refl L x : grows L x x.
Proof. constructor; auto; intros; congruence. Qed.
Lemma grows_trans L x y z : grows L x y -> grows L y z -> grows L x z.
Proof.
  intros [A1 A2 A3 A4 A5] [B1 B2 B3 B4 B5].
  assert (NEW : forall g t, lookup g (icache x) = None -> lookup g (icache z) = Some t ->
            lookup g (icache y) = Some t /\ (exists n, t = Var n /\ next x <= n < next y) \/
            lookup g (icache y) = None /\ (exists n, t = Var n /\ next y <= n < next z)).
  { intros g t H1 H2. destruct (lookup g (icache y)) as [u |] eqn:E.
    - rewrite (B3 _ _ E) in H2. injection H2 as ->. left. split; auto.
      destruct (A4 _ _ H1 E) as [n [X [Y _]]]. eauto.
    - right. split; auto. destruct (B4 _ _ E H2) as [n [X [Y _]]]. eauto. }
  constructor.
  - lia.
  - intros v Hv. rewrite B2 by lia. auto.
  - auto.
  - intros g t H1 H2. destruct (lookup g (icache y)) as [u |] eqn:E.
    + rewrite (B3 _ _ E) in H2. injection H2 as ->. destruct (A4 _ _ H1 E) as [n [X [Y W]]].
      exists n. repeat split; auto; try lia. rewrite B2 by lia. auto.
    + destruct (B4 _ _ E H2) as [n [X [Y W]]]. exists n. repeat split; auto; lia.
  - intros g g' t H1 H2 H3 H4.
    destruct (NEW _ _ H1 H3) as [[X1 [n [-> Y1]]] | [X1 [n [-> Y1]]]];
    destruct (NEW _ _ H2 H4) as [[X2 [n' [E Y2]]] | [X2 [n' [E Y2]]]]; injection E as <-; try lia; eauto.
Qed.

Definition ok (x : inst) (N : nat) : Prop :=
  N <= next x /\ forall v t, v < N -> link (ist x v) = Some t -> uses N K t.
Lemma ok_grows L x x' N : ok x N -> grows L x x' -> ok x' N.
Proof.
  intros [A B] G. split; [pose proof (g_next _ _ _ G); lia |].
  intros v t Hv. rewrite (g_old _ _ _ G) by lia. eauto.
Qed.

Lemma resolves_agree s s' N : (forall v, v < N -> s' v = s v) -> (forall v t, v < N -> link (s v) = Some t -> uses N K t) ->
  (forall t t0, resolves slot hslot s t t0 -> uses N K t -> resolves slot hslot s' t t0) /\
  (forall k i l l0, resolvess slot hslot s k i l l0 -> Forall (uses N K) l -> resolvess slot hslot s' k i l l0).
Proof.
  intros E U. apply resolves_mut; intros.
  - inv H0. constructor. rewrite E; auto.
  - inv H2. eapply rs_link; eauto. rewrite E; auto.
  - constructor.
  - constructor.
  - inv H3. constructor; auto.
  - constructor.
  - inv H3. constructor; auto.
Qed.
Lemma follow_agree fuel s s' N : (forall v, v < N -> s' v = s v) -> (forall v t, v < N -> link (s v) = Some t -> uses N K t) ->
  forall t, uses N K t -> follow fuel s' t = follow fuel s t.
Proof.
  intros E U. induction fuel as [| fuel IH]; intros t H; simpl; auto.
  destruct t; auto. inv H. rewrite E by auto. destruct (link (s id)) eqn:El; auto. apply IH. eauto.
Qed.

Definition from (c : list (nat * ty)) (g : nat) : ty := match lookup g c with Some t => t | None => Gen g (K g) end.
Definition extends (c c' : list (nat * ty)) : Prop := forall g t, lookup g c = Some t -> lookup g c' = Some t.

Lemma instantiate_ok fuel L N : forall t x t' x', instantiate slot hslot fuel L t x = Ok (t', x') ->
  ok x N -> uses N K t ->
  grows L x x' /\ exists t0, resolves slot hslot (ist x) t t0 /\
    (forall g, generic t0 g -> lookup g (icache x') <> None) /\
    forall c, extends (icache x') c -> t' = gsub (from c) t0.
Proof.
  induction fuel as [| fuel IH]; intros t x t' x' H O U; [discriminate |]. cbn [instantiate] in H.
  destruct t as [v | g k | l | n gs hs].
  - destruct (link (ist x v)) as [t |] eqn:Hv.
    + inv U. destruct (IH _ _ _ _ H O) as [G [t0 [R [W E]]]]; [eapply O; eauto |]. split; auto. exists t0. split; auto.
      eapply rs_link; eauto.
    + injection H as <- <-. split; [apply grows_refl |]. exists (Var v). split; [constructor; auto | split; [| reflexivity]].
      intros g Hg. inv Hg.
  - inv U. destruct (lookup g (icache x)) as [t |] eqn:Hg.
    + injection H as <- <-. split; [apply grows_refl |]. exists (Gen g (K g)). split; [constructor |]. split; [intros g0 Hg0; inv Hg0; congruence |].
      intros c Hc. simpl. unfold from. rewrite (Hc _ _ Hg). reflexivity.
    + injection H as <- <-. split.
      * constructor; simpl.
        { lia. }
        { intros v Hv. rewrite upd_other; auto. lia. }
        { intros g0 t H. destruct (Nat.eqb_spec g g0); [congruence | auto]. }
        { intros g0 t H1 H2. destruct (Nat.eqb_spec g g0); [| congruence]. injection H2 as <-. subst.
          exists (next x). repeat split; auto; [lia |]. rewrite upd_same. reflexivity. }
        { intros g0 g' t H1 H2. destruct (Nat.eqb_spec g g0), (Nat.eqb_spec g g'); congruence. }
      * exists (Gen g (K g)). split; [constructor |].
        split; [intros g0 Hg0; inv Hg0; simpl; rewrite Nat.eqb_refl; discriminate |]. intros c Hc. simpl. unfold from.
        rewrite (Hc g (Var (next x))); auto. simpl. rewrite Nat.eqb_refl. reflexivity.
  - injection H as <- <-. split; [apply grows_refl |]. exists (Lit l). split; [constructor | split; [| reflexivity]].
    intros g Hg. inv Hg.
  - cbv zeta in H. inv U.
    assert (G : forall k l i x l' x', mapSlots (fun k t x => inSlot fuel (ist x) (instantiate slot hslot fuel L) k t x)
                k i l x = Ok (l', x') -> ok x N -> Forall (uses N K) l ->
                grows L x x' /\ exists l0, resolvess slot hslot (ist x) k i l l0 /\
                (forall t0 g, In t0 l0 -> generic t0 g -> lookup g (icache x') <> None) /\
                forall c, extends (icache x') c -> l' = map (gsub (from c)) l0).
    { clear H. intros k. induction l as [| t l IHl]; intros i y l' y' H Oy Ul; simpl in H.
      - injection H as <- <-. split; [apply grows_refl |]. exists []. split; [constructor | split; [intros t0 g [] | reflexivity]].
      - inv Ul. unbind H. destruct x0 as [t1 y1]. unbind H. destruct x0 as [l1 y2]. injection H as <- <-.
        assert (X : grows L y y1 /\ exists t0, resolves slot hslot (ist y) t t0 /\
                    (forall g, generic (inKind (k i) t0) g -> lookup g (icache y1) <> None) /\
                    forall c, extends (icache y1) c -> t1 = gsub (from c) (inKind (k i) t0)).
        { unfold inSlot in H0. unbind H0. rename x0 into f.
          assert (C : (exists lt, k i = Runtime /\ f = Lit lt) \/
                      (k i <> Runtime \/ forall lt, f <> Lit lt) /\
                      instantiate slot hslot fuel L t y = Ok (t1, y1)).
          { destruct (k i), f; try (right; split; [right; intros; discriminate | exact H0]);
              try (right; split; [left; discriminate | exact H0]); left; eauto. }
          destruct C as [[lt [Hk ->]] | [Hk HG]].
          - rewrite Hk in H0. injection H0 as <- <-. split; [apply grows_refl |].
            exists (Lit lt). split; [eapply follow_lit; eauto |]. rewrite Hk. simpl. split; [| reflexivity].
            intros g Hg. inversion Hg; subst; simpl in *; tauto.
          - destruct (IH _ _ _ _ HG Oy H3) as [G [t0 [R0 [W0 E0]]]]. split; auto. exists t0. split; auto.
            assert (EK : inKind (k i) t0 = t0); [| rewrite EK; auto].
            unfold inKind. destruct (k i) eqn:Ek; auto.
            destruct Hk as [Hk | Hk]; [congruence |].
            pose proof (proj2 (follow_resolves _ _ _ _ H _ R0) Hk) as N0.
            destruct t0; auto. exfalso. eapply N0. reflexivity. }
        destruct X as [G1 [t0 [R0 [W0 E0]]]].
        destruct (IHl _ _ _ _ H1 (ok_grows _ _ _ _ Oy G1) H5) as [G2 [l0 [R [W E]]]].
        split; [eapply grows_trans; eauto |]. exists (inKind (k i) t0 :: l0). split; [| split].
        + constructor; auto. eapply (resolves_agree (ist y1)); eauto.
          * intros v Hv. symmetry. apply (g_old _ _ _ G1). destruct Oy. lia.
          * intros v u Hv Hl. eapply (ok_grows _ _ _ _ Oy G1); eauto.
        + intros t2 g [<- | Hin] Hg; [| eauto]. specialize (W0 g Hg). destruct (lookup g (icache y1)) eqn:El; [| congruence].
          rewrite (g_keep _ _ _ G2 _ _ El). discriminate.
        + intros c Hc. simpl. f_equal; [apply E0 | apply E; auto].
          intros g0 u Hg. apply Hc. apply (g_keep _ _ _ G2). auto. }
    unbind H. destruct x0 as [gs1 y1]. unbind H. destruct x0 as [hs1 y2]. injection H as <- <-.
    destruct (G _ _ _ _ _ _ H0 O H2) as [G1 [gs0 [R1 [W1 E1]]]].
    destruct (G _ _ _ _ _ _ H1 (ok_grows _ _ _ _ O G1) H4) as [G2 [hs0 [R2 [W2 E2]]]].
    split; [eapply grows_trans; eauto |]. exists (Cls n gs0 hs0). split; [| split].
    + constructor; auto. eapply (resolves_agree (ist y1)); eauto.
      * intros v Hv. symmetry. apply (g_old _ _ _ G1). destruct O. lia.
      * intros v u Hv Hl. eapply (ok_grows _ _ _ _ O G1); eauto.
    + intros g Hg. inversion Hg as [| ? ? ? t2 ? Hin Hg2]; subst. destruct Hin as [Hin | Hin]; [| eauto].
      specialize (W1 _ _ Hin Hg2). destruct (lookup g (icache y1)) eqn:El; [| congruence].
      rewrite (g_keep _ _ _ G2 _ _ El). discriminate.
    + intros c Hc. simpl. f_equal; [apply E1 | apply E2; auto].
      intros g0 u Hg. apply Hc. apply (g_keep _ _ _ G2). auto.
Qed.
End Inst.
End Slots.

(** * The results for a generalised and instantiated type *)
Section Both.
Context (slot hslot : nat -> nat -> kind).

Lemma resolves_uses N K s : everywhere (uses N K) s ->
  (forall t t0, resolves slot hslot s t t0 -> uses N K t -> uses N K t0) /\
  (forall k i l l0, resolvess slot hslot s k i l l0 -> Forall (uses N K) l -> Forall (uses N K) l0).
Proof.
  intros E. apply resolves_mut; auto.
  - intros v t t0 Hv _ IH _. apply IH. eapply E; eauto.
  - intros n gs hs gs0 hs0 _ I1 _ I2 H. inv H. constructor; auto.
  - intros k i t t0 l l0 _ I1 _ I2 H. inv H. constructor; auto. specialize (I1 H2). unfold inKind. destruct (k i); auto.
    destruct t0; simpl; auto. repeat constructor.
Qed.
Lemma uses_gen N s K L t : uses N K t -> (forall v, L <= level (s v) -> sk (s v) = K v) -> uses N K (den (gen s L) t).
Proof.
  intros U HK. induction t using ty_ind2; simpl; auto.
  - unfold gen. destruct (Nat.leb_spec L (level (s v))); auto. rewrite HK by lia. constructor.
  - inv U. constructor; apply Forall_forall; intros x Hx; apply in_map_iff in Hx; destruct Hx as [y [<- Hy]];
      rewrite Forall_forall in *; auto.
Qed.
Lemma asClass_gen s L t : (forall l, t <> Lit l) -> asClass (den (gen s L) t) = den (gen s L) t.
Proof.
  destruct t; simpl; auto. - unfold gen. destruct (L <=? level (s id)); auto. - intros H. exfalso. eapply H. auto.
Qed.
Lemma resolves_again s L :
  (forall t t0, resolves slot hslot s t t0 ->
     forall t1, resolves slot hslot s (den (gen s L) t0) t1 -> t1 = den (gen s L) t0) /\
  (forall k i l l0, resolvess slot hslot s k i l l0 ->
     forall l1, resolvess slot hslot s k i (map (den (gen s L)) l0) l1 -> l1 = map (den (gen s L)) l0).
Proof.
  apply resolves_mut; auto.
  - intros v Hv t1 R. simpl in *. unfold gen in *. destruct (L <=? level (s v)); inv R; auto. congruence.
  - intros g k t1 R. simpl in R. inv R. auto.
  - intros l t1 R. simpl in R. inv R. auto.
  - intros n gs hs gs0 hs0 _ I1 _ I2 t1 R. simpl in R. inv R. simpl. f_equal; auto.
  - intros k i l1 R. simpl in R. inv R. auto.
  - intros k i t t0 l l0 _ I1 _ I2 l1 R. simpl in R. inv R. simpl. f_equal; [| auto].
    unfold inKind in *. destruct (k i) eqn:Ek; auto.
    assert (D : (exists lt, t0 = Lit lt) \/ forall lt, t0 <> Lit lt) by (destruct t0; eauto; right; discriminate).
    destruct D as [[lt ->] | D].
    + simpl in *. repeat match goal with Hr : resolves _ _ _ (Cls _ _ _) _ |- _ => inv Hr | Hr : resolvess _ _ _ _ _ [] _ |- _ => inv Hr end. reflexivity.
    + assert (EC : asClass t0 = t0) by (destruct t0; auto; exfalso; eapply D; reflexivity).
      rewrite EC in *. rewrite (I1 _ H3). apply asClass_gen. auto.
Qed.

Lemma gsub_ext f f' t : (forall g, generic t g -> f g = f' g) -> gsub f t = gsub f' t.
Proof.
  induction t using ty_ind2; simpl; intros H1; auto.
  - apply H1. constructor.
  - rewrite Forall_forall in *. f_equal; apply map_ext_in; intros x Hx; [apply H | apply H0]; auto; intros g Hg;
      apply H1; eapply g_cls; eauto.
Qed.
Lemma gsub_mentions (f : nat -> nat) t v : mentions (gsub (fun g => Var (f g)) t) v ->
  mentions t v \/ exists g, generic t g /\ v = f g.
Proof.
  induction t using ty_ind2; simpl; intros M; auto.
  - inv M. right. exists g. split; auto. constructor.
  - rewrite Forall_forall in *. inv M. destruct H5 as [Hin | Hin]; apply in_map_iff in Hin; destruct Hin as [t1 [<- Hin]].
    + destruct (H _ Hin H6) as [X | [g [X Y]]]; [left; eapply m_cls; eauto | right; exists g; split; auto; eapply g_cls; eauto].
    + destruct (H0 _ Hin H6) as [X | [g [X Y]]]; [left; eapply m_cls; eauto | right; exists g; split; auto; eapply g_cls; eauto].
Qed.
Lemma uses_mentions N K t v : uses N K t -> mentions t v -> v < N.
Proof.
  intros U M. revert U. induction M; intros U; inv U; auto. rewrite Forall_forall in *. destruct H; auto.
Qed.

Lemma copy_ok fuel fuel' s N K L L' t g t' x' :
  generalize slot hslot fuel s L t = Ok g ->
  instantiate slot hslot fuel' L' g (Inst s N []) = Ok (t', x') ->
  uses N K t -> everywhere (uses N K) s -> (forall v, L <= level (s v) -> sk (s v) = K v) ->
  exists t0 f, resolves slot hslot s t t0 /\ (forall h h', f h = f h' -> h = h') /\ (forall h, N <= f h) /\
    t' = gsub (fun h => Var (f h)) (den (gen s L) t0) /\
    (forall v, v < N -> ist x' v = s v) /\
    (forall h, mentions t' (f h) -> ist x' (f h) = Cell None L' (K h)).
Proof.
  intros HG HI U E HK.
  destruct (generalize_ok _ _ _ _ _ _ _ HG) as [t0 [R ->]].
  assert (U0 : uses N K t0) by (eapply (resolves_uses N K s E); eauto).
  assert (Ug : uses N K (den (gen s L) t0)) by (apply uses_gen; auto).
  destruct (instantiate_ok slot hslot K fuel' L' N _ _ _ _ HI) as [G [t1 [R1 [W E1]]]]; auto.
  { split; [simpl; lia |]. simpl. intros v u _ Hl. eapply E; eauto. }
  simpl in R1. rewrite (proj1 (resolves_again s L) _ _ R _ R1) in *.
  exists t0, (fun h => match lookup h (icache x') with Some (Var n) => n | _ => next x' + h end).
  set (f := fun h => match lookup h (icache x') with Some (Var n) => n | _ => next x' + h end).
  assert (LK : forall h u, lookup h (icache x') = Some u -> exists n, u = Var n /\ N <= n < next x' /\ ist x' n = Cell None L' (K h)).
  { intros h u Hh. apply (g_new _ _ _ _ G h u); auto. }
  pose proof (g_next _ _ _ _ G) as GN. simpl in GN.
  assert (T : t' = gsub (fun h => Var (f h)) (den (gen s L) t0)).
  { rewrite (E1 (icache x')) by (intros h u; auto). apply gsub_ext. intros h Hh. specialize (W h Hh).
    unfold from, f. destruct (lookup h (icache x')) as [u |] eqn:Hl; [| congruence].
    destruct (LK _ _ Hl) as [n [-> _]]. reflexivity. }
  assert (INJ : forall h h', f h = f h' -> h = h').
  { intros h h'. unfold f. destruct (lookup h (icache x')) as [u |] eqn:E2, (lookup h' (icache x')) as [u' |] eqn:E3.
    - destruct (LK _ _ E2) as [n [-> [L2 _]]]. destruct (LK _ _ E3) as [n' [-> [L3 _]]]. intros ->.
      apply (g_inj _ _ _ _ G h h' (Var n')); auto.
    - destruct (LK _ _ E2) as [n [-> [L2 _]]]. lia.
    - destruct (LK _ _ E3) as [n' [-> [L3 _]]]. lia.
    - lia. }
  split; [auto |]. split; [auto |]. split; [| split; [exact T | split]].
  - intros h. destruct (lookup h (icache x')) as [u |] eqn:E2; [| lia]. destruct (LK _ _ E2) as [n [-> [L2 _]]]. lia.
  - apply (g_old _ _ _ _ G).
  - intros h M. fold (f h) in *. change (match lookup h (icache x') with Some (Var n) => n | _ => next x' + h end) with (f h) in *.
    rewrite T in M. apply gsub_mentions in M. destruct M as [M | [h' [Hg Hf]]].
    + exfalso. pose proof (uses_mentions _ _ _ _ Ug M) as X. unfold f in X.
      destruct (lookup h (icache x')) as [u |] eqn:E2; [| lia]. destruct (LK _ _ E2) as [n [-> [L2 _]]]. lia.
    + apply INJ in Hf. subst h'. specialize (W h Hg). unfold f.
      destruct (lookup h (icache x')) as [u |] eqn:E2; [| congruence]. destruct (LK _ _ E2) as [n [-> [_ L2]]]. auto.
Qed.

(** * Both end *)
Lemma follow_ok_n s : (forall t n, nodes s t n -> forall fuel, n <= fuel -> exists t', follow fuel s t = Ok t') /\
  (forall l n, nodess s l n -> True).
Proof.
  apply nodes_mut; auto; intros; destruct fuel as [| fuel]; try lia; simpl; eauto.
  - rewrite H. eauto.
  - rewrite H. apply H1. lia.
Qed.
Lemma generalize_ends s L :
  (forall t n, nodes s t n -> forall fuel, n <= fuel -> exists t', generalize slot hslot fuel s L t = Ok t') /\
  (forall l n, nodess s l n -> forall fuel, n <= fuel -> forall k i, exists r,
     mapSlots (inSlot fuel s (fun t (_ : unit) => t <- generalize slot hslot fuel s L t ;; Ok (t, tt))) k i l tt = Ok r).
Proof.
  apply nodes_mut.
  - intros v Hv [| fuel] Hf; [lia |]. simpl. rewrite Hv. eauto.
  - intros v t n Hv _ IH [| fuel] Hf; [lia |]. simpl. rewrite Hv. apply IH. lia.
  - intros g k [| fuel] Hf; [lia |]. simpl. eauto.
  - intros l [| fuel] Hf; [lia |]. simpl. eauto.
  - intros c gs hs n m _ I1 _ I2 [| fuel] Hf; [lia |]. simpl.
    destruct (I1 fuel ltac:(lia) (slot c) 0) as [[r1 u1] E1]. rewrite E1. simpl.
    destruct (I2 fuel ltac:(lia) (hslot c) 0) as [[r2 u2] E2]. rewrite E2. simpl. eauto.
  - intros. simpl. eauto.
  - intros t l n m Ht I1 _ I2 fuel Hf k i. simpl. unfold inSlot at 1.
    destruct (proj1 (follow_ok_n s) t n Ht fuel ltac:(lia)) as [f Ef]. rewrite Ef. simpl.
    destruct (I1 fuel ltac:(lia)) as [t' Et]. destruct (I2 fuel ltac:(lia) k (i + 1)) as [[r2 []] E2].
    destruct (k i), f; simpl; rewrite ?Et; simpl; rewrite E2; simpl; eauto.
Qed.
Lemma instantiate_ends K N L s :
  (forall t n, nodes s t n -> uses N K t -> forall fuel x, n <= fuel -> ok K x N -> (forall v, v < N -> ist x v = s v) ->
     exists r, instantiate slot hslot fuel L t x = Ok r) /\
  (forall l n, nodess s l n -> Forall (uses N K) l -> forall fuel x, n <= fuel -> ok K x N -> (forall v, v < N -> ist x v = s v) ->
     forall k i, exists r,
     mapSlots (fun k t x => inSlot fuel (ist x) (instantiate slot hslot fuel L) k t x) k i l x = Ok r /\
       ok K (snd r) N /\ (forall v, v < N -> ist (snd r) v = s v)).
Proof.
  apply nodes_mut.
  - intros v Hv U [| fuel] x Hf O A; [lia |]. inv U. simpl. rewrite A, Hv by auto. eauto.
  - intros v t n Hv _ IH U [| fuel] x Hf O A; [lia |]. inv U. simpl. rewrite A, Hv by auto. apply IH; auto; [| lia].
    destruct O as [_ O]. eapply O; eauto. rewrite A; auto.
  - intros g k U [| fuel] x Hf O A; [lia |]. simpl. destruct (lookup g (icache x)); eauto.
  - intros l U [| fuel] x Hf O A; [lia |]. simpl. eauto.
  - intros c gs hs n m _ I1 _ I2 U [| fuel] x Hf O A; [lia |]. inv U. simpl.
    destruct (I1 H1 fuel x ltac:(lia) O A (slot c) 0) as [[r1 x1] [E1 [O1 A1]]]. rewrite E1. simpl in *.
    destruct (I2 H3 fuel x1 ltac:(lia) O1 A1 (hslot c) 0) as [[r2 x2] [E2 _]]. rewrite E2. simpl. eauto.
  - intros U fuel x Hf O A k i. simpl. eexists. split; [reflexivity |]. auto.
  - intros t l n m Ht I1 _ I2 U fuel x Hf O A k i. inv U. simpl. unfold inSlot at 1.
    assert (EF : exists f, follow fuel (ist x) t = Ok f).
    { destruct (proj1 (follow_ok_n s) t n Ht fuel ltac:(lia)) as [f Ef]. exists f.
      rewrite (follow_agree K fuel s (ist x) N); auto. intros v u Hv Hl. destruct O as [_ O]. eapply O; eauto. rewrite A; auto. }
    destruct EF as [f Ef]. rewrite Ef. simpl.
    destruct (I1 H1 fuel x ltac:(lia) O A) as [[t' x1] Et].
    destruct (instantiate_ok slot hslot K _ _ _ _ _ _ _ Et O H1) as [G _].
    assert (A1 : forall v, v < N -> ist x1 v = s v).
    { intros v Hv. rewrite (g_old _ _ _ _ G); auto. destruct O. lia. }
    destruct (I2 H2 fuel x1 ltac:(lia) (ok_grows _ _ _ _ _ O G) A1 k (i + 1)) as [[r2 x2] [E2 [O2 A2]]].
    destruct (I2 H2 fuel x ltac:(lia) O A k (i + 1)) as [[r3 x3] [E3 [O3 A3]]].
    destruct (k i), f; simpl; rewrite ?Et; simpl; rewrite ?E2, ?E3; simpl; eexists; (split; [reflexivity |]); auto.
Qed.
End Both.
