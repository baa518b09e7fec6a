(** Unification ends when the store has no cycles. *)
From Coq Require Import List Bool Arith ZArith Lia.
From Verif.Common Require Import Result.
From Verif.Types Require Import Unify UnifySpec UnifyProofs UnifySound.
Import ListNotations.
Open Scope res_scope.
Open Scope nat_scope.
Open Scope list_scope.

(** * More fuel changes nothing *)
Lemma bind_mono {A B} (m m' : res A) (k k' : A -> res B) r :
  bind m k = Ok r -> (forall a, m = Ok a -> m' = Ok a) -> (forall a, k a = Ok r -> k' a = Ok r) -> bind m' k' = Ok r.
Proof. intros H M K. unbind H. rewrite (M x) by auto. simpl. auto. Qed.

Lemma follow_mono fuel : forall s t r fuel', follow fuel s t = Ok r -> fuel <= fuel' -> follow fuel' s t = Ok r.
Proof.
  induction fuel as [| fuel IH]; intros s t r fuel' H L; [discriminate |]. destruct fuel' as [| fuel']; [lia |].
  simpl in *. destruct t; auto. destruct (link (s id)); auto. apply IH; auto. lia.
Qed.
Lemma staticKind_mono fuel s t r fuel' : staticKind fuel s t = Ok r -> fuel <= fuel' -> staticKind fuel' s t = Ok r.
Proof. intros H L. unfold staticKind in *. eapply bind_mono; eauto. simpl. intros a Ha. eapply follow_mono; eauto. Qed.
Lemma anyOf_mono O O' l : (forall t st r, O t st = Ok r -> O' t st = Ok r) ->
  forall st r, anyOf O l st = Ok r -> anyOf O' l st = Ok r.
Proof.
  intros HO. induction l as [| t l IH]; intros st r H; simpl in *; auto. eapply bind_mono; eauto.
  intros [[] st1]; auto.
Qed.
Lemma occurs_mono fuel d : forall v t st r fuel', occurs fuel d v t st = Ok r -> fuel <= fuel' -> occurs fuel' d v t st = Ok r.
Proof.
  induction fuel as [| fuel IH]; intros v t st r fuel' H L; [discriminate |]. destruct fuel' as [| fuel']; [lia |].
  simpl in *. destruct t; auto.
  - destruct (link (fst st id)); auto. apply IH; auto. lia.
  - refine (anyOf_mono _ _ _ _ _ _ H). intros t st0 r0 H0. apply IH; auto. lia.
Qed.
Lemma bindVar_mono fuel d v t st r fuel' : bindVar fuel d v t st = Ok r -> fuel <= fuel' -> bindVar fuel' d v t st = Ok r.
Proof.
  intros H L. unfold bindVar in *. eapply bind_mono; eauto; simpl.
  - intros a Ha. eapply occurs_mono; eauto.
  - intros [[] st1]; auto. destruct d; auto. intros H1. eapply bind_mono; eauto. simpl. intros a Ha. eapply follow_mono; eauto.
Qed.
Lemma unifyList_mono U U' : (forall a b st r, U a b st = Ok r -> U' a b st = Ok r) ->
  forall l1 l2 acc st r, unifyList U l1 l2 acc st = Ok r -> unifyList U' l1 l2 acc st = Ok r.
Proof.
  intros HU. induction l1 as [| a l1 IH]; intros [| b l2] acc st r H; simpl in *; auto.
  eapply bind_mono; eauto. intros [[] st1]; auto.
Qed.
Lemma classUnify_mono U U' : (forall a b st r, U a b st = Ok r -> U' a b st = Ok r) ->
  forall a b n1 gs1 hs1 n2 gs2 hs2 st r, classUnify U a b n1 gs1 hs1 n2 gs2 hs2 st = Ok r ->
  classUnify U' a b n1 gs1 hs1 n2 gs2 hs2 st = Ok r.
Proof.
  intros HU a b n1 gs1 hs1 n2 gs2 hs2 st r H. unfold classUnify in *.
  destruct ((n1 =? nint) && (n2 =? nInt)); auto.
  destruct ((n2 =? nint) && (n1 =? nInt)); [destruct gs1; auto |].
  destruct (negb (n1 =? n2)); auto. destruct (negb (length gs1 =? length gs2)); auto.
  eapply bind_mono; eauto; simpl; [intros; eapply unifyList_mono; eauto |].
  intros [[] st1]; auto. intros; eapply unifyList_mono; eauto.
Qed.
Lemma unify_mono fuel d : forall a b st r fuel', unify fuel d a b st = Ok r -> fuel <= fuel' -> unify fuel' d a b st = Ok r.
Proof.
  induction fuel as [| fuel IH]; intros a b st r fuel' H L; [discriminate |]. destruct fuel' as [| fuel']; [lia |].
  assert (L' : fuel <= fuel') by lia. clear L.
  assert (IH' : forall a b st r, unify fuel d a b st = Ok r -> unify fuel' d a b st = Ok r) by (intros; eapply IH; eauto).
  simpl in *. destruct a as [v | g k | l | c gs hs].
  - destruct (link (fst st v)); auto. eapply bind_mono; eauto; simpl; [intros; eapply staticKind_mono; eauto |].
    intros k. destruct (negb (kind_eqb (sk (fst st v)) k) && negb (kind_eqb (sk (fst st v)) Runtime)); auto.
    match goal with |- context [if ?c then setStatic v k st else st] => 
      generalize (if c then setStatic v k st else st) end. intros st1.
    destruct b; auto; try (intros; eapply bindVar_mono; eauto; fail).
    destruct (link (fst st1 id)); auto. destruct (v =? id); auto. destruct (v <? id); auto.
    intros; eapply bindVar_mono; eauto.
  - eapply bind_mono; eauto; simpl; [intros; eapply staticKind_mono; eauto |].
    intros k'. destruct (negb (kind_eqb k k') && negb (kind_eqb k Runtime)); auto. destruct b; auto.
    destruct (link (fst st id)); auto.
  - eapply bind_mono; eauto; simpl; [intros; eapply follow_mono; eauto |].
    intros [| | l' |]; auto; [destruct (kind_eqb (lit_kind l) (lit_kind l')); auto |];
      apply classUnify_mono; auto.
  - eapply bind_mono; eauto; simpl; [intros; eapply follow_mono; eauto |].
    intros [| | l' |]; auto; apply classUnify_mono; auto.
Qed.

(** * Following links and the occurs check end *)
Lemma follow_ends s : (forall t n, nodes s t n -> exists fuel t', follow fuel s t = Ok t') /\ (forall l n, nodess s l n -> True).
Proof.
  apply nodes_mut; auto.
  - intros v H. exists 1, (Var v). simpl. rewrite H. reflexivity.
  - intros v t n H _ [fuel [t' E]]. exists (S fuel), t'. simpl. rewrite H. auto.
  - intros. exists 1. eexists. reflexivity.
  - intros. exists 1. eexists. reflexivity.
  - intros. exists 1. eexists. reflexivity.
Qed.
Lemma follow_nodes fuel s : forall t t' n, follow fuel s t = Ok t' -> nodes s t n ->
  exists n', nodes s t' n' /\ (t' = t /\ n' = n \/ n' < n).
Proof.
  induction fuel as [| fuel IH]; intros t t' n H N; simpl in H; [discriminate |].
  destruct t as [v | | |]; try (injection H as <-; eauto; fail).
  destruct (link (s v)) as [t |] eqn:Hv; [| injection H as <-; eauto].
  inv N; [congruence |]. rewrite Hv in H1. injection H1 as <-.
  destruct (IH _ _ _ H H2) as [n' [A B]]. exists n'. split; auto. right. lia.
Qed.
Lemma occurs_links fuel d v t st b st' : occurs fuel d v t st = Ok (b, st') ->
  forall w, link (fst st' w) = link (fst st w).
Proof.
  destruct d; intros H w.
  - apply occurs_same in H. apply H.
  - apply occurs_dry in H. subst. auto.
Qed.
Lemma occurs_ends d v s :
  (forall t n, nodes s t n -> forall st, (forall w, link (fst st w) = link (s w)) ->
     exists fuel r, occurs fuel d v t st = Ok r) /\
  (forall l n, nodess s l n -> forall st, (forall w, link (fst st w) = link (s w)) ->
     exists fuel r, anyOf (occurs fuel d v) l st = Ok r).
Proof.
  apply nodes_mut.
  - intros w H st E. exists 1. simpl. rewrite E, H. destruct (w =? v); eexists; reflexivity.
  - intros w t n H _ IH st E. destruct (IH st E) as [fuel [r X]]. exists (S fuel), r. simpl. rewrite E, H. auto.
  - intros. exists 1. eexists. reflexivity.
  - intros. exists 1. eexists. reflexivity.
  - intros c gs hs n m _ IH _ _ st E. destruct (IH st E) as [fuel [r X]]. exists (S fuel), r. simpl. auto.
  - intros st _. exists 0. eexists. reflexivity.
  - intros t l n m _ IH1 _ IH2 st E. destruct (IH1 st E) as [f1 [[b st1] X1]].
    assert (E1 : forall w, link (fst st1 w) = link (s w)) by (intros w; rewrite (occurs_links _ _ _ _ _ _ _ X1); auto).
    destruct (IH2 st1 E1) as [f2 [r X2]]. exists (f1 + f2).
    destruct b.
    + eexists. simpl. rewrite (occurs_mono _ _ _ _ _ _ (f1 + f2) X1) by lia. reflexivity.
    + exists r. simpl. rewrite (occurs_mono _ _ _ _ _ _ (f1 + f2) X1) by lia. simpl.
      refine (anyOf_mono _ _ _ _ _ _ X2). intros t0 st0 r0 H0. eapply occurs_mono; eauto. lia.
Qed.
Lemma bindVar_ends d v t st n : nodes (fst st) t n -> exists fuel r, bindVar fuel d v t st = Ok r.
Proof.
  intros N. destruct (proj1 (occurs_ends d v (fst st)) t n N st (fun _ => eq_refl)) as [f1 [[b st1] X1]].
  assert (N1 : nodes (fst st1) t n) by (eapply (nodes_congr (fst st)); eauto; intros; eapply occurs_links; eauto).
  destruct (proj1 (follow_ends (fst st1)) t n N1) as [f2 [t' X2]]. exists (f1 + f2). unfold bindVar.
  rewrite (occurs_mono _ _ _ _ _ _ (f1 + f2) X1) by lia. simpl.
  destruct b; [eexists; reflexivity |]. destruct d; [| eexists; reflexivity].
  rewrite (follow_mono _ _ _ _ (f1 + f2) X2) by lia. simpl. eexists; reflexivity.
Qed.

(** * Counting unbound variables *)
Definition free (s : store) (v : nat) : bool := match link (s v) with None => true | Some _ => false end.
Definition count (N : nat) (s : store) : nat := length (filter (free s) (seq 0 N)).
Lemma filter_le {A} (f g : A -> bool) l : (forall x, In x l -> g x = true -> f x = true) ->
  length (filter g l) <= length (filter f l).
Proof.
  induction l as [| x l IH]; intros H; simpl; auto.
  assert (L := IH (fun y Hy => H y (or_intror Hy))). specialize (H x (or_introl eq_refl)).
  destruct (g x), (f x); simpl; try (specialize (H eq_refl); discriminate H); lia.
Qed.
Lemma filter_lt {A} (f g : A -> bool) l x : (forall y, In y l -> g y = true -> f y = true) ->
  In x l -> f x = true -> g x = false -> length (filter g l) < length (filter f l).
Proof.
  induction l as [| y l IH]; intros H Hin Hf Hg; simpl; [contradiction |].
  destruct Hin as [-> | Hin].
  - rewrite Hf, Hg. simpl. assert (length (filter g l) <= length (filter f l)); [| lia].
    apply filter_le. intros z Hz. apply H. right. auto.
  - assert (L := IH (fun z Hz => H z (or_intror Hz)) Hin Hf Hg). specialize (H y (or_introl eq_refl)).
    destruct (g y), (f y); simpl; try (specialize (H eq_refl); discriminate H); lia.
Qed.

Section Term.
Context (N : nat).
Definition pb (t : ty) : Prop := plain t /\ below N t.
Lemma pb_cls n gs hs : pb (Cls n gs hs) -> Forall pb gs /\ Forall pb hs.
Proof.
  intros [A B]. inv A. inv B. split; auto. rewrite Forall_forall in *. unfold pb. auto.
Qed.
Lemma pb64 : pb (Lit (LInt 64)).
Proof. split; constructor. Qed.

Lemma step_count x y : step pb x y ->
  count N (fst y) < count N (fst x) \/ count N (fst y) = count N (fst x) /\ forall v, link (fst y v) = link (fst x v).
Proof.
  intros H. destruct H as [w n s l Hw Hn | v k s l Hv Hr | v t s l Hv Pt Pv]; simpl.
  1,2: right; match goal with |- _ /\ ?X => assert (L : X) end;
    [intros u; destruct (Nat.eq_dec u w) || destruct (Nat.eq_dec u v); subst; [rewrite upd_same | rewrite upd_other]; auto |];
    split; [| exact L]; unfold count; f_equal; apply filter_ext; intros u; unfold free; rewrite L; reflexivity.
  left. destruct Pv as [_ Pv]. inv Pv. unfold count. apply filter_lt with v.
  - intros u _. unfold free. destruct (Nat.eq_dec u v) as [-> |]; [rewrite upd_same | rewrite upd_other by auto]; simpl; auto; discriminate.
  - apply in_seq. lia.
  - unfold free. rewrite Hv. auto.
  - unfold free. rewrite upd_same. auto.
Qed.
Lemma steps_count x y : steps pb x y ->
  count N (fst y) < count N (fst x) \/ count N (fst y) = count N (fst x) /\ forall v, link (fst y v) = link (fst x v).
Proof.
  induction 1; [right; auto |]. apply step_count in H. destruct H as [H | [H L]], IHsteps as [I | [I M]]; try (left; lia).
  right. split; [congruence |]. intros v. rewrite M, L. reflexivity.
Qed.

Definition inv (st : state) : Prop := everywhere pb (fst st) /\ acyclic (fst st).
Lemma steps_inv x y : steps pb x y -> inv x -> inv y.
Proof.
  intros H [A B]. split; [eapply steps_everywhere; eauto |].
  assert (H' : steps plain x y).
  { clear A B. induction H; [constructor |]. econstructor; [| exact IHsteps].
    destruct H; constructor; auto; match goal with Hp : pb ?x |- plain ?x => apply Hp end. }
  eapply steps_acyclic; eauto. intros v t Hv. apply (A v t Hv).
Qed.
Lemma unify_inv fuel d a b st r st' : unify fuel d a b st = Ok (r, st') -> inv st -> pb a -> pb b -> steps pb st st'.
Proof.
  intros H [I _] Pa Pb. destruct d.
  - eapply unify_steps_gen; eauto using pb_cls, pb64.
  - apply unify_dry in H. subst. constructor.
Qed.

Definition ends (d : bool) (a b : ty) (st : state) : Prop := exists fuel r, unify fuel d a b st = Ok r.
Lemma list_ends d : forall l1 l2 acc st, length l1 <= length l2 -> inv st -> Forall pb l1 -> Forall pb l2 ->
  (forall x y st', steps pb st st' -> In x l1 -> In y l2 -> ends d x y st') ->
  exists fuel r, unifyList (unify fuel d) l1 l2 acc st = Ok r /\ (steps pb st (snd r)).
Proof.
  induction l1 as [| a l1 IH]; intros [| b l2] acc st L I F1 F2 T; try (simpl in L; lia).
  1,2: exists 0; eexists; split; [reflexivity | constructor].
  destruct (T a b st ltac:(constructor) ltac:(left; auto) ltac:(left; auto)) as [f1 [[r1 st1] E1]].
  inversion F1 as [| ? ? Pa F1']. inversion F2 as [| ? ? Pb F2']. subst.
  assert (S1 : steps pb st st1) by (eapply unify_inv; eauto).
  destruct (IH l2 (acc + match r1 with Some n => n | None => 0 end) st1) as [f2 [r [E2 S2]]]; auto.
  - simpl in L. lia.
  - eapply steps_inv; eauto.
  - intros x y st' S Hx Hy. apply T; [eapply steps_trans; eauto | right; auto | right; auto].
  - exists (f1 + f2). simpl. rewrite (unify_mono _ _ _ _ _ _ (f1 + f2) E1) by lia. simpl.
    destruct r1.
    + exists r. split; [| eapply steps_trans; eauto].
      refine (unifyList_mono _ _ _ _ _ _ _ _ E2). intros. eapply unify_mono; eauto. lia.
    + eexists. split; [reflexivity | auto].
Qed.

Definition flip (a b : ty) : nat :=
  match a, b with
  | Var v, Var w => if v <? w then 1 else 0
  | (Lit _ | Cls _ _ _), (Var _ | Gen _ _) => 1
  | Lit _, Cls n _ _ => if n =? nInt then 1 else 0
  | Cls c _ _, Cls n _ _ => if (c =? nint) && (n =? nInt) then 1 else 0
  | _, _ => 0
  end.
Lemma flip_le a b : flip a b <= 1.
Proof. destruct a, b; simpl; auto; try destruct (_ <? _); try destruct (_ && _); try destruct (_ =? _); auto. Qed.

Lemma nodess_in s l n : nodess s l n -> forall t, In t l -> exists m, nodes s t m /\ m <= n.
Proof.
  induction 1 as [| t l n m Ht Hl IH]; intros t0 Hin; [contradiction |]. destruct Hin as [-> | Hin].
  - exists n. split; auto. lia.
  - destruct (IH _ Hin) as [k [A B]]. exists k. split; auto. lia.
Qed.
Lemma nodes_pos s t n : nodes s t n -> 1 <= n.
Proof. intros H. inv H; lia. Qed.

Lemma class_ends d a b c gs hs n gs' hs' st :
  inv st -> pb (Cls c gs hs) -> (n = nInt -> gs' <> []) -> hs' = [] -> Forall pb gs' ->
  (c = nint -> n = nInt -> ends d b a st) ->
  (c = nInt -> n = nint -> forall g gs1, gs = g :: gs1 -> ends d g (Lit (LInt 64)) st) ->
  (forall x y st', steps pb st st' -> In x gs -> In y gs' -> ends d x y st') ->
  exists fuel r, classUnify (unify fuel d) a b c gs hs n gs' hs' st = Ok r.
Proof.
  intros I [Pp Pbl] HnI -> F2 T1 T2 T3. inversion Pp as [| | | ? ? Hint F1p]. subst.
  assert (F1 : Forall pb gs) by (apply (pb_cls c gs []); split; auto).
  unfold classUnify. destruct ((c =? nint) && (n =? nInt)) eqn:B1.
  { apply andb_true_iff in B1. destruct B1 as [B1 B2]. apply Nat.eqb_eq in B1, B2. apply T1; auto. }
  destruct ((n =? nint) && (c =? nInt)) eqn:B2.
  { apply andb_true_iff in B2. destruct B2 as [B2 B3]. apply Nat.eqb_eq in B2, B3.
    destruct gs as [| g gs]; [exfalso; apply (Hint B3); reflexivity |].
    destruct (T2 B3 B2 g gs eq_refl) as [f [r E]]. exists f, r. exact E. }
  destruct (Nat.eqb_spec c n) as [Hcn |]; cbn [negb]; [| exists 0; eexists; reflexivity].
  destruct (Nat.eqb_spec (length gs) (length gs')) as [Hl |]; cbn [negb]; [| exists 0; eexists; reflexivity].
  destruct (list_ends d gs gs' 3 st ltac:(lia) I F1 F2 T3) as [f [[[m |] st1] [E _]]]; exists f; eexists; rewrite E; reflexivity.
Qed.

Lemma unify_ends d k : forall m a b st na nb,
  inv st -> pb a -> pb b -> nodes (fst st) a na -> nodes (fst st) b nb ->
  count N (fst st) < k -> 2 * (na + nb) + flip a b < m -> ends d a b st.
Proof.
  induction k as [| k IHk]; [lia |]. induction m as [| m IHm]; [lia |].
  intros a b st na nb I Pa Pb Na Nb Hk Hm.
  assert (REC : forall a' b' st', steps pb st st' -> pb a' -> pb b' ->
      (exists na' nb', nodes (fst st) a' na' /\ nodes (fst st) b' nb' /\ 2 * (na' + nb') + flip a' b' < 2 * (na + nb) + flip a b) ->
      ends d a' b' st').
  { intros a' b' st' S' Pa' Pb' [na' [nb' [Na' [Nb' Lt]]]].
    assert (I' : inv st') by (eapply steps_inv; eauto).
    destruct (steps_count _ _ S') as [C | [C L]].
    - destruct (plain_nodes (fst st') a' (proj2 I') (proj1 Pa')) as [x Hx].
      destruct (plain_nodes (fst st') b' (proj2 I') (proj1 Pb')) as [y Hy].
      eapply IHk; eauto. lia.
    - apply (nodes_congr _ _ L) in Na', Nb'. eapply IHm; eauto; lia. }
  clear IHk IHm Hk Hm.
  pose proof (nodes_pos _ _ _ Na) as Hna. pose proof (nodes_pos _ _ _ Nb) as Hnb.
  assert (R0 : forall a' b', pb a' -> pb b' ->
      (exists na' nb', nodes (fst st) a' na' /\ nodes (fst st) b' nb' /\ 2 * (na' + nb') + flip a' b' < 2 * (na + nb) + flip a b) ->
      ends d a' b' st) by (intros; apply REC; auto; constructor).
  destruct (proj1 (follow_ends (fst st)) b nb Nb) as [f0 [bf Ef]].
  destruct (follow_nodes _ _ _ _ _ Ef Nb) as [nf [Nf Lf]].
  assert (Pf : pb bf) by (eapply follow_P; eauto; apply I).
  assert (LK : forall v t, link (fst st v) = Some t -> pb t) by apply (proj1 I).
  destruct a as [v | g kg | l | c gs hs].
  - destruct (link (fst st v)) as [t |] eqn:Hv.
    { inv Na; [congruence |]. rewrite Hv in H0. injection H0 as <-.
      destruct (R0 t b) as [f [r E]]; eauto.
      - exists n, nb. repeat split; auto. pose proof (flip_le t b). lia.
      - exists (S f), r. simpl. rewrite Hv. auto. }
    assert (SK : exists kk, staticKind f0 (fst st) b = Ok kk) by (unfold staticKind; rewrite Ef; eexists; reflexivity).
    destruct SK as [kk SK].
    assert (G : exists f r, (let st1 := if negb (kind_eqb (sk (fst st v)) kk) && d then setStatic v kk st else st in
                match b with
                | Var w =>
                    match link (fst st1 w) with
                    | Some t => unify f d t (Var v) st1
                    | None => if Nat.eqb v w then Ok (Some 1, st1)
                              else if v <? w then unify f d b (Var v) st1
                              else bindVar f d v b st1
                    end
                | Gen _ _ => Ok (None, st1)
                | _ => bindVar f d v b st1
                end) = Ok r \/ negb (kind_eqb (sk (fst st v)) kk) && negb (kind_eqb (sk (fst st v)) Runtime) = true).
    { destruct (negb (kind_eqb (sk (fst st v)) kk) && negb (kind_eqb (sk (fst st v)) Runtime)) eqn:Hc.
      { exists 0, (None, st). right. auto. }
      cbv zeta.
      match goal with |- context [if ?c then setStatic v kk st else st] => 
        remember (if c then setStatic v kk st else st) as st1 eqn:Hst1 end.
      assert (S1 : steps pb st st1 /\ forall w, link (fst st1 w) = link (fst st w)).
      { subst st1. destruct (negb (kind_eqb (sk (fst st v)) kk) && d) eqn:Hd; [| split; auto; constructor].
        apply andb_true_iff in Hd. destruct Hd as [Hd _]. rewrite Hd in Hc. cbn [andb] in Hc.
        apply negb_false_iff, kind_eqb_ok in Hc. destruct st as [s lg]. split.
        - apply steps_one. constructor; auto.
        - intros w. simpl. destruct (Nat.eq_dec w v) as [-> |]; [rewrite upd_same | rewrite upd_other]; auto. }
      clear Hst1. destruct S1 as [S1 L1].
      assert (Nb1 : nodes (fst st1) b nb) by (eapply (nodes_congr (fst st)); eauto).
      assert (BV : exists f r, bindVar f d v b st1 = Ok r) by (eapply bindVar_ends; eauto).
      assert (BV' : forall X, exists f r, bindVar f d v b st1 = Ok r \/ X) by (intros X; destruct BV as [f [r E]]; exists f, r; auto).
      destruct b as [w | g kg | |]; auto.
      - rewrite L1. destruct (link (fst st w)) as [t |] eqn:Hw.
        + inv Nb; [congruence |]. rewrite Hw in H0. injection H0 as <-.
          destruct (REC t (Var v) st1) as [f [r E]]; eauto.
          exists n, na. repeat split; auto. pose proof (flip_le t (Var v)). lia.
        + destruct (v =? w); [exists 0; eexists; left; reflexivity |].
          destruct (Nat.ltb_spec v w); auto.
          destruct (REC (Var w) (Var v) st1) as [f [r E]]; eauto.
          exists nb, na. repeat split; auto. simpl. destruct (Nat.ltb_spec w v); [lia |]. destruct (Nat.ltb_spec v w); lia.
      - exists 0. eexists. left. reflexivity. }
    destruct G as [f [r G]].
    destruct (negb (kind_eqb (sk (fst st v)) kk) && negb (kind_eqb (sk (fst st v)) Runtime)) eqn:Hc.
    { exists (S f0). eexists. simpl. rewrite Hv, SK. simpl. rewrite Hc. reflexivity. }
    destruct G as [G | G]; [| discriminate]. exists (S (f0 + f)), r. simpl. rewrite Hv.
    rewrite (staticKind_mono _ _ _ _ (f0 + f) SK) by lia. cbn [bind]. rewrite Hc. cbv zeta in G.
    match type of G with context [if ?c then setStatic v kk st else st] => 
      remember (if c then setStatic v kk st else st) as st1 eqn:Hst1 end.
    destruct b as [w | g kg | |]; auto; try (eapply bindVar_mono; eauto; lia).
    destruct (link (fst st1 w)); [eapply unify_mono; eauto; lia |].
    destruct (v =? w); auto. destruct (v <? w); [eapply unify_mono; eauto; lia | eapply bindVar_mono; eauto; lia].
  - assert (SK : exists kk, staticKind f0 (fst st) b = Ok kk) by (unfold staticKind; rewrite Ef; eexists; reflexivity).
    destruct SK as [kk SK].
    destruct (negb (kind_eqb kg kk) && negb (kind_eqb kg Runtime)) eqn:Hc.
    { exists (S f0). eexists. simpl. rewrite SK. simpl. rewrite Hc. reflexivity. }
    destruct b as [w | g' kg' | |]; try (exists (S f0); eexists; simpl unify; rewrite SK; cbn [bind]; rewrite Hc; reflexivity).
    + destruct (link (fst st w)) as [t |] eqn:Hw.
      * inv Nb; [congruence |]. rewrite Hw in H0. injection H0 as <-.
        destruct (R0 t (Gen g kg)) as [f [r E]]; eauto.
        { exists n, na. repeat split; auto. pose proof (flip_le t (Gen g kg)). lia. }
        exists (S (f0 + f)), r. simpl. rewrite (staticKind_mono _ _ _ _ (f0 + f) SK) by lia. cbn [bind]. rewrite Hc, Hw.
        eapply unify_mono; eauto. lia.
      * exists (S f0). eexists. simpl. rewrite SK. cbn [bind]. rewrite Hc, Hw. reflexivity.
    + exists (S f0). simpl. rewrite SK. cbn [bind]. rewrite Hc. destruct (g =? g'); eexists; reflexivity.
  - assert (BL : bf = Var 0 \/ True) by auto.
    assert (SW : (exists w, bf = Var w) \/ (exists g k0, bf = Gen g k0) -> exists f r, unify f d b (Lit l) st = Ok r).
    { intros Hb. apply R0; auto. exists nb, na. repeat split; auto.
      destruct b as [w | g k0 | |]; simpl; try lia.
      all: destruct f0; simpl in Ef; [discriminate |]; injection Ef as <-; destruct Hb as [[? Hb] | [? [? Hb]]]; discriminate. }
    destruct bf as [w | g' k' | l' | n' gs' hs'].
    1,2: destruct SW as [f [r E]]; eauto; exists (S (f0 + f)), r; simpl;
      rewrite (follow_mono _ _ _ _ (f0 + f) Ef) by lia; cbn [bind]; eapply unify_mono; eauto; lia.
    + exists (S f0). simpl. rewrite Ef. cbn [bind]. destruct (kind_eqb (lit_kind l) (lit_kind l')); [eexists; reflexivity |].
      unfold classUnify. destruct l, l'; eexists; reflexivity.
    + destruct Pf as [Pf1 Pf2]. inversion Pf1 as [| | | ? ? HnI _]. subst.
      destruct (class_ends d (Lit l) (Cls n' gs' []) (lit_name l) [] [] n' gs' [] st) as [f [r E]]; auto.
      * split; repeat constructor. destruct l; discriminate.
      * eapply (pb_cls n' gs' []). split; auto.
      * intros Hl ->. apply R0; auto; [split; auto |]. exists nf, na. repeat split; auto.
        destruct Lf as [[<- ->] | Lf]; simpl; [lia |]. destruct l; simpl; lia.
      * intros; discriminate.
      * intros x y st' _ [].
      * exists (S (f0 + f)), r. simpl. rewrite (follow_mono _ _ _ _ (f0 + f) Ef) by lia. cbn [bind].
        refine (classUnify_mono _ _ _ _ _ _ _ _ _ _ _ _ _ E). intros. eapply unify_mono; eauto. lia.
  - assert (SW : (exists w, bf = Var w) \/ (exists g k0, bf = Gen g k0) -> exists f r, unify f d b (Cls c gs hs) st = Ok r).
    { intros Hb. apply R0; auto. exists nb, na. repeat split; auto.
      destruct b as [w | g k0 | |]; simpl; try lia.
      all: destruct f0; simpl in Ef; [discriminate |]; injection Ef as <-; destruct Hb as [[? Hb] | [? [? Hb]]]; discriminate. }
    inversion Na as [| | | | ? ? ? ng nh Ng Nh]. subst.
    assert (T64 : forall g gs1, gs = g :: gs1 -> ends d g (Lit (LInt 64)) st).
    { intros g gs1 ->. destruct (pb_cls _ _ _ Pa) as [Pg _]. inversion Pg. subst. apply R0; auto; [apply pb64 |].
      destruct (nodess_in _ _ _ Ng g) as [m' [A B]]; [left; auto |].
      exists m', 1. repeat split; auto; [constructor |]. pose proof (flip_le g (Lit (LInt 64))). lia. }
    destruct bf as [w | g' k' | l' | n' gs' hs'].
    1,2: destruct SW as [f [r E]]; eauto; exists (S (f0 + f)), r; simpl;
      rewrite (follow_mono _ _ _ _ (f0 + f) Ef) by lia; cbn [bind]; eapply unify_mono; eauto; lia.
    + destruct (class_ends d (Cls c gs hs) (Lit l') c gs hs (lit_name l') [] [] st) as [f [r E]]; auto.
      * destruct l'; discriminate.
      * intros _ X. destruct l'; discriminate X.
      * intros x y st' _ _ [].
      * exists (S (f0 + f)), r. simpl. rewrite (follow_mono _ _ _ _ (f0 + f) Ef) by lia. cbn [bind].
        refine (classUnify_mono _ _ _ _ _ _ _ _ _ _ _ _ _ E). intros. eapply unify_mono; eauto. lia.
    + pose proof Pf as [Pf1 Pf2]. inversion Pf1 as [| | | ? ? HnI _]. subst.
      inversion Nf as [| | | | ? ? ? ng' nh' Ng' Nh']. subst.
      assert (Pg' : Forall pb gs') by apply (pb_cls _ _ _ Pf). destruct (pb_cls _ _ _ Pa) as [Pg _].
      assert (Lf' : S (ng' + nh') <= nb) by lia.
      destruct (class_ends d (Cls c gs hs) (Cls n' gs' []) c gs hs n' gs' [] st) as [f [r E]]; auto.
      * intros -> ->. apply R0; auto. exists (S (ng' + nh')), (S (ng + nh)). repeat split; auto.
        destruct Lf as [[<- <-] | Lf]; simpl; [lia |]. destruct b; simpl; try lia.
      * intros x y st' S' Hx Hy. rewrite Forall_forall in Pg, Pg'. apply REC; auto.
        destruct (nodess_in _ _ _ Ng x Hx) as [n1 [A1 B1]]. destruct (nodess_in _ _ _ Ng' y Hy) as [n2 [A2 B2]].
        exists n1, n2. repeat split; auto. pose proof (flip_le x y). lia.
      * exists (S (f0 + f)), r. simpl. rewrite (follow_mono _ _ _ _ (f0 + f) Ef) by lia. cbn [bind].
        refine (classUnify_mono _ _ _ _ _ _ _ _ _ _ _ _ _ E). intros. eapply unify_mono; eauto. lia.
Qed.
End Term.
