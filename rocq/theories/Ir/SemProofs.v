(** Induction on nodes, preservation of types, and refinement in context. *)
From Coq Require Import List ZArith Lia Bool ZifyBool Floats.SpecFloat.
From Verif.Common Require Import Result Int64.
From Verif.Ir Require Import Num NumProofs Sem.
Import ListNotations.
Local Open Scope Z_scope.

Section Ind.
Context (P : node -> Prop).
Context (HConst : forall v, P (Const v)) (HVar : forall x, P (VarV x))
  (HCall : forall f args, Forall P args -> P (Call f args))
  (HTern : forall c a b, P c -> P a -> P b -> P (Ternary c a b))
  (HAssign : forall x e, P e -> P (Assign x e))
  (HSeries : forall l, Forall P l -> P (Series l))
  (HIf : forall c a b, P c -> P a -> P b -> P (If c a b))
  (HWhile : forall c b, P c -> P b -> P (While c b))
  (HFor : forall x a st b body, P a -> P b -> P body -> P (ImpFor x a st b body))
  (HBreak : P Break) (HCont : P Continue)
  (HRet : forall e, P e -> P (Return e)) (HThrow : forall e, P e -> P (Throw e))
  (HFlow : forall f v, P f -> P v -> P (FlowI f v))
  (HTry : forall b x h f, P b -> P h -> P f -> P (Try b x h f)).
Fixpoint node_ind' (e : node) : P e :=
  let lst := fix lst (l : list node) : Forall P l :=
    match l with [] => Forall_nil P | x :: l => Forall_cons x (node_ind' x) (lst l) end in
  match e with
  | Const v => HConst v
  | VarV x => HVar x
  | Call f args => HCall f args (lst args)
  | Ternary c a b => HTern c a b (node_ind' c) (node_ind' a) (node_ind' b)
  | Assign x e => HAssign x e (node_ind' e)
  | Series l => HSeries l (lst l)
  | If c a b => HIf c a b (node_ind' c) (node_ind' a) (node_ind' b)
  | While c b => HWhile c b (node_ind' c) (node_ind' b)
  | ImpFor x a st b body => HFor x a st b body (node_ind' a) (node_ind' b) (node_ind' body)
  | Break => HBreak
  | Continue => HCont
  | Return e => HRet e (node_ind' e)
  | Throw e => HThrow e (node_ind' e)
  | FlowI f v => HFlow f v (node_ind' f) (node_ind' v)
  | Try b x h f => HTry b x h f (node_ind' b) (node_ind' h) (node_ind' f)
  end.
End Ind.

Lemma out_ub (o : out) : o = UB \/ o <> UB.
Proof. destruct o; auto; right; discriminate. Qed.

Section Typing.
Context {W : Type}.
Context (fopq : magic -> spec_float -> spec_float -> spec_float) (fpowi : spec_float -> Z -> spec_float).
Context (py : bool) (uc : ufun (W := W)) (ret : nat -> ty) (tenv : bool -> nat -> ty).
Context (UW : wt_ufun ret tenv uc).
Notation ev := (ev fopq fpowi py uc).
Notation wt := (wt ret tenv).
Notation ty_of := (ty_of ret).
Notation wts := (wt_state (W := W) tenv).

Lemma wt_args args : fold_right (fun a P => wt a /\ P) True args <-> Forall wt args.
Proof. induction args; cbn; split; auto; intros H; [constructor; tauto|]. inversion H; subst; tauto. Qed.

Lemma set_wt s x v : wts s -> wtv tenv x -> has_ty v (vty x) -> wts (set s x v).
Proof.
  intros [H1 H2] Hx Hv. unfold wtv in Hx. unfold set. destruct x as [i t g]. cbn in *. subst t.
  destruct g; split; cbn; auto; intros k; unfold put; destruct (Nat.eqb_spec k i) as [->|]; auto.
Qed.
Lemma get_wt s x : wts s -> wtv tenv x -> has_ty (get s x) (vty x).
Proof. intros [H1 H2] Hx. unfold wtv in Hx. unfold get. rewrite Hx. destruct (vglobal x); auto. Qed.

Definition good (t : ty) (r : step_t (W := W)) : Prop :=
  match r with
  | None => True
  | Some (o, s) => wts s /\ match o with Val v => has_ty v t | Exn v => has_ty v (TObj 0) | _ => True end
  end.

Lemma good_vbind t t' r k : good t r -> (forall v s, wts s -> has_ty v t -> good t' (k v s)) -> good t' (vbind r k).
Proof. destruct r as [[[v| | |v|v|] s]|]; cbn; auto. intros [H1 H2] H. auto. Qed.
Lemma good_cond t v s k : wts s -> (forall b, good t (k b)) -> good t (cond_b v s k).
Proof. intros Hs H. destruct v; cbn; auto. Qed.
Lemma good_noval t r : good t r -> good TNone (no_val r).
Proof. intros H. unfold no_val. eapply good_vbind; eauto. cbn. auto. Qed.

Lemma good_while m c b t s : (forall s, wts s -> good TBool (c s)) -> (forall s, wts s -> good t (b s)) ->
  wts s -> good TNone (while_loop m c b s).
Proof.
  intros Hc Hb. revert s. induction m as [|m IH]; intros s Hs; cbn; auto.
  eapply good_vbind; [now apply Hc|]. intros v s1 Hs1 _. apply good_cond; auto. intros [].
  - specialize (Hb s1 Hs1). destruct (b s1) as [[[v1| | |v1|v1|] s2]|]; cbn in *; try tauto; apply IH; tauto.
  - cbn; auto.
Qed.
Lemma good_for m x step stop b t : wtv tenv x -> vty x = TInt -> (forall s, wts s -> good t (b s)) ->
  forall i s, in64 i -> wts s -> good TNone (for_loop m x i step stop b s).
Proof.
  intros Hx Tx Hb. induction m as [|m IH]; intros i s Hi Hs; cbn [for_loop]; [exact I|].
  destruct (if 0 <? step then stop <=? i else i <=? stop); [cbn; auto|].
  assert (Hs1 : wts (set s x (VInt i))). { apply set_wt; auto. now rewrite Tx. }
  specialize (Hb _ Hs1). destruct (b _) as [[[v1| | |v1|v1|] s2]|]; cbn in *; try tauto; apply IH; try apply w64_in; tauto.
Qed.

Lemma good_call f ts vs s : wts s ->
  match f with Magic m ts' => ts' = ts /\ Forall2 has_ty vs ts /\ exists t, magic_ty m ts = Some t | User _ => True end ->
  good (ty_of (Call f [])) (call_fn fopq fpowi py uc f vs s).
Proof.
  intros Hs. destruct f as [m ts'|f]; cbn [Sem.ty_of call_fn].
  - intros (-> & F & t & Ht). rewrite Ht. destruct (magic_sem fopq fpowi py m vs) as [v|e| |] eqn:E; cbn; auto.
    split; auto. eapply magic_sem_ty; eauto.
  - intros _. destruct (uc f vs (glo s) (wld s)) as [[[o g] w]|] eqn:E; cbn; [|auto].
    destruct (UW _ _ _ _ _ _ _ E (proj2 Hs)) as (G & HO). destruct o; cbn; split; auto; split; cbn; auto; apply Hs.
Qed.

Lemma good_evs n f args : Forall (fun a => wt a -> forall s, wts s -> good (ty_of a) (ev n a s)) args ->
  Forall wt args -> forall ts0 acc s, wts s -> Forall2 has_ty (rev acc) ts0 ->
  match f with Magic m ts => ts = ts0 ++ map ty_of args /\ exists t, magic_ty m ts = Some t | User _ => True end ->
  good (ty_of (Call f [])) (evs (ev n) args s acc (call_fn fopq fpowi py uc f)).
Proof.
  intros FA FW. induction args as [|a args IH]; intros ts0 acc s Hs F2 Hf; cbn [evs].
  - apply good_call with (ts := ts0); auto. destruct f as [m ts|]; auto. destruct Hf as (-> & H). cbn in *. rewrite app_nil_r in *. auto.
  - inversion FA; subst. inversion FW; subst. eapply good_vbind; [auto|]. intros v s1 Hs1 Hv.
    apply IH with (ts0 := ts0 ++ [ty_of a]); auto.
    + cbn. apply Forall2_app; auto.
    + destruct f as [m ts|]; auto. cbn [map] in Hf. now rewrite <- app_assoc.
Qed.

Lemma good_val_ty v t : has_ty v t -> ty_val v = t.
Proof. destruct v, t; cbn; intros H; try contradiction; subst; auto. Qed.

Lemma ev_good n e : wt e -> forall s, wts s -> good (ty_of e) (ev n e s).
Proof.
  induction e as [v|x|f args FA|c a b IHc IHa IHb|x e IH|l FA|c a b IHc IHa IHb|c b IHc IHb|x a st b body IHa IHb IHbd| | |e IH|e IH|f v IHf IHv|b x h f IHb IHh IHf]
    using node_ind'; intros WT s Hs; cbn [Sem.ev].
  - cbn. split; auto.
  - cbn. split; auto. now apply get_wt.
  - destruct WT as (WA & Hf). apply wt_args in WA.
    replace (ty_of (Call f args)) with (ty_of (Call f [])) by (destruct f; reflexivity).
    apply good_evs with (ts0 := []); auto.
    + constructor.
    + destruct f; auto. destruct Hf as (E & H). auto.
  - destruct WT as (Wc & Wa & Wb & Tc & Tab). eapply good_vbind; [now apply IHc|]. intros v s1 Hs1 _. apply good_cond; auto.
    intros []; [now apply IHa|]. cbn [Sem.ty_of]. rewrite Tab. now apply IHb.
  - destruct WT as (Wx & We & T). eapply good_vbind; [now apply IH|]. intros v s1 Hs1 Hv. cbn. split; auto. apply set_wt; auto. now rewrite <- T.
  - cbn in WT. apply wt_args in WT. revert s Hs. induction l as [|a l IHl]; intros s Hs; cbn; auto.
    inversion FA; subst. inversion WT; subst. eapply good_vbind; [auto|]. intros v s1 Hs1 _. now apply IHl.
  - destruct WT as (Wc & Wa & Wb & Tc & Ta & Tb). eapply good_vbind; [now apply IHc|]. intros v s1 Hs1 _. apply good_cond; auto.
    intros []; eapply good_noval; [now apply IHa|now apply IHb].
  - destruct WT as (Wc & Wb & Tc). eapply good_while; auto. rewrite <- Tc. auto.
  - destruct WT as (Wx & Wa & Wb & Wbd & Ta & Tb & Tx). eapply good_vbind; [now apply IHa|]. intros i s1 Hs1 Hi.
    eapply good_vbind; [now apply IHb|]. intros j s2 Hs2 _. rewrite Ta in Hi. destruct i; try contradiction. destruct j; cbn; auto.
    eapply good_for; eauto.
  - cbn. auto.
  - cbn. auto.
  - eapply good_vbind; [now apply IH|]. cbn. auto.
  - destruct WT as (We & T). eapply good_vbind; [now apply IH|]. intros v s1 Hs1 Hv. rewrite T in Hv. cbn. auto.
  - destruct WT as (Wf & Wv). eapply good_vbind; [now apply IHf|]. intros; now apply IHv.
  - destruct WT as (Wx & Wb & Wh & Wf & Tx).
    assert (G : good TNone (no_val (match ev n b s with Some (Exn v, s) => ev n h (set s x v) | r => r end))).
    { pose proof (IHb Wb s Hs) as G. destruct (ev n b s) as [[[v| | |v|v|] s1]|]; cbn in G |- *; try tauto.
      eapply good_noval. apply IHh; auto. apply set_wt; try tauto. rewrite Tx. tauto. }
    destruct (no_val _) as [[o s1]|]; [|exact I]. destruct G as (Hs1 & Ho).
    assert (GF : good TNone (fin_after o (ev n f s1))).
    { pose proof (IHf Wf s1 Hs1) as G. unfold fin_after. destruct (ev n f s1) as [[[v| | |v|v|] s2]|]; cbn in G |- *; try tauto. }
    destruct o; auto. cbn. auto.
Qed.

(** ** Refinement: every defined result of [e] is the result of [e'] *)
Definition rle (a b : step_t (W := W)) : Prop := forall r, a = Some r -> fst r <> UB -> b = Some r.
Definition ref (e e' : node) : Prop := forall n s, wts s -> rle (ev n e s) (ev n e' s).

Lemma rle_refl a : rle a a.
Proof. intros r H _. exact H. Qed.
Lemma rle_trans a b c : rle a b -> rle b c -> rle a c.
Proof. intros H1 H2 r E N. apply H2; auto. Qed.
Lemma ref_refl e : ref e e.
Proof. intros n s _. apply rle_refl. Qed.
Lemma ref_trans e1 e2 e3 : ref e1 e2 -> ref e2 e3 -> ref e1 e3.
Proof. intros H1 H2 n s Hs. eapply rle_trans; eauto. Qed.
Lemma rle_vbind t c c' k k' : good t c -> rle c c' -> (forall v s, wts s -> has_ty v t -> rle (k v s) (k' v s)) -> rle (vbind c k) (vbind c' k').
Proof.
  intros G H HK r E N. destruct c as [[o s]|]; [|discriminate].
  assert (o <> UB). { intros ->. cbn in E. injection E as <-. now cbn in N. }
  rewrite (H (o, s)) by auto. destruct o; cbn in E |- *; try exact E. destruct G. apply HK; auto.
Qed.
Lemma rle_cond v s k k' : (forall b, rle (k b) (k' b)) -> rle (cond_b v s k) (cond_b v s k').
Proof. intros H. destruct v; cbn; auto using rle_refl. Qed.
Lemma rle_noval r r' : rle r r' -> rle (no_val r) (no_val r').
Proof.
  intros H x E N. destruct r as [[o s]|]; [|discriminate].
  assert (o <> UB). { intros ->. cbn in E. injection E as <-. now cbn in N. }
  now rewrite (H (o, s)).
Qed.

Inductive cong (R : node -> node -> Prop) : node -> node -> Prop :=
| CCall f args args' : Forall2 R args args' -> cong R (Call f args) (Call f args')
| CTern c a b c' a' b' : R c c' -> R a a' -> R b b' -> cong R (Ternary c a b) (Ternary c' a' b')
| CAssign x e e' : R e e' -> cong R (Assign x e) (Assign x e')
| CSeries l l' : Forall2 R l l' -> cong R (Series l) (Series l')
| CIf c a b c' a' b' : R c c' -> R a a' -> R b b' -> cong R (If c a b) (If c' a' b')
| CWhile c b c' b' : R c c' -> R b b' -> cong R (While c b) (While c' b')
| CFor x a st b body a' b' body' : R a a' -> R b b' -> R body body' -> cong R (ImpFor x a st b body) (ImpFor x a' st b' body')
| CRet e e' : R e e' -> cong R (Return e) (Return e')
| CThrow e e' : R e e' -> cong R (Throw e) (Throw e')
| CFlow f v f' v' : R f f' -> R v v' -> cong R (FlowI f v) (FlowI f' v')
| CTry b x h f b' h' f' : R b b' -> R h h' -> R f f' -> cong R (Try b x h f) (Try b' x h' f')
| CLeaf e : cong R e e.

Lemma cong_mono (R R' : node -> node -> Prop) e e' : (forall a b, R a b -> R' a b) -> cong R e e' -> cong R' e e'.
Proof.
  intros H C. assert (L : forall l l', Forall2 R l l' -> Forall2 R' l l') by (intros l l' F; induction F; auto).
  inversion C; subst; constructor; auto.
Qed.

Lemma rle_evs n f args args' : Forall2 ref args args' -> Forall wt args -> forall s acc, wts s ->
  rle (evs (ev n) args s acc (call_fn fopq fpowi py uc f)) (evs (ev n) args' s acc (call_fn fopq fpowi py uc f)).
Proof.
  intros F WT. induction F as [|a a' l l' Ra F IH]; intros s acc Hs; cbn; [apply rle_refl|].
  inversion WT; subst. eapply rle_vbind; [apply ev_good; auto|now apply Ra|]. intros. now apply IH.
Qed.

Lemma cong_ref e e' : wt e -> cong ref e e' -> ref e e'.
Proof.
  intros WT C n s Hs. inversion C as [f args args' F|c a b c' a' b' Rc Ra Rb|x e0 e0' R|l l' F|c a b c' a' b' Rc Ra Rb|c b c' b' Rc Rb|x a st b body a' b' body' Ra Rb Rbd|e0 e0' R|e0 e0' R|f v f' v' Rf Rv|b x h f b' h' f' Rb Rh Rf|e0]; subst; cbn [Sem.ev].
  - destruct WT as (WA & _). apply wt_args in WA. now apply rle_evs.
  - destruct WT as (Wc & Wa & Wb & Tc & Tab). eapply rle_vbind; [apply ev_good; auto|now apply Rc|]. intros v s1 Hs1 _. apply rle_cond. intros []; auto.
  - destruct WT as (Wx & We & T). eapply rle_vbind; [apply ev_good; auto|now apply R|]. intros; apply rle_refl.
  - cbn in WT. apply wt_args in WT. revert s Hs WT. clear C. induction F as [|a a' l l' Ra F IH]; intros s Hs WT; cbn; [apply rle_refl|].
    inversion WT; subst. eapply rle_vbind; [apply ev_good; auto|now apply Ra|]. intros. now apply IH.
  - destruct WT as (Wc & Wa & Wb & Tc & Ta & Tb). eapply rle_vbind; [apply ev_good; auto|now apply Rc|]. intros v s1 Hs1 _. apply rle_cond. intros []; apply rle_noval; auto.
  - destruct WT as (Wc & Wb & Tc). generalize n at 1 4 as m. intros m. revert s Hs. induction m as [|m IH]; intros s Hs; cbn; [apply rle_refl|].
    eapply rle_vbind; [apply ev_good; auto|now apply Rc|]. intros v s1 Hs1 _. apply rle_cond. intros []; [|apply rle_refl].
    pose proof (ev_good n b Wb s1 Hs1) as G. intros r E N. pose proof (Rb n s1 Hs1) as H. destruct (ev n b s1) as [[o s2]|]; [|discriminate].
    assert (o <> UB). { intros ->. injection E as <-. now cbn in N. }
    rewrite (H (o, s2)) by auto. destruct G. destruct o; auto; now apply IH.
  - destruct WT as (Wx & Wa & Wb & Wbd & Ta & Tb & Tx). eapply rle_vbind; [apply ev_good; auto|now apply Ra|]. intros i s1 Hs1 Hi.
    eapply rle_vbind; [apply ev_good; auto|now apply Rb|]. intros j s2 Hs2 _. rewrite Ta in Hi. destruct i; try contradiction. destruct j; try apply rle_refl.
    rename z into i, z0 into j. cbn in Hi.
    generalize n at 1 3 as m. intros m. revert i s2 Hi Hs2. induction m as [|m IH]; intros i s2 Hi Hs2; cbn [for_loop]; [apply rle_refl|].
    destruct (if 0 <? st then j <=? i else i <=? j); [apply rle_refl|].
    assert (Hs3 : wts (set s2 x (VInt i))). { apply set_wt; auto. now rewrite Tx. }
    pose proof (ev_good n body Wbd _ Hs3) as G. intros r E N. pose proof (Rbd n _ Hs3) as H. destruct (ev n body _) as [[o s4]|]; [|discriminate].
    assert (o <> UB). { intros ->. injection E as <-. now cbn in N. }
    rewrite (H (o, s4)) by auto. destruct G. destruct o; auto; apply IH; auto using w64_in.
  - eapply rle_vbind; [apply ev_good; auto|now apply R|]. intros; apply rle_refl.
  - destruct WT as (We & T). eapply rle_vbind; [apply ev_good; auto|now apply R|]. intros; apply rle_refl.
  - destruct WT as (Wf & Wv). eapply rle_vbind; [apply ev_good; auto|now apply Rf|]. intros; now apply Rv.
  - destruct WT as (Wx & Wb & Wh & Wf & Tx).
    assert (G : good TNone (no_val (match ev n b s with Some (Exn v, s) => ev n h (set s x v) | r => r end))).
    { pose proof (ev_good n b Wb s Hs) as G. destruct (ev n b s) as [[[v| | |v|v|] s1]|]; cbn in G |- *; try tauto.
      eapply good_noval. apply ev_good; auto. apply set_wt; try tauto. rewrite Tx. tauto. }
    assert (L : rle (no_val (match ev n b s with Some (Exn v, s) => ev n h (set s x v) | r => r end))
                    (no_val (match ev n b' s with Some (Exn v, s) => ev n h' (set s x v) | r => r end))).
    { apply rle_noval. intros r E N. pose proof (ev_good n b Wb s Hs) as Gb. pose proof (Rb n s Hs) as H. destruct (ev n b s) as [[o s1]|]; [|discriminate].
      assert (o <> UB). { intros ->. injection E as <-. now cbn in N. }
      rewrite (H (o, s1)) by auto. destruct Gb as (Hs1 & Ho). destruct o; auto. apply Rh; auto. apply set_wt; auto. now rewrite Tx. }
    intros r E N. destruct (no_val (match ev n b s with Some (Exn v, s) => ev n h (set s x v) | r => r end)) as [[o s1]|]; [|discriminate].
    destruct G as (Hs1 & Ho). destruct (out_ub o) as [->|No]; [injection E as <-; now cbn in N|].
    rewrite (L (o, s1)) by auto. assert (E' : fin_after o (ev n f s1) = Some r) by (destruct o; auto; now destruct No).
    assert (fin_after o (ev n f' s1) = Some r). 2:{ destruct o; auto; now destruct No. }
    pose proof (Rf n s1 Hs1) as HF. destruct (ev n f s1) as [[o2 s2]|]; [|discriminate].
    destruct (out_ub o2) as [->|No2]; [injection E' as <-; now cbn in N|]. rewrite (HF (o2, s2)) by auto. exact E'.
  - apply rle_refl.
Qed.
End Typing.
