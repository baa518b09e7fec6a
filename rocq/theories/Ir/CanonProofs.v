From Coq Require Import List ZArith Lia Bool ZifyBool Permutation Floats.SpecFloat.
From Verif.Common Require Import Result Int64.
From Verif.Ir Require Import Num NumProofs Sem SemProofs Fold PassProofs FoldProofs Effects EffectProofs Canon.
Import ListNotations.

(** No [!=] between an int and a float. *)
Fixpoint nomix (e : node) : Prop :=
  match e with
  | Const _ | Break | Continue | VarV _ => True
  | Call f args => fold_right (fun a P => nomix a /\ P) True args /\
      match f with Magic Ne [TInt; TFloat] | Magic Ne [TFloat; TInt] => False | _ => True end
  | Ternary c a b | If c a b => nomix c /\ nomix a /\ nomix b
  | Assign _ e | Return e | Throw e => nomix e
  | Series l => fold_right (fun a P => nomix a /\ P) True l
  | While c b => nomix c /\ nomix b
  | ImpFor _ a _ b body => nomix a /\ nomix b /\ nomix body
  | FlowI f v => nomix f /\ nomix v
  | Try b _ h f => nomix b /\ nomix h /\ nomix f
  end.
Lemma nomix_args l : fold_right (fun a P => nomix a /\ P) True l <-> Forall nomix l.
Proof. induction l; cbn; split; auto; intros H; [constructor; tauto|]. inversion H; subst; tauto. Qed.

(** ** Value level *)
Section Values.
Context (fopq : magic -> spec_float -> spec_float -> spec_float) (fpowi : spec_float -> Z -> spec_float) (py : bool).
Notation sem := (magic_sem fopq fpowi py).

Lemma comm_sem m t a b : commutative m [t; t] = true -> has_ty a t -> has_ty b t -> sem m [a; b] = sem m [b; a].
Proof.
  intros H Ha Hb. destruct t, a, b; try contradiction; destruct m; try discriminate H; cbn; f_equal; f_equal;
    first [f_equal; lia|apply fadd_comm|apply fmul_comm|apply Z.lxor_comm|apply Z.lor_comm|apply Z.land_comm|apply xorb_comm|apply orb_comm|apply andb_comm].
Qed.
Lemma assoc_comm m t : associative m [t; t] = true -> commutative m [t; t] = true.
Proof. destruct m, t; cbn; auto. Qed.
Definition opv (m : magic) (a b : val) : val := match sem m [a; b] with Ok v => v | _ => VNone end.
Lemma opv_sem m t a b : commutative m [t; t] = true -> has_ty a t -> has_ty b t -> sem m [a; b] = Ok (opv m a b) /\ has_ty (opv m a b) t.
Proof.
  intros H Ha Hb. unfold opv.
  assert (exists v, sem m [a; b] = Ok v) as [v E] by (destruct t, a, b; try contradiction; destruct m; try discriminate H; cbn; eauto).
  rewrite E. split; [reflexivity|]. apply (magic_sem_ty fopq fpowi py m [a; b] [t; t] t v); [repeat constructor; assumption| |exact E].
  clear - H. destruct t, m; try discriminate H; reflexivity.
Qed.
Lemma opv_assoc m t a b c : associative m [t; t] = true -> has_ty a t -> has_ty b t -> has_ty c t ->
  opv m (opv m a b) c = opv m a (opv m b c).
Proof.
  intros H Ha Hb Hc. destruct t, a, b, c; try contradiction; destruct m; try discriminate H; unfold opv; cbn; f_equal.
  - rewrite w64_add_l, w64_add_r. f_equal. lia.
  - rewrite w64_mul_l, w64_mul_r. f_equal. lia.
  - apply Z.lxor_assoc.
  - symmetry. apply Z.lor_assoc.
  - symmetry. apply Z.land_assoc.
  - apply xorb_assoc_reverse.
  - symmetry. apply orb_assoc.
  - symmetry. apply andb_assoc.
Qed.
Lemma opv_comm m t a b : commutative m [t; t] = true -> has_ty a t -> has_ty b t -> opv m a b = opv m b a.
Proof. intros H Ha Hb. unfold opv. now rewrite (comm_sem m t a b). Qed.

Section Chain.
Context (m : magic) (t : ty) (HA : associative m [t; t] = true).
Notation op := (opv m).
Notation T := (fun v => has_ty v t).
Let HC := assoc_comm m t HA.
Lemma op_ty a b : T a -> T b -> T (op a b).
Proof. intros. now apply (opv_sem m t a b). Qed.
Lemma fold_ty l : forall x, T x -> Forall T l -> T (fold_left op l x).
Proof. induction l as [|y l IH]; intros x Hx F; cbn; auto. inversion F; subst. apply IH; auto using op_ty. Qed.
Lemma fold_op l : forall x y, T x -> T y -> Forall T l -> fold_left op l (op x y) = op x (fold_left op l y).
Proof.
  induction l as [|z l IH]; intros x y Hx Hy F; cbn; auto. inversion F; subst.
  rewrite <- IH by auto using op_ty. f_equal. apply (opv_assoc m t); auto.
Qed.
Definition fold1 (l : list val) : val := match l with [] => VNone | x :: l => fold_left op l x end.
Lemma fold1_app l1 l2 : l1 <> [] -> l2 <> [] -> Forall T l1 -> Forall T l2 -> fold1 (l1 ++ l2) = op (fold1 l1) (fold1 l2).
Proof.
  intros N1 N2 F1 F2. destruct l1 as [|x l1]; [easy|]. destruct l2 as [|y l2]; [easy|]. cbn. rewrite fold_left_app. cbn.
  inversion F1; inversion F2; subst. apply fold_op; auto. now apply fold_ty.
Qed.
Lemma fold1_cons x l : l <> [] -> T x -> Forall T l -> fold1 (x :: l) = op x (fold1 l).
Proof. intros N Hx F. change (x :: l) with ([x] ++ l). rewrite fold1_app; auto. discriminate. Qed.
Lemma fold1_perm l l' : Permutation l l' -> Forall T l -> fold1 l = fold1 l'.
Proof.
  intros P. induction P as [|x l l' P IH|x y l|l l1 l2 P1 IH1 P2 IH2]; intros F; auto.
  - inversion F; subst. destruct l as [|z l].
    + apply Permutation_nil in P. now subst.
    + assert (N : l' <> []) by (intros ->; apply Permutation_sym, Permutation_nil in P; discriminate).
      rewrite (fold1_cons x (z :: l)), (fold1_cons x l'); auto; [f_equal; auto|eapply Permutation_Forall; eauto|discriminate].
  - inversion F as [|? ? Hy F1]; subst. inversion F1; subst. cbn. f_equal. apply (opv_comm m t); auto.
  - rewrite IH1; auto. apply IH2. eapply Permutation_Forall; eauto.
Qed.
End Chain.

Lemma SFcompare_sym a b : SFcompare a b = match SFcompare b a with Some c => Some (CompOpp c) | None => None end.
Proof.
  destruct a as [[]|[]| |[] m e], b as [[]|[]| |[] m' e']; cbn; auto;
    rewrite (Z.compare_antisym e' e); destruct (e' ?= e)%Z; cbn; auto;
    assert (A : Pos.compare_cont Datatypes.Eq m m' = CompOpp (Pos.compare_cont Datatypes.Eq m' m)) by (rewrite Pos.compare_cont_antisym; reflexivity);
    rewrite A; destruct (Pos.compare_cont _ m' m); auto.
Qed.
Lemma foeq_sym a b : foeq a b = foeq b a.
Proof. unfold foeq, SFeqb. rewrite SFcompare_sym. destruct (SFcompare b a) as [[]|]; auto. Qed.

Lemma flip_sem m m' a b : flip_op m = Some m' ->
  match m, a, b with Ne, VInt _, VFloat _ | Ne, VFloat _, VInt _ => False | _, _, _ => True end ->
  sem m [a; b] = sem m' [b; a].
Proof.
  intros H N. destruct m; try discriminate H; injection H as <-; destruct a as [x|x|x| |], b as [y|y|y| |]; try contradiction N; cbn; try reflexivity;
    try (destruct x, y; reflexivity); try (f_equal; f_equal; first [apply foeq_sym|apply Z.eqb_sym]);
    first [now rewrite Z.eqb_sym|unfold fune; now rewrite (foeq_sym x y : SFeqb x y = _)].
Qed.
End Values.

Section Canon.
Context {W : Type}.
Context (fopq : magic -> spec_float -> spec_float -> spec_float) (fpowi : spec_float -> Z -> spec_float).
Context (py : bool) (uc : ufun (W := W)) (ret : nat -> ty) (tenv : bool -> nat -> ty).
Context (UW : wt_ufun ret tenv uc).
Context (U : bool -> nat -> bool) (UE : uc_ext uc U).
Context (fstat : nat -> status) (gase : bool) (HF : honest uc U fstat).
Notation ev := (ev fopq fpowi py uc).
Notation sem := (magic_sem fopq fpowi py).
Notation wt := (wt ret tenv).
Notation ty_of := (ty_of ret).
Notation sty := (sty ret tenv).
Notation wts := (wt_state (W := W) tenv).
Notation agree := (agree (W := W) U).
Notation uref := (uref fopq fpowi py uc tenv U).
Notation stat := (stat py fstat gase U).
Definition spure (e : node) : Prop := stat e = PURE.

Definition den n s e v : Prop := exists s', ev n e s = Some (Val v, s').
Lemma den_ty n s e v : wt e -> wts s -> den n s e v -> has_ty v (ty_of e).
Proof. intros WT HS [s' E]. pose proof (ev_good fopq fpowi py uc ret tenv UW n e WT s HS) as G. rewrite E in G. apply G. Qed.
Lemma den_agree n s1 s2 e v : rd U e -> agree s1 s2 -> den n s1 e v -> den n s2 e v.
Proof.
  intros RD A [s' E]. pose proof (ev_ext fopq fpowi py uc U UE n e RD s1 s2 A) as H. rewrite E in H.
  destruct (ev n e s2) as [[o2 s2']|] eqn:E2; [|contradiction]. destruct H as [<- _]. exists s2'. auto.
Qed.
Lemma pure_quiet n e s : spure e -> quiet U s (ev n e s).
Proof. intros P. apply (pure_ev fopq fpowi py uc U fstat gase HF); auto. Qed.
Lemma den_bin n s m ts a b v : spure a -> rd U b ->
  den n s (Call (Magic m ts) [a; b]) v <-> exists va vb, den n s a va /\ den n s b vb /\ sem m [va; vb] = Ok v.
Proof.
  intros Pa RD. unfold den at 1. cbn [Sem.ev evs]. pose proof (pure_quiet n a s Pa) as QA. split.
  - intros [s' E]. destruct (ev n a s) as [[oa s1]|] eqn:EA; [|discriminate]. destruct QA as [A [->|[va ->]]]; [discriminate|]. cbn [vbind] in E.
    destruct (ev n b s1) as [[ob s2]|] eqn:EB; [|discriminate]. destruct ob; cbn [vbind rev app call_fn] in E; try discriminate.
    exists va, v0. split; [now exists s1|]. split.
    + apply den_agree with (s1 := s1); auto; [now apply agree_sym|]. now exists s2.
    + destruct (sem m [va; v0]); cbn in E; congruence.
  - intros (va & vb & [s1 EA] & DB & E). rewrite EA in QA |- *. destruct QA as [A _]. cbn [vbind].
    destruct (den_agree n s s1 b vb RD A DB) as [s2 ->]. cbn [vbind rev app call_fn]. rewrite E. cbn. eauto.
Qed.

Lemma uref_of_den e e' : spure e -> spure e' -> rd U e' -> wt e' -> (forall n s v, wts s -> den n s e v -> den n s e' v) -> uref e e'.
Proof.
  intros P P' RD WT H n s1 s2 W1 W2 A o s1' E N. pose proof (pure_quiet n e s1 P) as Q1. rewrite E in Q1. destruct Q1 as [A1 [->|[v ->]]]; [easy|].
  destruct (den_agree n s1 s2 e' v RD A (H n s1 v W1 (ex_intro _ s1' E))) as [s2' E2]. exists s2'. split; auto.
  pose proof (pure_quiet n e' s2 P') as Q2. rewrite E2 in Q2. destruct Q2 as [A2 _].
  pose proof (ev_good fopq fpowi py uc ret tenv UW n e' WT s2 W2) as G. rewrite E2 in G. destruct G as [G _]. split; auto.
  apply agree_trans with (s2 := s1); [now apply agree_sym|]. apply agree_trans with (s2 := s2); auto.
Qed.

Definition ok (e : node) : Prop := wt e /\ spure e.
Definition rn (e : node) : Prop := rd U e /\ nomix e.
(** What each rule guarantees on a pure node. *)
Definition canon_ok (r : rule) : Prop := forall e e', wt e -> spure e -> r e = Ok (Some e') ->
  sty e e' /\ spure e' /\ (rn e -> rn e' /\ forall n s v, wts s -> den n s e v -> den n s e' v).

Lemma bin_inv m ts a b : wt (Call (Magic m ts) [a; b]) -> wt a /\ wt b /\ ts = [ty_of a; ty_of b] /\ exists t, bin_ty m (ty_of a) (ty_of b) = Some t.
Proof. intros ((Wa & Wb & _) & HT & t & Ht). cbn in HT. subst ts. eauto. Qed.
Lemma bin_pure m ts a b : spure (Call (Magic m ts) [a; b]) <-> spure a /\ spure b /\ magic_status py m = PURE.
Proof. unfold spure. cbn. rewrite !smax_pure. tauto. Qed.
Lemma mk_inv m a b e : mk ret m a b = Some e -> e = Call (Magic m [ty_of a; ty_of b]) [a; b] /\ exists t, bin_ty m (ty_of a) (ty_of b) = Some t.
Proof. unfold mk. destruct (bin_ty m (ty_of a) (ty_of b)); [|discriminate]. intros [= <-]. eauto. Qed.
Lemma mk_wt m a b t : wt a -> wt b -> bin_ty m (ty_of a) (ty_of b) = Some t -> wt (Call (Magic m [ty_of a; ty_of b]) [a; b]) /\ ty_of (Call (Magic m [ty_of a; ty_of b]) [a; b]) = t.
Proof. intros Wa Wb H. split; cbn; [|now rewrite H]. split; [auto|]. split; eauto. Qed.
Lemma result_inv matches e n e' : result ret matches e n = Ok (Some e') -> n = Some e' /\ ty_of e' = ty_of e.
Proof.
  unfold result. destruct n as [x|]; [|discriminate]. destruct (ty_eqb _ _) eqn:E; [|discriminate]. cbn. destruct (matches e x); [discriminate|]. intros [= <-].
  split; auto. now apply ty_eqb_eq.
Qed.
Lemma rn_bin m ts a b : rn (Call (Magic m ts) [a; b]) <-> rn a /\ rn b /\ match m, ts with Ne, [TInt; TFloat] | Ne, [TFloat; TInt] => False | _, _ => True end.
Proof. unfold rn. cbn. tauto. Qed.
Lemma flip_status m m' : flip_op m = Some m' -> magic_status py m' = PURE.
Proof. destruct m; intros H; try discriminate H; injection H as <-; reflexivity. Qed.

(** *** Inequalities *)
Lemma ineq_ok gt matches : canon_ok (CanonInequality ret gt matches).
Proof.
  intros e e' WT P. unfold CanonInequality. destruct e as [| |[m ts|] args| | | | | | | | | | | |]; try discriminate.
  destruct args as [|a [|b [|]]]; try discriminate.
  destruct (flip_op m) as [m'|] eqn:FO; [|discriminate]. destruct (gt a b); [|discriminate]. intros H.
  apply result_inv in H as [H HT]. apply mk_inv in H as [-> [t' Ht']]. destruct (bin_inv _ _ _ _ WT) as (Wa & Wb & -> & t & Ht).
  apply bin_pure in P as (Pa & Pb & _). destruct (mk_wt m' b a t' Wb Wa Ht') as [W' T']. split; [split; auto|].
  split; [apply bin_pure; split; auto; split; auto; eapply flip_status; eauto|].
  intros RN. apply rn_bin in RN as (Ra & Rb & N). split.
  - apply rn_bin. split; auto. split; auto. destruct m; try discriminate FO; injection FO as <-; auto. destruct (ty_of a), (ty_of b); auto.
  - intros n s v HS D. apply den_bin in D as (va & vb & Da & Db & E); auto; [|apply Rb].
    apply den_bin; auto; [apply Ra|]. exists vb, va. split; auto. split; auto. rewrite <- E. symmetry. apply flip_sem; auto.
    pose proof (den_ty n s a va Wa HS Da) as Ta. pose proof (den_ty n s b vb Wb HS Db) as Tb.
    destruct m; auto. destruct va, vb; auto; destruct (ty_of a), (ty_of b); contradiction.
Qed.

(** *** Subtraction of a constant *)
Lemma isCallOf2_inv e m a b : isCallOf2 ret e m = Some (a, b) -> wt e -> e = Call (Magic m [ty_of a; ty_of b]) [a; b].
Proof.
  unfold isCallOf2. destruct e as [| |[m' [|t ts]|] args| | | | | | | | | | | |]; try discriminate.
  destruct args as [|a' [|b' [|]]]; try discriminate. destruct (_ && _) eqn:E; [|discriminate]. intros [= <- <-] WT.
  apply andb_prop in E as [E _]. apply magic_eqb_eq in E. subst m'. destruct (bin_inv _ _ _ _ WT) as (_ & _ & E & _). now rewrite E.
Qed.
Lemma const_den n s c v : den n s (Const c) v <-> v = c.
Proof. unfold den. cbn. split; [intros [s' H]; congruence|intros ->; eauto]. Qed.
Lemma const_sub_ok matches : canon_ok (CanonConstSub ret matches).
Proof.
  intros e e' WT P. unfold CanonConstSub. destruct (isCallOf2 _ _ _) as [[a b]|] eqn:E; [|discriminate].
  assert (Ee := isCallOf2_inv _ _ _ _ E WT). subst e. destruct (ty_eqb _ _) eqn:TE; [|discriminate]. apply ty_eqb_eq in TE.
  destruct (bin_inv _ _ _ _ WT) as (Wa & Wb & _ & t & Ht). apply bin_pure in P as (Pa & Pb & _).
  assert (K : forall c c', b = Const c -> has_ty c' (ty_val c) -> ty_val c' = ty_val c -> (forall va v, has_ty va (ty_val c) -> sem Sub [va; c] = Ok v -> sem Add [va; c'] = Ok v) ->
    result ret matches (Call (Magic Sub [ty_of a; ty_of b]) [a; b]) (mk ret Add a (Const c')) = Ok (Some e') ->
    sty (Call (Magic Sub [ty_of a; ty_of b]) [a; b]) e' /\ spure e' /\ (rn (Call (Magic Sub [ty_of a; ty_of b]) [a; b]) -> rn e' /\ forall n s v, wts s -> den n s (Call (Magic Sub [ty_of a; ty_of b]) [a; b]) v -> den n s e' v)).
  { intros c c' -> Hc Tc HS R. apply result_inv in R as [R HT]. apply mk_inv in R as [-> [t' Ht']].
    destruct (mk_wt Add a (Const c') t' Wa) as [W' T']; auto. { cbn. now rewrite Tc. }
    split; [split; auto|]. split; [apply bin_pure; repeat split; auto|]. intros RN. apply rn_bin in RN as (Ra & Rb & _). split.
    - apply rn_bin. repeat split; auto; apply Ra.
    - intros n s v Hs D. apply den_bin in D as (va & vb & Da & Db & Ev); auto; [|apply Rb]. apply const_den in Db. subst vb.
      apply den_bin; auto; [exact I|]. exists va, c'. split; auto. split; [now apply const_den|]. apply HS; auto. cbn in TE. rewrite <- TE. eapply den_ty; eauto. }
  destruct b as [[z|f| | |]| | | | | | | | | | | | | |]; try discriminate.
  - destruct (Z.eqb_spec z min64); [discriminate|]. intros R. cbn in Wb. apply (K (VInt z) (VInt (- z))); cbn; auto.
    + unfold in64, min64, max64 in *. lia.
    + intros va v Hv Ev. destruct va; try contradiction. cbn in Ev |- *. exact Ev.
  - intros R. apply (K (VFloat f) (VFloat (fneg f))); cbn; auto. intros va v Hv Ev. destruct va; try contradiction. cbn in Ev |- *. rewrite <- Ev. f_equal. f_equal. symmetry. apply fsub_neg.
Qed.

(** *** Factoring *)
Lemma int_val n s a : wt a -> wts s -> ty_of a = TInt -> forall v, den n s a v -> exists z, v = VInt z /\ in64 z.
Proof. intros Wa HS T v D. pose proof (den_ty n s a v Wa HS D) as H. rewrite T in H. destruct v; try contradiction. eauto. Qed.
(** [e] is [x * a] up to wrapping *)
Definition prod (e x a : node) : Prop := forall n s v, wts s -> den n s e v ->
  exists vx va, den n s x (VInt vx) /\ den n s a (VInt va) /\ v = VInt (w64 (vx * va)).
Lemma factors_ok e p q : wt e -> spure e -> ty_of e = TInt -> factors ret e = (p, q) ->
  wt p /\ wt q /\ spure p /\ spure q /\ ty_of p = TInt /\ ty_of q = TInt /\ (rn e -> rn p /\ rn q /\ prod e p q /\ prod e q p).
Proof.
  unfold factors. intros WT P T. destruct (isCallOf2 _ _ _) as [[a b]|] eqn:E.
  - intros [= <- <-]. assert (Ee := isCallOf2_inv _ _ _ _ E WT). subst e.
    destruct (bin_inv _ _ _ _ WT) as (Wa & Wb & _ & t & Ht). apply bin_pure in P as (Pa & Pb & _).
    assert (Ta : ty_of a = TInt /\ ty_of b = TInt).
    { cbn in T. destruct (ty_of a), (ty_of b); cbn in T, Ht; try discriminate; auto. }
    destruct Ta as [Ta Tb]. do 6 (split; [auto|]). intros RN. apply rn_bin in RN as (Ra & Rb & _). split; auto. split; auto.
    assert (K : forall n s v, wts s -> den n s (Call (Magic Mul [ty_of a; ty_of b]) [a; b]) v -> exists x y, den n s a (VInt x) /\ den n s b (VInt y) /\ v = VInt (w64 (x * y))).
    { intros n s v HS D. apply den_bin in D as (va & vb & Da & Db & Ev); auto; [|apply Rb].
      destruct (int_val n s a Wa HS Ta va Da) as (x & -> & _). destruct (int_val n s b Wb HS Tb vb Db) as (y & -> & _). cbn in Ev. injection Ev as <-. eauto 6. }
    split; intros n s v HS D; destruct (K n s v HS D) as (x & y & Dx & Dy & ->); [eauto 6|]. exists y, x. repeat split; auto. now rewrite Z.mul_comm.
  - intros [= <- <-]. split; auto. split; [cbn; unfold in64, min64, max64; lia|]. split; auto. split; [reflexivity|]. split; auto. split; auto.
    intros RN. split; auto. split; [split; exact I|]. split; intros n s v HS D; destruct (int_val n s e WT HS T v D) as (x & -> & Hx).
    + exists x, 1%Z. split; auto. split; [now apply const_den|]. now rewrite Z.mul_1_r, w64_id.
    + exists 1%Z, x. split; [now apply const_den|]. split; auto. now rewrite Z.mul_1_l, w64_id.
Qed.
Lemma factors_types e p q : wt e -> factors ret e = (p, q) -> (p = e /\ q = Const (VInt 1)) \/ (exists ts, e = Call (Magic Mul ts) [p; q]).
Proof.
  unfold factors. intros WT. destruct (isCallOf2 _ _ _) as [[a b]|] eqn:E; intros [= <- <-]; auto.
  right. eexists. eapply isCallOf2_inv; eauto.
Qed.
Lemma var_eq a b : varMatch a b = true -> wt a -> wt b -> exists x, a = VarV x /\ b = VarV x.
Proof.
  destruct a as [|x| | | | | | | | | | | | |]; try discriminate. destruct b as [|y| | | | | | | | | | | | |]; try discriminate. cbn. unfold wtv.
  intros E Wx Wy. apply andb_prop in E as [E1 E2]. apply eqb_prop in E1. apply Nat.eqb_eq in E2.
  exists x. split; auto. f_equal. destruct x as [i t g], y as [j t' g']. cbn in *. subst. congruence.
Qed.
Lemma var_den n s x v : den n s (VarV x) v <-> v = get s x.
Proof. unfold den. cbn. split; [intros [s' H]; congruence|intros ->; eauto]. Qed.
Lemma mk_either_inv m a b e : mk_either ret m a b = Some e -> mk ret m a b = Some e \/ (mk ret m a b = None /\ mk ret m b a = Some e).
Proof. unfold mk_either. destruct (mk ret m a b); auto. destruct (mk ret m b a) as [y|]; [|discriminate]. destruct (commutative_op y); [|discriminate]. auto. Qed.
Lemma addMul_ok a b x e' : ty_of a = TInt -> ty_of b = TInt -> ty_of x = TInt -> addMul ret a b x = Some e' ->
  e' = Call (Magic Mul [TInt; TInt]) [Call (Magic Add [TInt; TInt]) [a; b]; x].
Proof.
  intros Ta Tb Tx. unfold addMul, mk_either, mk. rewrite Ta, Tb. cbn [bin_ty is_cmp is_arith is_bit orb]. rewrite Tx. cbn. now intros [= <-].
Qed.
Lemma distr_x a b x e' : addMul ret a b x = Some e' -> distributive_op e' = true -> ty_of x = TInt.
Proof.
  unfold addMul. destruct (mk_either ret Add a b) as [y|]; [|discriminate]. intros H D. apply mk_either_inv in H as [H|[_ H]]; apply mk_inv in H as [-> _]; cbn in D.
  - destruct (ty_of y), (ty_of x); try discriminate; auto.
  - destruct (ty_of x), (ty_of y); try discriminate; auto.
Qed.

Lemma add_mul_ok matches : canon_ok (CanonAddMul ret matches).
Proof.
  intros e e' WT P. unfold CanonAddMul. destruct (isCallOf2 _ _ _) as [[a b]|] eqn:E; [|discriminate].
  assert (Ee := isCallOf2_inv _ _ _ _ E WT). destruct (commutative_op e) eqn:CO; [|discriminate].
  destruct (factors ret a) as [a1 a2] eqn:FA. destruct (factors ret b) as [b1 b2] eqn:FB.
  subst e. destruct (bin_inv _ _ _ _ WT) as (Wa & Wb & _ & t & Ht). apply bin_pure in P as (Pa & Pb & _).
  (* every branch builds (p + q) * x with a = x * p and b = x * q *)
  assert (K : forall p q x x', varMatch x x' = true -> (x = a1 /\ p = a2 \/ x = a2 /\ p = a1) -> (x' = b1 /\ q = b2 \/ x' = b2 /\ q = b1) ->
     addMul ret p q x = Some e' -> distributive_op e' = true -> ty_of e' = ty_of (Call (Magic Add [ty_of a; ty_of b]) [a; b]) ->
     sty (Call (Magic Add [ty_of a; ty_of b]) [a; b]) e' /\ spure e' /\
     (rn (Call (Magic Add [ty_of a; ty_of b]) [a; b]) -> rn e' /\ forall n s v, wts s -> den n s (Call (Magic Add [ty_of a; ty_of b]) [a; b]) v -> den n s e' v)).
  { intros p q x x' VM HX HX' AM DI TE.
    assert (Tx := distr_x _ _ _ _ AM DI).
    assert (TT : ty_of (Call (Magic Add [ty_of a; ty_of b]) [a; b]) = TInt).
    { rewrite <- TE. unfold distributive_op in DI. destruct e' as [| |[m ts|] ?| | | | | | | | | | | |]; try discriminate. cbn.
      destruct m; try discriminate. destruct ts as [|[] [|[] [|]]]; try discriminate. reflexivity. }
    assert (Ta : ty_of a = TInt). { cbn in TT, Ht. destruct (ty_of a), (ty_of b); cbn in TT, Ht; try discriminate; auto. }
    destruct (factors_ok a a1 a2 Wa Pa Ta FA) as (W1 & W2 & P1 & P2 & T1 & T2 & RNa).
    (* b cannot be a bool: its only factor would be the variable x, an int *)
    assert (Tb : ty_of b = TInt).
    { assert (B : ty_of b = TInt \/ ty_of b = TBool) by (cbn in TT, Ht; rewrite Ta in TT, Ht; destruct (ty_of b); cbn in TT, Ht; try discriminate; auto).
      destruct B as [B|B]; auto. exfalso. destruct (factors_types b b1 b2 Wb FB) as [[-> ->]|[ts ->]].
      - destruct HX' as [[-> ->]|[-> ->]]; [|destruct x; discriminate].
        assert (Wx : wt x) by (destruct HX as [[-> _]|[-> _]]; auto).
        destruct (var_eq _ _ VM Wx Wb) as (y & -> & ->). congruence.
      - destruct (bin_inv _ _ _ _ Wb) as (_ & _ & -> & t2 & Ht2). cbn in B. rewrite Ht2 in B. subst t2. destruct (ty_of b1), (ty_of b2); discriminate. }
    destruct (factors_ok b b1 b2 Wb Pb Tb FB) as (W3 & W4 & P3 & P4 & T3 & T4 & RNb).
    assert (Wx : wt x /\ wt x' /\ wt p /\ wt q /\ spure x /\ spure p /\ spure q /\ ty_of p = TInt /\ ty_of q = TInt) by (destruct HX as [[-> ->]|[-> ->]], HX' as [[-> ->]|[-> ->]]; auto 10).
    destruct Wx as (Wx & Wx' & Wp & Wq & Px & Pp & Pq & Tp & Tq).
    destruct (var_eq _ _ VM Wx Wx') as (y & -> & ->).
    rewrite (addMul_ok _ _ _ _ Tp Tq Tx AM) in *. rewrite Ta, Tb in *.
    split; [split; [|now rewrite TE]|].
    { cbn [Sem.wt fold_right map Sem.ty_of magic_ty]. rewrite Tp, Tq, (Tx : vty y = TInt). cbn. repeat split; eauto. }
    split. { apply bin_pure. split; [|split; auto]. apply bin_pure. auto. }
    intros RN. apply rn_bin in RN as (Ra & Rb & _). destruct (RNa Ra) as (R1 & R2 & D1 & D2). destruct (RNb Rb) as (R3 & R4 & D3 & D4).
    assert (RX : rn p /\ rn q /\ rn (VarV y) /\ prod a (VarV y) p /\ prod b (VarV y) q) by (destruct HX as [[<- ->]|[<- ->]], HX' as [[<- ->]|[<- ->]]; auto 10).
    destruct RX as (Rp & Rq & Rx & Dp & Dq). split.
    { apply rn_bin. split; [|auto]. apply rn_bin. auto. }
    intros n s v HS D. apply den_bin in D as (va & vb & Da & Db & Ev); auto; [|apply Rb].
    destruct (Dp n s va HS Da) as (vx & vp & Dx & Dp' & ->). destruct (Dq n s vb HS Db) as (vx' & vq & Dx' & Dq' & ->).
    apply var_den in Dx. apply var_den in Dx'. assert (vx' = vx) by congruence. subst vx'.
    apply den_bin; [apply bin_pure; auto|apply Rx|]. exists (VInt (w64 (vp + vq))), (VInt vx). split; [|split].
    - apply den_bin; auto; [apply Rq|]. exists (VInt vp), (VInt vq). auto.
    - apply var_den. auto.
    - rewrite <- Ev. cbn. f_equal. f_equal. rewrite w64_mul_l, w64_add_l, w64_add_r. f_equal. lia. }
  cbn zeta. destruct (varMatch a1 b1) eqn:V1; [|destruct (varMatch a1 b2) eqn:V2; [|destruct (varMatch a2 b1) eqn:V3; [|destruct (varMatch a2 b2) eqn:V4; [|discriminate]]]];
    destruct (addMul ret _ _ _) as [y|] eqn:AM; try discriminate; (destruct (distributive_op y) eqn:DI; [|discriminate]); intros R; apply result_inv in R as [[= ->] HT].
  - eapply K; eauto.
  - eapply (K a2 b1 a1 b2); eauto.
  - eapply (K a1 b2 a2 b1); eauto.
  - eapply (K a1 b1 a2 b2); eauto.
Qed.

(** *** Operator chains *)
Lemma isCallOf_iff e m t a b : wt e -> e = Call (Magic m [t; t]) [a; b] -> isCallOf ret e m [t; t] t <> None ->
  ty_of a = t /\ ty_of b = t /\ bin_ty m t t = Some t.
Proof.
  intros WT -> H. destruct (isCallOf _ _ _ _ _) as [args|] eqn:E; [|easy]. destruct (isCallOf_inv ret tenv _ _ _ _ _ WT E) as (E1 & E2 & E3 & E4 & _).
  injection E1 as <-. cbn in E2. injection E2 as -> ->. auto.
Qed.
Section OpChain.
Context (m : magic) (t : ty).
Definition leaf (e : node) : Prop := wt e /\ spure e /\ ty_of e = t.
Lemma extract_leaf e : leaf e -> Forall leaf (extract ret m t e) /\ extract ret m t e <> [] /\ (rn e -> Forall rn (extract ret m t e)).
Proof.
  induction e as [v|x|f args FA|c a b IHc IHa IHb|x e IH|l FA|c a b IHc IHa IHb|c b IHc IHb|x a st b body IHa IHb IHbd| | |e IH|e IH|f v IHf IHv|b x h f IHb IHh IHf]
    using node_ind'; intros L; cbn [extract]; try (split; [auto|split; [discriminate|auto]]; fail).
  assert (B : Forall leaf [Call f args] /\ [Call f args] <> [] /\ (rn (Call f args) -> Forall rn [Call f args])) by (repeat split; auto; discriminate).
  destruct args as [|a [|b [|]]]; auto. destruct (isCallOf _ _ _ _ _) as [args|] eqn:E; auto.
  destruct L as (WT & P & T). destruct (isCallOf_inv ret tenv _ _ _ _ _ WT E) as (E1 & E2 & E3 & E4 & E5).
  injection E1 as -> <-. cbn in E2. injection E2 as Ta Tb. apply bin_pure in P as (Pa & Pb & _).
  apply Forall_inv in FA as IHa. apply Forall_inv_tail, Forall_inv in FA as IHb.
  apply Forall_inv in E5 as Wa. apply Forall_inv_tail, Forall_inv in E5 as Wb.
  destruct (IHa (conj Wa (conj Pa Ta))) as (La & Na & Ra). destruct (IHb (conj Wb (conj Pb Tb))) as (Lb & Nb & Rb).
  split; [now apply Forall_app|]. split; [intros H; now apply app_eq_nil in H as [H _]|].
  intros RN. apply rn_bin in RN as (R1 & R2 & _). apply Forall_app. auto.
Qed.
Lemma den_typed n s l vs : wts s -> Forall leaf l -> Forall2 (den n s) l vs -> Forall (fun v => has_ty v t) vs.
Proof. intros HS L F. induction F as [|a v l vs D F IH]; auto. inversion L as [|? ? (Wa & _ & Ta) L']; subst. constructor; auto. rewrite <- Ta. eapply den_ty; eauto. Qed.
Lemma F2_len {A B} (R : A -> B -> Prop) l l' : Forall2 R l l' -> l <> [] -> l' <> [].
Proof. intros F N. destruct F; [easy|discriminate]. Qed.
Lemma extract_den n s e v : associative m [t; t] = true -> wts s -> leaf e -> rn e -> den n s e v ->
  exists vs, Forall2 (den n s) (extract ret m t e) vs /\ v = fold1 fopq fpowi py m vs.
Proof.
  intros HA HS. revert v.
  induction e as [v|x|f args FA|c a b IHc IHa IHb|x e IH|l FA|c a b IHc IHa IHb|c b IHc IHb|x a st b body IHa IHb IHbd| | |e IH|e IH|f v IHf IHv|b x h f IHb IHh IHf]
    using node_ind'; intros v0 L RN D; cbn [extract]; try (exists [v0]; split; auto; fail).
  destruct args as [|a [|b [|]]]; try (exists [v0]; split; auto; fail). destruct (isCallOf _ _ _ _ _) as [args|] eqn:E; [|exists [v0]; split; auto; fail].
  destruct L as (WT & P & T). destruct (isCallOf_inv ret tenv _ _ _ _ _ WT E) as (E1 & E2 & E3 & E4 & E5).
  injection E1 as -> <-. cbn in E2. injection E2 as Ta Tb. apply bin_pure in P as (Pa & Pb & _). apply rn_bin in RN as (Ra & Rb & _).
  apply Forall_inv in FA as IHa. apply Forall_inv_tail, Forall_inv in FA as IHb.
  apply Forall_inv in E5 as Wa. apply Forall_inv_tail, Forall_inv in E5 as Wb.
  apply den_bin in D as (va & vb & Da & Db & Ev); auto; [|apply Rb].
  assert (La : leaf a) by (split; auto). assert (Lb : leaf b) by (split; auto).
  destruct (IHa va La Ra Da) as (vs1 & F1 & ->). destruct (IHb vb Lb Rb Db) as (vs2 & F2 & ->).
  destruct (extract_leaf a La) as (L1 & N1 & _). destruct (extract_leaf b Lb) as (L2 & N2 & _).
  exists (vs1 ++ vs2). split; [now apply Forall2_app|].
  pose proof (den_typed _ _ _ _ HS L1 F1) as T1. pose proof (den_typed _ _ _ _ HS L2 F2) as T2.
  rewrite (fold1_app fopq fpowi py m t HA); auto; [|now apply (F2_len _ _ _ F1)|now apply (F2_len _ _ _ F2)].
  pose proof (den_ty n s a _ Wa HS Da) as H1. pose proof (den_ty n s b _ Wb HS Db) as H2. rewrite Ta in H1. rewrite Tb in H2.
  destruct (opv_sem fopq fpowi py m t _ _ (assoc_comm m t HA) H1 H2) as [H3 _]. rewrite H3 in Ev. now injection Ev as <-.
Qed.
Notation chain c l := (fold_left (fun c z => Call (Magic m [t; t]) [c; z]) l c).
Lemma build_leaf l : bin_ty m t t = Some t -> magic_status py m = PURE -> m <> Ne -> forall x, leaf x -> Forall leaf l -> leaf (chain x l) /\ (rn x -> Forall rn l -> rn (chain x l)).
Proof.
  intros HB HM HN. induction l as [|y l IH]; intros x Lx Ll; cbn; auto. inversion Ll as [|? ? Ly Ll']; subst.
  assert (L : leaf (Call (Magic m [t; t]) [x; y])).
  { destruct Lx as (W1 & P1 & T1), Ly as (W2 & P2 & T2). split; [|split; [apply bin_pure; auto|cbn; now rewrite HB]].
    cbn. rewrite T1, T2. repeat split; auto. eauto. }
  destruct (IH _ L Ll') as [IH1 IH2]. split; auto. intros Rx Rl. inversion Rl; subst. apply IH2; auto. apply rn_bin. repeat split; auto; try apply Rx; try apply H1. destruct m; auto. easy.
Qed.
Lemma build_den n s l : associative m [t; t] = true -> wts s -> forall x v, leaf x -> Forall leaf l -> Forall rn l -> den n s x v -> forall vs, Forall2 (den n s) l vs ->
  den n s (chain x l) (fold_left (opv fopq fpowi py m) vs v).
Proof.
  intros HA HS. assert (HB : bin_ty m t t = Some t) by (destruct m, t; try discriminate HA; reflexivity).
  assert (HM : magic_status py m = PURE) by (destruct m, t; try discriminate HA; reflexivity).
  assert (HN : m <> Ne) by (intros ->; destruct t; discriminate).
  induction l as [|y l IH]; intros x v Lx Ll Rl D vs F; inversion F as [|? v' ? vs' D' F']; subst; cbn; auto.
  inversion Ll as [|? ? Ly Ll']; subst. inversion Rl as [|? ? Ry Rl']; subst.
  destruct (build_leaf [y] HB HM HN x Lx) as [L2 _]; auto. cbn in L2.
  apply IH; auto. destruct Lx as (W1 & P1 & T1), Ly as (W2 & P2 & T2). apply den_bin; auto; [apply Ry|]. exists v, v'. repeat split; auto.
  apply (opv_sem fopq fpowi py m t); [now apply assoc_comm|rewrite <- T1; eapply den_ty; eauto|rewrite <- T2; eapply den_ty; eauto].
Qed.
End OpChain.

Lemma op_chain_ok order matches : (forall l, Permutation l (order l)) -> canon_ok (CanonOpChain ret order matches).
Proof.
  intros HO e e' WT P. unfold CanonOpChain. destruct e as [| |[m ts|] args| | | | | | | | | | | |]; try discriminate. cbn zeta.
  remember (ty_of (Call (Magic m ts) args)) as t eqn:Et.
  destruct (isCallOf _ _ _ _ _) as [ar|] eqn:E; [|discriminate].
  destruct (isCallOf_inv ret tenv _ _ _ _ _ WT E) as (E1 & E2 & E3 & E4 & E5). injection E1 as -> <-. clear E3.
  destruct args as [|a [|b [|]]]; try discriminate. cbn in E2. injection E2 as Ta Tb. symmetry in Et. set (e := Call (Magic m [t; t]) [a; b]) in *.
  assert (P0 := P). apply bin_pure in P0 as (Pa & Pb & PM). apply Forall_inv in E5 as Wa. apply Forall_inv_tail, Forall_inv in E5 as Wb.
  assert (HB : bin_ty m t t = Some t) by exact E4.
  assert (Le : leaf t e) by (split; auto). assert (La : leaf t a) by (split; auto). assert (Lb : leaf t b) by (split; auto).
  destruct (associative m [t; t]) eqn:HA.
  - assert (HC := assoc_comm m t HA). rewrite HC. assert (HN : m <> Ne) by (clear - HA; intros HE; subst m; destruct t; discriminate).
    destruct (extract_leaf m t e Le) as (LL & _ & LR).
    destruct (order (extract ret m t e)) as [|x [|y l]] eqn:EO; try discriminate.
    assert (PE : Permutation (extract ret m t e) (x :: y :: l)) by (rewrite <- EO; apply HO).
    pose proof (Permutation_Forall PE LL) as LX. assert (Lx := Forall_inv LX). assert (LX1 := Forall_inv_tail LX).
    destruct (matches _ _); [discriminate|]. intros [= <-].
    destruct (build_leaf m t (y :: l) HB PM HN x Lx LX1) as [L1 L2]. cbn in L1, L2.
    split; [split; [apply L1|]|split; [apply L1|]].
    { destruct L1 as (_ & _ & ->). symmetry; exact Et. }
    intros RN. pose proof (Permutation_Forall PE (LR RN)) as RX. assert (Rx := Forall_inv RX). assert (RX1 := Forall_inv_tail RX).
    split; auto. intros n s v HS D. destruct (extract_den m t n s e v HA HS Le RN D) as (vs & F & ->).
    destruct (Permutation_Forall2 PE F) as (vs' & PV & F').
    rewrite (fold1_perm fopq fpowi py m t HA vs vs'); auto; [|exact (den_typed t n s _ vs HS LL F)].
    destruct vs' as [|v0 vs1]; [inversion F'|]. assert (D0 : den n s x v0 /\ Forall2 (den n s) (y :: l) vs1) by (inversion F'; auto). destruct D0 as [D0 F1]. cbn. apply (build_den m t n s (y :: l) HA HS x v0); auto.
  - assert (LL : (if commutative m [t; t] then order [a; b] else [a; b]) = [a; b] \/ ((if commutative m [t; t] then order [a; b] else [a; b]) = [b; a] /\ commutative m [t; t] = true)).
    { destruct (commutative m [t; t]); auto. pose proof (HO [a; b]) as PO. apply Permutation_length_2_inv in PO as [->| ->]; auto. }
    destruct LL as [->|[-> HC]]; cbn [fold_left]; (destruct (matches _ _); [discriminate|]); intros [= <-].
    + split; [split; auto|]. split; auto.
    + assert (W' : wt (Call (Magic m [t; t]) [b; a])) by (cbn; rewrite Ta, Tb; repeat split; auto; eauto).
      split; [split; auto|]. split; [apply bin_pure; auto|]. intros RN. apply rn_bin in RN as (Ra & Rb & N).
      split; [apply rn_bin; auto|]. intros n s v HS D. apply den_bin in D as (va & vb & Da & Db & Ev); auto; [|apply Rb].
      apply den_bin; auto; [apply Ra|]. exists vb, va. repeat split; auto. rewrite <- Ev. symmetry.
      apply (comm_sem fopq fpowi py m t); auto; [rewrite <- Ta; eapply den_ty; eauto|rewrite <- Tb; eapply den_ty; eauto].
Qed.

Lemma canon_rules_ok order gt matches : (forall l, Permutation l (order l)) -> Forall canon_ok (canon_rules ret order gt matches).
Proof. intros HO. unfold canon_rules. constructor; [now apply op_chain_ok|]. constructor; [apply ineq_ok|]. constructor; [apply add_mul_ok|]. constructor; [apply const_sub_ok|constructor]. Qed.

Lemma rewrite_canon rules : Forall canon_ok rules -> forall e e', wt e -> spure e -> rewrite rules e = Ok e' ->
  sty e e' /\ spure e' /\ (rn e -> rn e' /\ forall n s v, wts s -> den n s e v -> den n s e' v).
Proof.
  intros F. induction F as [|r rules Hr F IH]; intros e e' WT P; cbn.
  - intros [= <-]. repeat split; auto; apply H.
  - destruct (r e) as [[e1|]| | |] eqn:E; cbn; try discriminate; intros H; [|auto].
    destruct (Hr _ _ WT P E) as ([S1 S2] & P1 & R1). destruct (IH _ _ S1 P1 H) as ([S3 S4] & P2 & R2). split; [split; congruence|]. split; auto.
    intros RN. destruct (R1 RN) as [RN1 D1]. destruct (R2 RN1) as [RN2 D2]. split; auto.
Qed.

(** ** The pass *)
Definition Q (e : node) : Prop := wt e /\ rn e.
Definition R (e e' : node) : Prop := (spure e -> spure e') /\ (Q e -> uref e e' /\ Q e').
Lemma R_refl e : R e e.
Proof. split; auto. intros HQ. split; auto. destruct HQ as (WT & RD & _). now apply (uref_refl fopq fpowi py uc ret tenv UW U UE). Qed.
Lemma R_trans a b c : R a b -> R b c -> R a c.
Proof. intros [P1 H1] [P2 H2]. split; auto. intros HQ. destruct (H1 HQ) as [U1 Q1]. destruct (H2 Q1) as [U2 Q2]. split; auto. eapply uref_trans; eauto. Qed.

Lemma cong_and (A B : node -> node -> Prop) e e' : cong (fun a b => A a b /\ B a b) e e' -> cong A e e' /\ cong B e e'.
Proof. intros H. split; eapply cong_mono; [|exact H| |exact H]; intros a b []; auto. Qed.
Lemma cong_pure e e' : cong (fun a b => spure a -> spure b) e e' -> spure e -> spure e'.
Proof.
  assert (L : forall l l2, Forall2 (fun a b => spure a -> spure b) l l2 -> Forall spure l -> Forall spure l2).
  { intros l l2 F. induction F; intros H1; auto. inversion H1; subst; auto. }
  unfold spure. intros C. inversion C as [f args args' F|c a b c' a' b' Rc Ra Rb|x e0 e0' R0|l l' F|c a b c' a' b' Rc Ra Rb|c b c' b' Rc Rb|x a st b body a' b' body' Ra Rb Rbd|e0 e0' R0|e0 e0' R0|f v f' v' Rf Rv|b x h f b' h' f' Rb Rh Rf|e0]; subst; cbn [Effects.stat];
    rewrite ?smax_pure; try (intuition discriminate).
  - rewrite (pure_args py U fstat gase args), (pure_args py U fstat gase args'). intros [H1 H2]. split; auto. exact (L _ _ F H1).
  - rewrite (pure_args py U fstat gase l), (pure_args py U fstat gase l'). exact (L _ _ F).
Qed.
Lemma cong_nomix e e' : cong (fun a b => nomix a -> nomix b) e e' -> nomix e -> nomix e'.
Proof.
  assert (L : forall l l2, Forall2 (fun a b => nomix a -> nomix b) l l2 -> Forall nomix l -> Forall nomix l2).
  { intros l l2 F. induction F; intros H1; auto. inversion H1; subst; auto. }
  intros C. inversion C; subst; cbn [nomix]; rewrite ?nomix_args; try tauto; try now apply L. intros [H1 H2]. split; auto. eapply L; eauto.
Qed.
Lemma Q_kids e e' : Q e -> cong R e e' -> cong (fun a b => uref a b /\ (rd U a -> rd U b) /\ (nomix a -> nomix b)) e e'.
Proof.
  intros (WT & RD & NM) C.
  assert (K : forall a b, wt a -> rd U a -> nomix a -> R a b -> uref a b /\ (rd U a -> rd U b) /\ (nomix a -> nomix b)).
  { intros a b H1 H2 H3 [_ H]. destruct (H (conj H1 (conj H2 H3))) as [HU (_ & H4 & H5)]. auto. }
  assert (L : forall l l2, Forall2 R l l2 -> Forall wt l -> Forall (rd U) l -> Forall nomix l -> Forall2 (fun a b => uref a b /\ (rd U a -> rd U b) /\ (nomix a -> nomix b)) l l2).
  { intros l l2 F. induction F as [|a b l l2 r F IH]; intros H1 H2 H3; constructor; inversion H1; inversion H2; inversion H3; subst; auto. }
  inversion C; subst; cbn in WT, RD, NM; rewrite ?rd_args, ?nomix_args, ?wt_args in *; constructor; try apply K; try tauto.
  - apply L; try tauto.
  - apply L; auto.
Qed.
Lemma R_cong e e' : wt e -> wt e' -> cong R e e' -> R e e'.
Proof.
  intros H1 H2 C. split.
  - intros P. eapply cong_pure; [|exact P]. eapply cong_mono; [|exact C]. intros a b []; auto.
  - intros HQ. pose proof (Q_kids e e' HQ C) as K. destruct HQ as (WT & RD & NM). apply cong_and in K as [K1 K2]. apply cong_and in K2 as [K2 K3].
    split; [now apply (cong_uref fopq fpowi py uc ret tenv UW U UE)|]. split; auto. split; [eapply rd_cong; eauto|eapply cong_nomix; eauto].
Qed.

Lemma flat_ok e : wt e -> Forall wt (flat e) /\ (rn e -> Forall rn (flat e)) /\ (spure e -> Forall spure (flat e)) /\
  forall n s k, vbind (ev_seq (ev n) (flat e) s) (fun _ s => k s) = vbind (ev n e s) (fun _ s => k s).
Proof.
  induction e as [v|x|f args FA|c a b IHc IHa IHb|x e IH|l FA|c a b IHc IHa IHb|c b IHc IHb|x a st b body IHa IHb IHbd| | |e IH|e IH|f v IHf IHv|b x h f IHb IHh IHf]
    using node_ind'; intros WT; cbn [flat]; try (repeat split; auto; intros n s k; cbn [ev_seq]; match goal with |- context [ev n ?e s] => destruct (ev n e s) as [[[] ?]|] end; reflexivity).
  - split; [now apply wt_args|]. split; [intros [H1 H2]; cbn in H1, H2; apply rd_args in H1; apply nomix_args in H2; clear - H1 H2; induction H1; inversion H2; subst; constructor; auto; split; auto|].
    split; [intros H; now apply (pure_args py U fstat gase) in H|]. reflexivity.
  - destruct WT as [Wf Wv]. destruct (IHf Wf) as (F1 & F2 & F3 & F4). destruct (IHv Wv) as (V1 & V2 & V3 & V4). repeat split.
    + now apply Forall_app.
    + intros [(H1 & H2) (H3 & H4)]. apply Forall_app. split; [apply F2|apply V2]; split; auto.
    + unfold spure. cbn. rewrite smax_pure. intros [H1 H2]. apply Forall_app. auto.
    + intros n s k. cbn [Sem.ev].
      assert (A : forall l1 l2 s, ev_seq (ev n) (l1 ++ l2) s = vbind (ev_seq (ev n) l1 s) (fun _ s => ev_seq (ev n) l2 s)).
      { clear. induction l1 as [|a l IH]; intros l2 s; cbn; auto. destruct (ev n a s) as [[[] s1]|]; cbn; auto. }
      rewrite A. specialize (F4 n s (fun s => vbind (ev_seq (ev n) (flat v) s) (fun _ s => k s))).
      destruct (ev_seq (ev n) (flat f) s) as [[[] s1]|], (ev n f s) as [[[] s2]|]; cbn in F4 |- *; rewrite ?V4 in F4; rewrite ?V4; auto.
Qed.

Context (order : list node -> list node) (gt matches : node -> node -> bool) (HO : forall l, Permutation l (order l)).
Context (se : node -> bool) (HSE : forall e, se e = false -> hasSideEffect py fstat gase U e = false).
Lemma canon_handle_ok rules : incl rules (canon_rules ret order gt matches) ->
  forall e0 e e', wt e0 -> sty e0 e -> R e0 e -> canon_handle se rules e0 e = Ok e' -> sty e e' /\ R e e'.
Proof.
  intros HI e0 e e' W0 [WT _] [RP _]. unfold canon_handle.
  assert (B : e' = e -> sty e e' /\ R e e') by (intros ->; split; [split; auto|apply R_refl]).
  destruct e as [| |f args| | |l| | | | | | | | |]; try (intros [= <-]; auto; fail).
  - destruct (se e0) eqn:E; [intros [= <-]; auto|]. intros H. apply HSE, has_se in E.
    assert (F : Forall canon_ok rules). { apply Forall_forall. intros r Hr. apply HI in Hr. pose proof (canon_rules_ok order gt matches HO) as F. rewrite Forall_forall in F. auto. }
    destruct (rewrite_canon rules F _ _ WT (RP E) H) as (S1 & P1 & D). split; auto. split; auto.
    intros (_ & RN). destruct (D RN) as [RN1 D1]. split; [|split; [apply S1|auto]].
    apply uref_of_den; auto; [apply RN1|apply S1].
  - intros [= <-]. cbn in WT. apply wt_args in WT.
    assert (K : Forall wt (flat_map flat l) /\ (rn (Series l) -> Forall rn (flat_map flat l)) /\ (spure (Series l) -> Forall spure (flat_map flat l)) /\ forall n s, ev_seq (ev n) (flat_map flat l) s = ev_seq (ev n) l s).
    { clear B RP. induction WT as [|a l Wa WT (I1 & I2 & I3 & I4)]; cbn [flat_map]; [repeat split; auto|].
      destruct (flat_ok a Wa) as (A1 & A2 & A3 & A4). repeat split.
      - now apply Forall_app.
      - intros [(H1 & H2) (H3 & H4)]. apply Forall_app. split; [apply A2; split; auto|apply I2; split; auto].
      - unfold spure. cbn. rewrite smax_pure. intros [H1 H2]. apply Forall_app. auto.
      - intros n s. cbn [ev_seq]. specialize (A4 n s (ev_seq (ev n) l)).
        assert (A : forall l1 l2 s, ev_seq (ev n) (l1 ++ l2) s = vbind (ev_seq (ev n) l1 s) (fun _ s => ev_seq (ev n) l2 s)).
        { clear. induction l1 as [|a l IH]; intros l2 s; cbn; auto. destruct (ev n a s) as [[[] s1]|]; cbn; auto. }
        rewrite A, <- A4. destruct (ev_seq (ev n) (flat a) s) as [[[] s1]|]; cbn; auto. }
    destruct K as (K1 & K2 & K3 & K4). assert (W' : wt (Series (flat_map flat l))) by (cbn; now apply wt_args).
    split; [split; auto|]. split; [intros P; unfold spure; cbn; apply (pure_args py U fstat gase); auto|].
    intros (W1 & RN). assert (RN' : rn (Series (flat_map flat l))).
    { specialize (K2 RN). split; cbn; [apply rd_args|apply nomix_args]; eapply Forall_impl; try exact K2; intros a []; auto. }
    split; [|split; auto]. intros n s1 s2 H1 H2 A. cbn [Sem.ev]. rewrite K4.
    apply (uref_refl fopq fpowi py uc ret tenv UW U UE (Series l)); auto. apply RN.
Qed.
Lemma canon_pass_ok rules e e' : incl rules (canon_rules ret order gt matches) -> wt e -> canon_pass se rules e = Ok e' -> sty e e' /\ R e e'.
Proof.
  intros HI WT H. apply (bottom_up_ok ret tenv R (canon_handle se rules) R_trans R_cong (canon_handle_ok rules HI)); auto.
Qed.
End Canon.
