(** Correctness of the folding rules. *)
From Coq Require Import List ZArith Lia Bool ZifyBool Floats.SpecFloat.
From Verif.Common Require Import Result Int64.
From Verif.Ir Require Import Num NumProofs FloatProofs Sem SemProofs Fold PassProofs.
Import ListNotations.
Local Open Scope Z_scope.

Lemma magic_eqb_eq a b : magic_eqb a b = true -> a = b.
Proof. destruct a, b; cbn; congruence. Qed.
Lemma ty_eqb_eq a b : ty_eqb a b = true -> a = b.
Proof. destruct a, b; cbn; try congruence. intros H. apply Nat.eqb_eq in H. congruence. Qed.
Lemma tys_eqb_eq a b : tys_eqb a b = true -> a = b.
Proof.
  revert b. induction a as [|x a IH]; intros [|y b]; cbn; try congruence.
  intros H. apply andb_prop in H as [H1 H2]. apply ty_eqb_eq in H1. apply IH in H2. congruence.
Qed.

Section CppProofs.
Context (wrap : bool).
Lemma cpp_w64 z r : cpp wrap z = Ok r -> r = w64 z.
Proof.
  unfold cpp. destruct (in64b z) eqn:E.
  - intros [= <-]. symmetry. apply w64_id. now apply in64b_spec.
  - destruct wrap; congruence.
Qed.
Lemma cpp_wrap z : cpp true z = Ok (w64 z).
Proof. unfold cpp. destruct (in64b z) eqn:E; auto. apply in64b_spec in E. now rewrite w64_id. Qed.

Lemma pyDivmod_ok a b r : pyDivmod wrap a b = Ok r -> divmod_int_int a b = Ok r.
Proof.
  unfold pyDivmod, divmod_int_int, cpp_div, sdiv. destruct (_ || _); [discriminate|]. cbn [bind].
  destruct (cpp wrap (_ * b)) as [t| | |] eqn:E1; try discriminate. apply cpp_w64 in E1. cbn [bind]. subst t.
  destruct (cpp wrap (a - _)) as [m| | |] eqn:E2; try discriminate. apply cpp_w64 in E2. cbn [bind]. subst m.
  destruct (_ && _); auto.
  destruct (cpp wrap (_ + b)) as [m| | |] eqn:E1; try discriminate. apply cpp_w64 in E1. cbn [bind]. subst m.
  destruct (cpp wrap (_ - 1)) as [d| | |] eqn:E2; try discriminate. apply cpp_w64 in E2. cbn [bind]. now subst d.
Qed.
Lemma int_pow_loop_ok n : forall b e x r, int_pow_loop wrap n b e x = Ok r -> ipow_loop n b e x = Ok r.
Proof.
  induction n as [|n IH]; intros b e x r; cbn; [discriminate|].
  destruct (negb _).
  - destruct (cpp wrap (x * b)) as [x'| | |] eqn:E1; try discriminate. apply cpp_w64 in E1. cbn [bind]. subst x'.
    destruct (_ =? 0); auto. destruct (cpp wrap (b * b)) as [b'| | |] eqn:E2; try discriminate. apply cpp_w64 in E2. cbn [bind]. subst b'. apply IH.
  - cbn [bind]. destruct (_ =? 0); auto. destruct (cpp wrap (b * b)) as [b'| | |] eqn:E2; try discriminate. apply cpp_w64 in E2. cbn [bind]. subst b'. apply IH.
Qed.
Lemma int_pow_ok b e r : int_pow wrap b e = Ok r -> ipow b e = Ok r.
Proof. unfold int_pow, ipow. destruct (e <? 0); auto. apply int_pow_loop_ok. Qed.
End CppProofs.

Section Fold.
Context {W : Type}.
Context (fopq : magic -> spec_float -> spec_float -> spec_float) (fpowi : spec_float -> Z -> spec_float).
Context (py : bool) (uc : ufun (W := W)) (ret : nat -> ty) (tenv : bool -> nat -> ty) (wrap : bool).
Context (UW : wt_ufun ret tenv uc).
Notation ev := (ev fopq fpowi py uc).
Notation ref := (ref fopq fpowi py uc tenv).
Notation eqv := (eqv fopq fpowi py uc tenv).
Notation wt := (wt ret tenv).
Notation ty_of := (ty_of ret).
Notation sty := (sty ret tenv).
Notation sem := (magic_sem fopq fpowi py).

Lemma isCallOf_inv e m ins out args : wt e -> isCallOf ret e m ins out = Some args ->
  e = Call (Magic m ins) args /\ map ty_of args = ins /\ ty_of e = out /\ magic_ty m ins = Some out /\ Forall wt args.
Proof.
  unfold isCallOf. intros WT. destruct e as [| |f a0| | | | | | | | | | | |]; try discriminate. destruct f as [m' ts|]; [|discriminate].
  destruct (_ && _) eqn:E; [|discriminate]. intros [= <-].
  apply andb_prop in E as [E E4]. apply andb_prop in E as [E E3]. apply andb_prop in E as [E1 E2].
  apply magic_eqb_eq in E1. apply tys_eqb_eq in E2. apply ty_eqb_eq in E3. subst m'.
  destruct WT as (WA & HT & t & Ht). rewrite E2 in HT. subst ts. apply wt_args in WA.
  cbn in E3. rewrite Ht in E3. subst t. cbn. rewrite Ht. auto.
Qed.

(** A rule that replaces a call by the constant it evaluates to. *)
Definition const_ok (r : rule) : Prop := forall e e', wt e -> r e = Ok (Some e') ->
  sty e e' /\ exists c, e' = Const c /\ forall n s, ev n e s = Some (Val c, s).

Lemma const_sty m ts t v vs : magic_ty m ts = Some t -> Forall2 has_ty vs ts -> sem m vs = Ok v -> has_ty v t /\ ty_val v = t.
Proof. intros H1 H2 H3. assert (has_ty v t) by (eapply magic_sem_ty; eauto). split; auto. now apply good_val_ty. Qed.

Lemma const2 m ts a b v : wt (Call (Magic m ts) [Const a; Const b]) -> sem m [a; b] = Ok v ->
  sty (Call (Magic m ts) [Const a; Const b]) (Const v) /\ exists c, Const v = Const c /\ forall n s, ev n (Call (Magic m ts) [Const a; Const b]) s = Some (Val c, s).
Proof.
  intros WT E. split.
  - destruct WT as ((Wa & Wb & _) & HT & t & Ht). cbn in HT. subst ts.
    destruct (const_sty m [ty_val a; ty_val b] t v [a; b]) as [H1 H2]; auto.
    split; cbn; [now rewrite H2|]. cbn in Ht. now rewrite Ht.
  - exists v. split; auto. intros n s. cbn [Sem.ev evs vbind rev app call_fn]. now rewrite E.
Qed.
Lemma const1 m ts a v : wt (Call (Magic m ts) [Const a]) -> sem m [a] = Ok v ->
  sty (Call (Magic m ts) [Const a]) (Const v) /\ exists c, Const v = Const c /\ forall n s, ev n (Call (Magic m ts) [Const a]) s = Some (Val c, s).
Proof.
  intros WT E. split.
  - destruct WT as ((Wa & _) & HT & t & Ht). cbn in HT. subst ts.
    destruct (const_sty m [ty_val a] t v [a]) as [H1 H2]; auto.
    split; cbn; [now rewrite H2|]. cbn in Ht. now rewrite Ht.
  - exists v. split; auto. intros n s. cbn [Sem.ev evs vbind rev app call_fn]. now rewrite E.
Qed.

Lemma dbl_ok {A} (g : node -> option A) (inj : A -> val) t skip f m out :
  (forall e x, g e = Some x -> e = Const (inj x)) ->
  (forall x y v, has_ty (inj x) t -> has_ty (inj y) t -> skip y = false -> f x y = Ok v -> sem m [inj x; inj y] = Ok v) ->
  const_ok (dbl ret g t skip f m out).
Proof.
  intros Hg Hf e e' WT. unfold dbl. destruct (isCallOf _ _ _ _ _) as [args|] eqn:E; [|discriminate].
  destruct (isCallOf_inv _ _ _ _ _ WT E) as (-> & HT & HO & HM & WA).
  destruct args as [|a [|b [|]]]; try discriminate.
  destruct (g a) as [x|] eqn:Ga; [|discriminate]. destruct (g b) as [y|] eqn:Gb; [|discriminate].
  destruct (skip y) eqn:Ey; [discriminate|]. destruct (f x y) as [v| | |] eqn:Ef; try discriminate. cbn [bind]. intros [= <-].
  apply Hg in Ga. apply Hg in Gb. subst a b. cbn in HT. injection HT as H1 H2.
  inversion WA as [|? ? Wx W2]; subst. inversion W2 as [|? ? Wy _]; subst. cbn in Wx, Wy. rewrite H2 in Wy.
  apply const2; auto.
Qed.
Lemma unary_ok {A} (g : node -> option A) (inj : A -> val) t f m out :
  (forall e x, g e = Some x -> e = Const (inj x)) ->
  (forall x v, has_ty (inj x) t -> f x = Ok v -> sem m [inj x] = Ok v) ->
  const_ok (unary ret g t f m out).
Proof.
  intros Hg Hf e e' WT. unfold unary. destruct (isCallOf _ _ _ _ _) as [args|] eqn:E; [|discriminate].
  destruct (isCallOf_inv _ _ _ _ _ WT E) as (-> & HT & HO & HM & WA).
  destruct args as [|a [|]]; try discriminate.
  destruct (g a) as [x|] eqn:Ga; [|discriminate]. destruct (f x) as [v| | |] eqn:Ef; try discriminate. cbn [bind]. intros [= <-].
  apply Hg in Ga. subst a. cbn in HT. injection HT as H1.
  inversion WA as [|? ? Wx W2]; subst. cbn in Wx.
  apply const1; auto.
Qed.
Lemma intFloat_ok f m ex :
  (forall x y, ex && (y =? 0) = false -> in64 y -> sem m [VFloat x; VInt y] = Ok (f x (i2f y))) ->
  (forall x y, ex && foeq y fzero = false -> in64 x -> sem m [VInt x; VFloat y] = Ok (f (i2f x) y)) ->
  const_ok (intFloat ret f m ex).
Proof.
  intros H1 H2 e e' WT. unfold intFloat. destruct (isCallOf2 _ _ _) as [[a b]|] eqn:E; [|discriminate].
  unfold isCallOf2 in E. destruct e as [| |[m' [|t ts]|] [|a0 [|b0 [|]]]| | | | | | | | | | | |]; try discriminate.
  destruct (_ && _) eqn:E1; [|discriminate]. injection E as -> ->. apply andb_prop in E1 as [E1 _]. apply magic_eqb_eq in E1. subst m'.
  assert (forall z e, int_const e = Some z -> e = Const (VInt z)) by (intros z [[]| | | | | | | | | | | | | |]; cbn; congruence).
  assert (forall z e, flt_const e = Some z -> e = Const (VFloat z)) by (intros z [[]| | | | | | | | | | | | | |]; cbn; congruence).
  assert (WA := WT). destruct WA as ((Wa & Wb & _) & _).
  destruct (flt_const a) as [l|] eqn:Fa.
  - apply H0 in Fa. subst a. destruct (int_const b) as [r|] eqn:Fb.
    + apply H in Fb. subst b. destruct (ex && _) eqn:Ex; [discriminate|]. intros [= <-]. apply const2; auto.
    + cbn. discriminate.
  - destruct (int_const a) as [l|] eqn:Ga; [|discriminate]. apply H in Ga. subst a.
    destruct (flt_const b) as [r|] eqn:Fb; [|discriminate]. apply H0 in Fb. subst b. destruct (ex && _) eqn:Ex; [discriminate|]. intros [= <-]. apply const2; auto.
Qed.

Lemma gi e x : int_const e = Some x -> e = Const (VInt x).
Proof. destruct e as [[]| | | | | | | | | | | | | |]; cbn; congruence. Qed.
Lemma gf e x : flt_const e = Some x -> e = Const (VFloat x).
Proof. destruct e as [[]| | | | | | | | | | | | | |]; cbn; congruence. Qed.
Lemma gb e x : bool_const e = Some x -> e = Const (VBool x).
Proof. destruct e as [[]| | | | | | | | | | | | | |]; cbn; congruence. Qed.

Lemma ri_ok r v : ri r = Ok v -> exists z, r = Ok z /\ v = VInt z.
Proof. unfold ri. destruct r; cbn; try discriminate. intros [= <-]. eauto. Qed.

Lemma const_rules_ok : Forall const_ok (const_rules ret wrap py fopq).
Proof.
  unfold const_rules. rewrite !Forall_app. repeat split.
  - unfold int_rules. repeat apply Forall_cons; try apply Forall_nil.
    all: try (destruct py eqn:Epy; (apply (dbl_ok _ VInt); [exact gi|]); intros x y v Hx Hy Sk H; apply ri_ok in H as (z & H & ->); cbn; rewrite ?Epy; rewrite ?Sk).
    all: try (apply (dbl_ok _ VInt); [exact gi|]; intros x y v Hx Hy Sk H; try (injection H as <-; reflexivity); apply ri_ok in H as (z & H & ->); cbn).
    all: try (apply (unary_ok _ VInt); [exact gi|]; intros x v Hx H; try (injection H as <-; reflexivity); apply ri_ok in H as (z & H & ->); cbn).
    all: try (apply cpp_w64 in H; subst; reflexivity).
    all: try (injection H as <-; reflexivity).
    all: try (destruct (pyDivmod wrap x y) as [[d m]| | |] eqn:E; try discriminate; injection H as <-; apply pyDivmod_ok in E; now rewrite E).
    all: try (unfold cpp_div, cpp_mod in H; unfold sdiv, srem; destruct (_ || _); [discriminate|]; injection H as <-; reflexivity).
    all: try (unfold cpp_shl, cpp_shr in H; destruct (_ && _); [|discriminate]; injection H as <-; reflexivity).
    all: try (apply int_pow_ok in H; now rewrite H).
  - unfold bool_rules. repeat apply Forall_cons; try apply Forall_nil.
    all: try (apply (dbl_ok _ VBool); [exact gb|]; intros x y v Hx Hy Sk H; injection H as <-; reflexivity).
    apply (unary_ok _ VBool); [exact gb|]; intros x v Hx H; injection H as <-; reflexivity.
  - unfold float_rules. repeat apply Forall_cons; try apply Forall_nil.
    all: try (apply (dbl_ok _ VFloat); [exact gf|]; intros x y v Hx Hy Sk H; injection H as <-; reflexivity).
    all: try (apply (unary_ok _ VFloat); [exact gf|]; intros x v Hx H; injection H as <-; reflexivity).
    destruct py eqn:Epy; apply (dbl_ok _ VFloat); [exact gf| |exact gf|]; intros x y v Hx Hy Sk H; injection H as <-; cbn; rewrite Epy; cbn; rewrite ?Sk; reflexivity.
  - unfold int_float_rules. repeat apply Forall_cons; try apply Forall_nil.
    all: try (apply intFloat_ok; intros x y Ex Hi; reflexivity).
    apply intFloat_ok; intros x y Ex Hi; cbn.
    + replace (py && foeq (i2f y) fzero) with false; auto.
      symmetry. destruct py; auto. cbn in *. now rewrite i2f_zero.
    + now rewrite Ex.
  - unfold convert_rules. repeat apply Forall_cons; try apply Forall_nil.
    all: try (apply (unary_ok _ VInt); [exact gi|]; intros x v Hx H; injection H as <-; reflexivity).
    all: try (apply (unary_ok _ VBool); [exact gb|]; intros x v Hx H; injection H as <-; reflexivity).
    all: apply (unary_ok _ VFloat); [exact gf|]; intros x v Hx H; try (injection H as <-; reflexivity).
    apply ri_ok in H as (z & H & ->). cbn. now rewrite H.
Qed.

(** Rules that keep the other operand *)
Definition eqv_ok (r : rule) : Prop := forall e e', wt e -> r e = Ok (Some e') -> sty e e' /\ eqv e e'.

Lemma const_eqv r : const_ok r -> eqv_ok r.
Proof. intros H e e' WT E. destruct (H e e' WT E) as (S1 & c & -> & HE). split; auto. apply eqv_ev. intros n s _. now rewrite HE. Qed.

Lemma vbind_id t (r : step_t (W := W)) k : good tenv t r -> (forall v s, has_ty v t -> k v s = Some (Val v, s)) -> vbind r k = r.
Proof. destruct r as [[[v| | |v|v|] s]|]; cbn; auto. intros [_ Hv] H. now apply H. Qed.

Lemma has_int v : has_ty v TInt -> exists z, v = VInt z /\ in64 z.
Proof. destruct v; cbn; try contradiction. eauto. Qed.

Lemma is_const_inv e z : is_const e z = true -> e = Const (VInt z).
Proof. unfold is_const. destruct (int_const e) eqn:E; [|discriminate]. apply gi in E. subst. intros H. apply Z.eqb_eq in H. congruence. Qed.

Lemma single_id z m k :
  (left_kind k = true -> forall x, in64 x -> sem m [VInt z; VInt x] = Ok (VInt x)) ->
  (right_kind k = true -> forall x, in64 x -> sem m [VInt x; VInt z] = Ok (VInt x)) ->
  eqv_ok (intSingleRule ret z id_val m k).
Proof.
  intros HL HR e e' WT. unfold intSingleRule. destruct (isCallOf _ _ _ _ _) as [args|] eqn:E; [|discriminate].
  destruct (isCallOf_inv _ _ _ _ _ WT E) as (-> & HT & HO & HM & WA).
  destruct args as [|a [|b [|]]]; try discriminate. cbn in HT. injection HT as Ta Tb.
  inversion WA as [|? ? Wa W2]; subst. inversion W2 as [|? ? Wb _]; subst.
  unfold id_val. destruct (left_kind k && _) eqn:EL; [|destruct (right_kind k && _) eqn:ER; [|discriminate]]; intros [= <-].
  - apply andb_prop in EL as [K C]. apply is_const_inv in C. subst a. split; [split; congruence|].
    apply eqv_ev. intros n s Hs. cbn [Sem.ev evs vbind]. eapply vbind_id; [apply (ev_good fopq fpowi py uc ret tenv UW); auto|].
    intros v s1 Hv. rewrite Tb in Hv. apply has_int in Hv as (x & -> & Hx). cbn [rev app call_fn]. now rewrite HL.
  - apply andb_prop in ER as [K C]. apply is_const_inv in C. subst b. split; [split; congruence|].
    apply eqv_ev. intros n s Hs. cbn [Sem.ev evs vbind]. eapply vbind_id; [apply (ev_good fopq fpowi py uc ret tenv UW); auto|].
    intros v s1 Hv. rewrite Ta in Hv. apply has_int in Hv as (x & -> & Hx). cbn [rev app call_fn]. now rewrite HR.
Qed.
Lemma noop_ok m t : (forall v, has_ty v t -> sem m [v] = Ok v) -> eqv_ok (noOp ret m t).
Proof.
  intros H e e' WT. unfold noOp. destruct (isCallOf _ _ _ _ _) as [args|] eqn:E; [|discriminate].
  destruct (isCallOf_inv _ _ _ _ _ WT E) as (-> & HT & HO & HM & WA).
  destruct args as [|a [|]]; try discriminate. cbn in HT. injection HT as Ta. inversion WA as [|? ? Wa _]; subst. intros [= <-].
  split; [split; congruence|]. apply eqv_ev. intros n s Hs. cbn [Sem.ev evs vbind]. eapply vbind_id; [apply (ev_good fopq fpowi py uc ret tenv UW); auto|].
  intros v s1 Hv. cbn [rev app call_fn]. now rewrite H.
Qed.
Lemma double_ok m t : (forall v, has_ty v t -> exists w, sem m [v] = Ok w /\ sem m [w] = Ok v) -> eqv_ok (doubleNoOp ret m t).
Proof.
  intros H e e' WT. unfold doubleNoOp. destruct (isCallOf _ _ _ _ _) as [args|] eqn:E; [|discriminate].
  destruct (isCallOf_inv _ _ _ _ _ WT E) as (-> & HT & HO & HM & WA).
  destruct args as [|a [|]]; try discriminate. cbn in HT. injection HT as Ta. apply Forall_inv in WA.
  destruct (isCallOf ret a _ _ _) as [args|] eqn:E2; [|discriminate].
  destruct (isCallOf_inv _ _ _ _ _ WA E2) as (-> & HT2 & HO2 & HM2 & WA2).
  destruct args as [|b [|]]; try discriminate. cbn in HT2. injection HT2 as Tb. apply Forall_inv in WA2 as Wb. intros [= <-].
  split; [split; [auto|congruence]|].
  apply eqv_ev. intros n s Hs. cbn [Sem.ev evs].
  pose proof (ev_good fopq fpowi py uc ret tenv UW n b Wb s Hs) as G.
  destruct (ev n b s) as [[[v| | |v|v|] s1]|]; cbn [vbind]; auto.
  cbn [rev app call_fn]. destruct G as [_ Hv]. rewrite Tb in Hv. destruct (H v Hv) as (w & H1 & H2).
  rewrite H1. cbn [of_res vbind]. now rewrite H2.
Qed.

Lemma identity_rules_ok : Forall eqv_ok (identity_rules ret).
Proof.
  unfold identity_rules. repeat apply Forall_cons; try apply Forall_nil.
  - apply single_id; intros _ x Hx; cbn [magic_sem bin_sem int_int]; [replace (1 * x) with x by lia|replace (x * 1) with x by lia]; now rewrite w64_id.
  - apply single_id; [discriminate|]. intros _ x Hx; cbn [magic_sem bin_sem int_int]. replace (x - 0) with x by lia. now rewrite w64_id.
  - apply single_id; intros _ x Hx; cbn [magic_sem bin_sem int_int]; [replace (0 + x) with x by lia|replace (x + 0) with x by lia]; now rewrite w64_id.
  - apply single_id; [discriminate|]. intros _ x Hx; cbn [magic_sem bin_sem int_int].
    assert (H1 : in64 1) by (unfold in64, min64, max64; lia).
    destruct py.
    + change (1 =? 0) with false. cbn iota. rewrite divmod_floor by (auto; lia). cbn [bind]. now rewrite Z.div_1_r.
    + unfold sdiv. replace ((1 =? 0) || ((x =? min64) && (1 =? -1))) with false by lia. cbn [bind]. now rewrite Z.quot_1_r.
  - apply noop_ok. intros v Hv. apply has_int in Hv as (x & -> & Hx). reflexivity.
  - apply double_ok. intros v Hv. apply has_int in Hv as (x & -> & Hx). eexists. split; [reflexivity|]. cbn [magic_sem un_sem].
    rewrite w64_sub_r. replace (0 - (0 - x)) with x by lia. now rewrite w64_id.
  - apply double_ok. intros v Hv. apply has_int in Hv as (x & -> & Hx). eexists. split; [reflexivity|]. cbn [magic_sem un_sem]. now rewrite Z.lnot_involutive.
  - apply noop_ok. intros v Hv. apply has_int in Hv as (x & -> & Hx). reflexivity.
  - apply noop_ok. intros [] Hv; try contradiction. reflexivity.
  - apply noop_ok. intros [] Hv; try contradiction. reflexivity.
Qed.

Lemma safe_rules_ok : Forall eqv_ok (safe_rules ret wrap py fopq).
Proof.
  unfold safe_rules. apply Forall_app. split; [apply identity_rules_ok|].
  eapply Forall_impl; [|apply const_rules_ok]. apply const_eqv.
Qed.

Lemma fold_pass_eqv rules : incl rules (safe_rules ret wrap py fopq) ->
  forall e e', wt e -> fold_pass rules e = Ok e' -> sty e e' /\ eqv e e'.
Proof.
  intros HI. assert (F : Forall eqv_ok rules).
  { apply Forall_forall. intros r Hr. pose proof safe_rules_ok as S1. rewrite Forall_forall in S1. auto. }
  intros e e'. unfold fold_pass. apply bottom_up_ok.
  - apply eqv_trans.
  - apply (eqv_cong fopq fpowi py uc ret tenv UW).
  - intros a0 a b Wa0 [Wa _] _. unfold fold_handle. assert (K : Ok a = Ok b -> sty a b /\ eqv a b).
    { intros [= <-]. split; [split; auto|apply eqv_refl]. }
    destruct a; auto. apply rewrite_ok; auto; [apply eqv_refl|apply eqv_trans].
Qed.

(** ** Dropping an operand that has no effect *)
Definition total_magic (m : magic) : bool :=
  match m with
  | Add | Sub | Mul | Pow | Xor | Or | And | Eq | Ne | Lt | Le | Gt | Ge | Pos | Neg | Invert | ToFloat | ToBool => true
  | _ => false
  end.
Fixpoint simple (e : node) : bool :=
  match e with
  | Const _ | VarV _ => true
  | Call (Magic m _) args => total_magic m && forallb simple args
  | Ternary c a b => simple c && simple a && simple b
  | _ => false
  end.
(** Every operand of an integer product or floor division is simple. *)
Fixpoint keeps (e : node) : Prop :=
  match e with
  | Call f args =>
      fold_right (fun a P => keeps a /\ P) True args /\
      match f with Magic (Mul | FloorDiv) _ => forallb simple args = true | _ => True end
  | Ternary c a b | If c a b => keeps c /\ keeps a /\ keeps b
  | Assign _ e | Return e | Throw e => keeps e
  | Series l => fold_right (fun a P => keeps a /\ P) True l
  | While c b => keeps c /\ keeps b
  | ImpFor _ a _ b body => keeps a /\ keeps b /\ keeps body
  | FlowI f v => keeps f /\ keeps v
  | Try b _ h f => keeps b /\ keeps h /\ keeps f
  | _ => True
  end.
Lemma keeps_args l : fold_right (fun a P => keeps a /\ P) True l <-> Forall keeps l.
Proof. induction l; cbn; split; auto; intros H; [constructor; tauto|]. inversion H; subst; tauto. Qed.

Lemma total_sem m vs ts t : total_magic m = true -> Forall2 has_ty vs ts -> magic_ty m ts = Some t -> exists v, sem m vs = Ok v.
Proof.
  intros Hm F. inversion F as [|a ta vs1 ts1 Ha F1]; subst; [discriminate|].
  inversion F1 as [|b tb vs2 ts2 Hb F2]; subst.
  - destruct m, a, ta; cbn in *; try discriminate; try contradiction; intros; eauto.
  - inversion F2; subst; [|discriminate].
    destruct a as [x|x|x| |], ta; cbn in Ha; try contradiction; destruct b as [y|y|y| |], tb; cbn in Hb; try contradiction.
    all: destruct m; cbn in Hm |- *; intros Ht; try discriminate; eauto.
    rewrite ipow_ok by auto. cbn. eauto.
Qed.

Lemma simple_evs n args s acc k : wt_state tenv s -> Forall wt args -> Forall (fun a => wt a -> simple a = true -> exists v, ev n a s = Some (Val v, s) /\ has_ty v (ty_of a)) args ->
  forallb simple args = true -> exists vs, Forall2 has_ty vs (map ty_of args) /\ evs (ev n) args s acc k = k (rev acc ++ vs) s.
Proof.
  intros Hs WA F. revert acc. induction F as [|a l Ha F IH]; intros acc HS; cbn.
  - exists []. rewrite app_nil_r. auto.
  - inversion WA; subst. cbn in HS. apply andb_prop in HS as [H3 H4]. destruct (Ha H1 H3) as (v & Ev & Hv).
    destruct (IH H2 (v :: acc) H4) as (vs & FV & E). exists (v :: vs). split; auto. rewrite Ev. cbn [vbind]. rewrite E. cbn. now rewrite <- app_assoc.
Qed.

Lemma simple_ev n e s : wt_state tenv s -> wt e -> simple e = true -> exists v, ev n e s = Some (Val v, s) /\ has_ty v (ty_of e).
Proof.
  intros Hs. induction e as [v|x|f args FA|c a b IHc IHa IHb|x e IH|l FA|c a b IHc IHa IHb|c b IHc IHb|x a st b body IHa IHb IHbd| | |e IH|e IH|f v IHf IHv|b x h f IHb IHh IHf]
    using node_ind'; intros WT HS; try discriminate.
  - exists v. split; auto.
  - exists (get s x). split; auto. eapply get_wt; eauto.
  - destruct f as [m ts|]; [|discriminate]. cbn [simple] in HS. apply andb_prop in HS as [Hm HS].
    assert (WT2 := WT). destruct WT as (WA & HT & t & Ht). apply wt_args in WA. cbn [Sem.ev].
    destruct (simple_evs n args s [] (call_fn fopq fpowi py uc (Magic m ts)) Hs WA FA HS) as (vs & FV & E).
    rewrite E. rewrite HT in FV. destruct (total_sem m vs ts t Hm FV Ht) as (v & Ev). exists v. cbn [rev app call_fn]. rewrite Ev. split; auto.
    cbn. rewrite Ht. eapply magic_sem_ty; eauto.
  - cbn in HS. apply andb_prop in HS as [HS Hb]. apply andb_prop in HS as [Hc Ha]. destruct WT as (Wc & Wa & Wb & Tc & Tab).
    destruct (IHc Wc Hc) as (vc & Ec & Hvc). rewrite Tc in Hvc. destruct vc as [| |t| |]; try contradiction.
    cbn [Sem.ev]. rewrite Ec. cbn [vbind cond_b]. destruct t; [now apply IHa|]. cbn [Sem.ty_of]. rewrite Tab. now apply IHb.
Qed.

(** What the full rule set preserves: defined behaviour of programs in [keeps]. *)
Definition kref (e e' : node) : Prop := (keeps e -> ref e e' /\ keeps e') /\ (simple e = true -> simple e' = true).
Lemma kref_refl e : kref e e.
Proof. split; auto. intros. split; auto. apply ref_refl. Qed.
Lemma kref_trans a b c : kref a b -> kref b c -> kref a c.
Proof.
  intros [H1 H2] [H3 H4]. split; auto. intros K. destruct (H1 K) as [R1 K1]. destruct (H3 K1) as [R2 K2]. split; auto. eapply ref_trans; eauto.
Qed.
Lemma F2_kref l l' : Forall2 kref l l' -> Forall keeps l -> Forall2 ref l l' /\ Forall keeps l'.
Proof. intros F. induction F as [|a b l l' [H1 H2] F IH]; intros K; auto. inversion K; subst. destruct (H1 H3), (IH H4). auto. Qed.
Lemma F2_simple l l' : Forall2 kref l l' -> forallb simple l = true -> forallb simple l' = true.
Proof. intros F. induction F as [|a b l l' [H1 H2] F IH]; cbn; auto. intros H. apply andb_prop in H as [H3 H4]. now rewrite H2, IH. Qed.
Lemma kref_cong e e' : wt e -> wt e' -> cong kref e e' -> kref e e'.
Proof.
  intros WT _ C. assert (L : cong ref e e' -> ref e e') by (apply (cong_ref fopq fpowi py uc ret tenv UW); auto).
  inversion C as [f args args' F|c a b c' a' b' Rc Ra Rb|x e0 e0' R|l l' F|c a b c' a' b' Rc Ra Rb|c b c' b' Rc Rb|x a st b body a' b' body' Ra Rb Rbd|e0 e0' R|e0 e0' R|f v f' v' Rf Rv|b x h f b' h' f' Rb Rh Rf|e0]; subst.
  - split.
    + cbn [keeps]. rewrite !keeps_args. intros [K1 K2]. destruct (F2_kref _ _ F K1) as [F1 K3]. split; [apply L; constructor; auto|]. split; auto.
      destruct f as [[]|]; auto; now apply (F2_simple args).
    + cbn. destruct f; auto. intros H. apply andb_prop in H as [H1 H2]. rewrite H1. cbn. now apply (F2_simple args).
  - destruct Rc as [Rc Sc], Ra as [Ra Sa], Rb as [Rb Sb]. split; cbn.
    + intros (K1 & K2 & K3). destruct (Rc K1), (Ra K2), (Rb K3). split; auto. apply L; constructor; auto.
    + intros H. apply andb_prop in H as [H H3]. apply andb_prop in H as [H1 H2]. now rewrite Sc, Sa, Sb.
  - destruct R as [R S1]. split; cbn; [|discriminate]. intros K. destruct (R K). split; auto. apply L; constructor; auto.
  - split; [|discriminate]. cbn [keeps]. rewrite !keeps_args. intros K1. destruct (F2_kref _ _ F K1) as [F1 K3]. split; auto. apply L; constructor; auto.
  - destruct Rc as [Rc Sc], Ra as [Ra Sa], Rb as [Rb Sb]. split; cbn; [|discriminate].
    intros (K1 & K2 & K3). destruct (Rc K1), (Ra K2), (Rb K3). split; auto. apply L; constructor; auto.
  - destruct Rc as [Rc Sc], Rb as [Rb Sb]. split; cbn; [|discriminate].
    intros (K1 & K3). destruct (Rc K1), (Rb K3). split; auto. apply L; constructor; auto.
  - destruct Rbd as [Rc Sc], Ra as [Ra Sa], Rb as [Rb Sb]. split; cbn; [|discriminate].
    intros (K2 & K3 & K1). destruct (Rc K1), (Ra K2), (Rb K3). split; auto. apply L; constructor; auto.
  - destruct R as [R S1]. split; cbn; [|discriminate]. intros K. destruct (R K). split; auto. apply L; constructor; auto.
  - destruct R as [R S1]. split; cbn; [|discriminate]. intros K. destruct (R K). split; auto. apply L; constructor; auto.
  - destruct Rf as [Rc Sc], Rv as [Rb Sb]. split; cbn; [|discriminate].
    intros (K1 & K3). destruct (Rc K1), (Rb K3). split; auto. apply L; constructor; auto.
  - destruct Rb as [Rc Sc], Rh as [Ra Sa], Rf as [Rb Sb]. split; cbn; [|discriminate].
    intros (K1 & K2 & K3). destruct (Rc K1), (Ra K2), (Rb K3). split; auto. apply L; constructor; auto.
  - apply kref_refl.
Qed.

Definition kref_ok (r : rule) : Prop := forall e e', wt e -> r e = Ok (Some e') -> sty e e' /\ kref e e'.
(** Rules of [safe_rules] give a constant or an operand (possibly of an operand). *)
Inductive shrink : node -> node -> Prop :=
| Shc e v : shrink e (Const v)
| Sha f args a : In a args -> shrink (Call f args) a
| Shaa f args a b g : In (Call g a) args -> In b a -> shrink (Call f args) b.
Lemma in_keeps l a : Forall keeps l -> In a l -> keeps a.
Proof. intros F H. rewrite Forall_forall in F. auto. Qed.
Lemma shrink_keeps e e' : shrink e e' -> keeps e -> keeps e'.
Proof.
  intros H. destruct H as [e v|f args a Ha|f args a b g Ha Hb]; cbn; auto; rewrite keeps_args; intros [K _].
  - eapply in_keeps; eauto.
  - pose proof (in_keeps _ _ K Ha) as K2. cbn in K2. rewrite keeps_args in K2. eapply in_keeps; [apply K2|auto].
Qed.
Lemma shrink_simple e e' : shrink e e' -> simple e = true -> simple e' = true.
Proof.
  assert (I : forall l a, forallb simple l = true -> In a l -> simple a = true) by (intros l a H; rewrite forallb_forall in H; auto).
  intros H. destruct H as [e v|f args a Ha|f args a b g Ha Hb]; cbn; auto; destruct f; try discriminate; intros H; apply andb_prop in H as [_ H].
  - eapply I; eauto.
  - pose proof (I _ _ H Ha) as K2. cbn in K2. destruct g; [|discriminate]. apply andb_prop in K2 as [_ K2]. eapply I; eauto.
Qed.
Definition shrinks (r : rule) : Prop := forall e e', wt e -> r e = Ok (Some e') -> shrink e e'.
Lemma shrinks_single z c m k : (forall e, c e = e \/ exists v, c e = Const v) -> shrinks (intSingleRule ret z c m k).
Proof.
  intros Hc e e' WT. unfold intSingleRule. destruct (isCallOf _ _ _ _ _) as [args|] eqn:E; [|discriminate].
  destruct (isCallOf_inv _ _ _ _ _ WT E) as (-> & _). destruct args as [|a [|b [|]]]; try discriminate.
  destruct (_ && _); [|destruct (_ && _); [|discriminate]]; intros [= <-].
  - destruct (Hc b) as [->|[v ->]]; [|constructor]. apply Sha. cbn; auto.
  - destruct (Hc a) as [->|[v ->]]; [|constructor]. apply Sha. cbn; auto.
Qed.
Lemma identity_shrinks : Forall shrinks (identity_rules ret).
Proof.
  assert (N : forall m t, shrinks (noOp ret m t)).
  { intros m t e e' WT. unfold noOp. destruct (isCallOf _ _ _ _ _) as [args|] eqn:E; [|discriminate].
    destruct (isCallOf_inv _ _ _ _ _ WT E) as (-> & _). destruct args as [|a [|]]; try discriminate. intros [= <-]. apply Sha. cbn; auto. }
  assert (D : forall m t, shrinks (doubleNoOp ret m t)).
  { intros m t e e' WT. unfold doubleNoOp. destruct (isCallOf _ _ _ _ _) as [args|] eqn:E; [|discriminate].
    destruct (isCallOf_inv _ _ _ _ _ WT E) as (-> & _ & _ & _ & WA). destruct args as [|a [|]]; try discriminate. inversion WA; subst.
    destruct (isCallOf ret a _ _ _) as [args|] eqn:E2; [|discriminate].
    destruct (isCallOf_inv _ _ _ _ _ H1 E2) as (-> & _). destruct args as [|b [|]]; try discriminate. intros [= <-].
    eapply Shaa; cbn; eauto. cbn; auto. }
  unfold identity_rules. repeat apply Forall_cons; try apply Forall_nil; auto; apply shrinks_single; auto.
Qed.

Lemma drop_ok m k : (m = Mul \/ m = FloorDiv /\ py = false /\ k = LEFT) -> kref_ok (intSingleRule ret 0 (to_val 0 0) m k).
Proof.
  intros Hm e e' WT E. assert (SH : shrink e e'). { revert E. apply shrinks_single; auto. intros; right; eexists; reflexivity. }
  revert E. unfold intSingleRule. destruct (isCallOf _ _ _ _ _) as [args|] eqn:E; [|discriminate].
  destruct (isCallOf_inv _ _ _ _ _ WT E) as (-> & HT & HO & HM & WA).
  destruct args as [|a [|b [|]]]; try discriminate. cbn in HT. injection HT as Ta Tb.
  inversion WA as [|? ? Wa W2]; subst. inversion W2 as [|? ? Wb _]; subst.
  assert (ST : sty (Call (Magic m [TInt; TInt]) [a; b]) (Const (VInt 0))).
  { split; [cbn; unfold in64, min64, max64; lia|]. cbn [Sem.ty_of]. now rewrite HM. }
  assert (Z0 : forall x n s, in64 x -> rle (call_fn fopq fpowi py uc (Magic m [TInt; TInt]) [VInt 0; VInt x] s) (ev n (Const (VInt 0)) s)).
  { intros x n s Hx r. cbn [call_fn magic_sem bin_sem]. destruct Hm as [->|(-> & -> & ->)]; cbn [int_int].
    - replace (0 * x) with 0 by lia. cbn. auto.
    - unfold sdiv. destruct (_ || _) eqn:O; cbn.
      + intros [= <-]. cbn. congruence.
      + auto. }
  assert (Z1 : right_kind k = true -> forall x n s, in64 x -> rle (call_fn fopq fpowi py uc (Magic m [TInt; TInt]) [VInt x; VInt 0] s) (ev n (Const (VInt 0)) s)).
  { intros K x n s Hx r. destruct Hm as [->|(-> & -> & ->)]; [|discriminate]. cbn [call_fn magic_sem bin_sem int_int]. replace (x * 0) with 0 by lia. cbn. auto. }
  assert (SI : keeps (Call (Magic m [TInt; TInt]) [a; b]) -> simple a = true /\ simple b = true).
  { intros K. destruct K as [_ K]. destruct Hm as [->|(-> & _)]; cbn in K; rewrite andb_true_r in K; now apply andb_prop in K. }
  destruct (left_kind k && _) eqn:EL; [|destruct (right_kind k && _) eqn:ER; [|discriminate]]; intros [= <-]; unfold to_val in *.
  - apply andb_prop in EL as [K C]. apply is_const_inv in C. subst a. split; auto. split; [|now apply shrink_simple].
    intros KP. split; [|now apply (shrink_keeps _ _ SH)]. destruct (SI KP) as [_ Sb]. intros n s Hs. destruct (simple_ev n b s Hs Wb Sb) as (v & Ev & Hv).
    rewrite Tb in Hv. apply has_int in Hv as (x & -> & Hx). cbn [Sem.ev evs vbind]. rewrite Ev. cbn [vbind rev app]. now apply (Z0 x n s).
  - apply andb_prop in ER as [K C]. apply is_const_inv in C. subst b. split; auto. split; [|now apply shrink_simple].
    intros KP. split; [|now apply (shrink_keeps _ _ SH)]. destruct (SI KP) as [Sb _]. intros n s Hs. destruct (simple_ev n a s Hs Wa Sb) as (v & Ev & Hv).
    rewrite Ta in Hv. apply has_int in Hv as (x & -> & Hx). cbn [Sem.ev evs vbind]. rewrite Ev. cbn [vbind rev app]. now apply (Z1 K x n s).
Qed.

Lemma safe_kref : Forall kref_ok (safe_rules ret wrap py fopq).
Proof.
  assert (Q : forall r, eqv_ok r -> shrinks r -> kref_ok r).
  { intros r H1 H2 e e' WT E. destruct (H1 e e' WT E) as [S1 [R1 _]]. pose proof (H2 e e' WT E) as SH. split; auto. split.
    - intros K. split; auto. now apply (shrink_keeps _ _ SH).
    - now apply shrink_simple. }
  unfold safe_rules. apply Forall_app. split.
  - pose proof identity_rules_ok as F1. pose proof identity_shrinks as F2. rewrite Forall_forall in F1, F2 |- *. auto.
  - eapply Forall_impl; [|apply const_rules_ok]. intros r Hr. apply Q; [now apply const_eqv|].
    intros e e' WT E. destruct (Hr e e' WT E) as (_ & c & -> & _). constructor.
Qed.

Lemma fold_pass_keeps rules : py = false -> incl rules (mul_zero ret :: zero_floordiv ret :: safe_rules ret wrap py fopq) ->
  forall e e', wt e -> keeps e -> fold_pass rules e = Ok e' -> sty e e' /\ ref e e'.
Proof.
  intros Hpy HI. assert (F : Forall kref_ok rules).
  { apply Forall_forall. intros r Hr. apply HI in Hr. pose proof safe_kref as S1. rewrite Forall_forall in S1.
    destruct Hr as [<-|[<-|Hr]]; auto; apply drop_ok; auto. }
  intros e e' WT K E. cut (sty e e' /\ kref e e'); [intros [S1 [H _]]; destruct (H K); auto|].
  revert WT E. unfold fold_pass. apply bottom_up_ok.
  - apply kref_trans.
  - apply kref_cong.
  - intros a0 a b Wa0 [Wa _] _. unfold fold_handle. assert (K2 : Ok a = Ok b -> sty a b /\ kref a b).
    { intros [= <-]. split; [split; auto|apply kref_refl]. }
    destruct a; auto. apply rewrite_ok; auto; [apply kref_refl|apply kref_trans].
Qed.

(** ** Folding happens, in whatever order the rules are tried *)
Lemma rewrite_stay rules c : Forall (fun r => r (Const c) = Ok None) rules -> rewrite rules (Const c) = Ok (Const c).
Proof. intros F. induction F as [|r l H F IH]; cbn; auto. rewrite H. cbn. auto. Qed.
Lemma rewrite_const rules e c : Forall (fun r => r (Const c) = Ok None) rules ->
  Forall (fun r => r e = Ok None \/ r e = Ok (Some (Const c))) rules -> Exists (fun r => r e = Ok (Some (Const c))) rules -> rewrite rules e = Ok (Const c).
Proof.
  intros F1 F2. induction F2 as [|r l H F2 IH]; intros EX; [inversion EX|]. inversion F1; subst. cbn. destruct H as [H|H]; rewrite H; cbn.
  - apply IH; auto. inversion EX; subst; auto. congruence.
  - now apply rewrite_stay.
Qed.
End Fold.
