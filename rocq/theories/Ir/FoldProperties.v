(** C20 (constant folding), C21 (algebraic folding) and C32 (integer division). *)
From Coq Require Import List ZArith Lia Bool ZifyBool Permutation Floats.SpecFloat.
From Verif.Common Require Import Result Int64.
From Verif.Ir Require Import Num NumProofs Sem SemProofs Fold PassProofs FoldProofs.
Import ListNotations.
Local Open Scope Z_scope.

(** ** Specification: what an operation on two ints yields, in mathematical terms *)
Definition int_spec (py : bool) (m : magic) (a b : Z) : option val :=
  let ovf := (a =? - 2 ^ 63) && (b =? -1) in
  match m with
  | Add => Some (VInt (w64 (a + b)))
  | Sub => Some (VInt (w64 (a - b)))
  | Mul => Some (VInt (w64 (a * b)))
  | FloorDiv => if (b =? 0) || ovf then None else Some (VInt (if py then a / b else Z.quot a b))
  | Mod => if (b =? 0) || ovf then None else Some (VInt (if py then a mod b else Z.rem a b))
  | LShift => if (0 <=? b) && (b <? 64) then Some (VInt (w64 (a * 2 ^ b))) else None
  | RShift => if (0 <=? b) && (b <? 64) then Some (VInt (a / 2 ^ b)) else None
  | Pow => Some (VInt (if b <? 0 then 0 else w64 (a ^ b)))
  | Xor => Some (VInt (Z.lxor a b))
  | Or => Some (VInt (Z.lor a b))
  | And => Some (VInt (Z.land a b))
  | Eq => Some (VBool (a =? b))
  | Ne => Some (VBool (negb (a =? b)))
  | Lt => Some (VBool (a <? b))
  | Le => Some (VBool (a <=? b))
  | Gt => Some (VBool (a >? b))
  | Ge => Some (VBool (a >=? b))
  | _ => None
  end.

Section C32.
Context (py : bool) (fopq : magic -> spec_float -> spec_float -> spec_float) (fpowi : spec_float -> Z -> spec_float).
Notation sem := (magic_sem fopq fpowi).

(** C32: with Python numerics, // is the floor of the quotient, % has the divisor's sign, the two are
    consistent, and a zero divisor raises ZeroDivisionError; the only undefined case is
    -2^63 // -1 (see [C32_min_by_minus_one_refuted]). *)
Theorem C32_python_division_partial a b : in64 a -> in64 b -> ~ (a = - 2 ^ 63 /\ b = -1) ->
  (b = 0 -> sem true FloorDiv [VInt a; VInt b] = Raise ZeroDivisionError /\ sem true Mod [VInt a; VInt b] = Raise ZeroDivisionError) /\
  (b <> 0 -> exists q r,
    sem true FloorDiv [VInt a; VInt b] = Ok (VInt q) /\ sem true Mod [VInt a; VInt b] = Ok (VInt r) /\
    a = q * b + r /\ (0 < b -> 0 <= r < b) /\ (b < 0 -> b < r <= 0)).
Proof.
  intros Ha Hb N. cbn [magic_sem bin_sem int_int]. split.
  - intros ->. auto.
  - intros Nb. replace (b =? 0) with false by lia. rewrite divmod_floor by auto. cbn [bind].
    exists (a / b), (a mod b). repeat split; auto; pose proof (Z.div_mod a b Nb); pose proof (Z.mod_pos_bound a b); pose proof (Z.mod_neg_bound a b); lia.
Qed.

(** Without Python numerics // and % truncate; a zero divisor is undefined behaviour. *)
Theorem C32_c_division a b : in64 a -> in64 b -> ~ (a = - 2 ^ 63 /\ b = -1) -> b <> 0 ->
  exists q r,
    sem false FloorDiv [VInt a; VInt b] = Ok (VInt q) /\ sem false Mod [VInt a; VInt b] = Ok (VInt r) /\
    a = q * b + r /\ Z.abs r < Z.abs b /\ 0 <= r * a.
Proof.
  intros Ha Hb N Nb. cbn [magic_sem bin_sem int_int]. unfold sdiv, srem. unfold min64.
  replace ((b =? 0) || ((a =? - 2 ^ 63) && (b =? -1))) with false by lia. cbn [bind].
  exists (Z.quot a b), (Z.rem a b). repeat split; auto.
  - pose proof (Z.quot_rem a b Nb). lia.
  - now apply Z.rem_bound_abs.
  - now apply Z.rem_sign_mul.
Qed.

Theorem C32_min_by_minus_one_refuted : exists a b, in64 a /\ in64 b /\ b <> 0 /\
  sem true FloorDiv [VInt a; VInt b] = Undef /\ sem true Mod [VInt a; VInt b] = Undef.
Proof. exists (- 2 ^ 63), (-1). repeat split; try reflexivity; unfold in64, min64, max64; lia. Qed.

Example C32_floor : sem true FloorDiv [VInt (-7); VInt 2] = Ok (VInt (-4)) /\ sem true Mod [VInt (-7); VInt 2] = Ok (VInt 1) /\
  sem false FloorDiv [VInt (-7); VInt 2] = Ok (VInt (-3)) /\ sem true FloorDiv [VInt 7; VInt 0] = Raise ZeroDivisionError.
Proof. repeat split; reflexivity. Qed.

(** The run-time operators compute [int_spec]. *)
Theorem C32_int_operators m a b v : in64 a -> in64 b -> int_spec py m a b = Some v -> sem py m [VInt a; VInt b] = Ok v.
Proof.
  intros Ha Hb. cbn [magic_sem bin_sem]. destruct m; cbn [int_spec int_int]; intros H; try discriminate; try (injection H as <-; reflexivity).
  - destruct ((b =? 0) || _) eqn:E; [discriminate|]. injection H as <-. destruct py.
    + replace (b =? 0) with false by lia. rewrite divmod_floor by (auto; unfold min64; lia). reflexivity.
    + unfold sdiv, min64. rewrite E. reflexivity.
  - destruct ((b =? 0) || _) eqn:E; [discriminate|]. injection H as <-. destruct py.
    + replace (b =? 0) with false by lia. rewrite divmod_floor by (auto; unfold min64; lia). reflexivity.
    + unfold srem, min64. rewrite E. reflexivity.
  - destruct (_ && _) eqn:E; [|discriminate]. injection H as <-. rewrite Z.shiftl_mul_pow2 by lia. reflexivity.
  - destruct (_ && _) eqn:E; [|discriminate]. injection H as <-. rewrite Z.shiftr_div_pow2 by lia. reflexivity.
  - injection H as <-. rewrite ipow_ok by auto. reflexivity.
  - injection H as <-. cbn. now rewrite Z.gtb_ltb.
  - injection H as <-. cbn. now rewrite Z.geb_leb.
Qed.
Example C32_pow : int_spec true Pow 3 41 = Some (VInt (3 ^ 41 - 2 * 2 ^ 64)) /\ int_spec true Pow (-2) 63 = Some (VInt (- 2 ^ 63)).
Proof. split; reflexivity. Qed.
End C32.

Section C20.
Context {W : Type}.
Context (fopq : magic -> spec_float -> spec_float -> spec_float) (fpowi : spec_float -> Z -> spec_float).
Context (py : bool) (uc : ufun (W := W)) (ret : nat -> ty) (tenv : bool -> nat -> ty).
Notation ev := (ev fopq fpowi py uc).
Notation wt := (wt ret tenv).

(** C20: a folding rule for constant operands (all but int != float) replaces a call by the
    constant the call evaluates to, whatever the state, if the compiler's own arithmetic is defined. *)
Theorem C20_constant_folding_agrees_partial wrap r e e' : In r (const_rules ret wrap py fopq) -> wt e -> r e = Ok (Some e') ->
  exists c, e' = Const c /\ forall n s, ev n e s = Some (Val c, s).
Proof.
  intros Hr WT E. pose proof (const_rules_ok fopq fpowi py uc ret tenv wrap) as F. rewrite Forall_forall in F.
  destruct (F r Hr e e' WT E) as (_ & H). exact H.
Qed.


Lemma single_dec z calc m k a b v :
  (left_kind k = true -> a = z -> calc (Const (VInt b)) = Const v) -> (right_kind k = true -> b = z -> calc (Const (VInt a)) = Const v) ->
  let e := Call (Magic m [TInt; TInt]) [Const (VInt a); Const (VInt b)] in
  intSingleRule ret z calc m k e = Ok None \/ intSingleRule ret z calc m k e = Ok (Some (Const v)).
Proof.
  intros HL HR. cbv zeta. unfold intSingleRule. destruct (isCallOf _ _ _ _ _) as [args|] eqn:E; auto.
  unfold isCallOf in E. destruct (_ && _); [|discriminate]. injection E as <-. unfold is_const, int_const.
  destruct (left_kind k && _) eqn:E1; [|destruct (right_kind k && _) eqn:E2; auto]; right.
  - apply andb_prop in E1 as [E1 E3]. apply Z.eqb_eq in E3. now rewrite HL.
  - apply andb_prop in E2 as [E2 E3]. apply Z.eqb_eq in E3. now rewrite HR.
Qed.
Lemma dbl_dec f skip m out a b v : (skip b = false -> f a b = Ok v) ->
  let e := Call (Magic m [TInt; TInt]) [Const (VInt a); Const (VInt b)] in
  dbl ret int_const TInt skip f m out e = Ok None \/ dbl ret int_const TInt skip f m out e = Ok (Some (Const v)).
Proof.
  intros H. cbv zeta. unfold dbl. destruct (isCallOf _ _ _ _ _) as [args|] eqn:E; auto.
  unfold isCallOf in E. destruct (_ && _); [|discriminate]. injection E as <-. cbn [int_const]. destruct (skip b); auto. right. now rewrite H.
Qed.
Lemma dbl_fires f skip m out a b v : skip b = false -> f a b = Ok v -> magic_ty m [TInt; TInt] = Some out ->
  dbl ret int_const TInt skip f m out (Call (Magic m [TInt; TInt]) [Const (VInt a); Const (VInt b)]) = Ok (Some (Const v)).
Proof.
  intros H1 H2 H3. unfold dbl, isCallOf. cbn [map ty_of ty_val tys_eqb ty_eqb andb]. rewrite H3.
  replace (magic_eqb m m) with true by now destruct m. replace (ty_eqb out out) with true by (destruct out; cbn; auto; now rewrite Nat.eqb_refl).
  cbn [andb int_const]. now rewrite H1, H2.
Qed.
Lemma int_pow_wrap_loop n : forall b e x, int_pow_loop true n b e x = ipow_loop n b e x.
Proof.
  induction n as [|n IH]; intros b e x; cbn; auto. destruct (negb _).
  - rewrite cpp_wrap. cbn [bind]. destruct (_ =? 0); auto. rewrite cpp_wrap. cbn [bind]. apply IH.
  - cbn [bind]. destruct (_ =? 0); auto. rewrite cpp_wrap. cbn [bind]. apply IH.
Qed.
Lemma pyDivmod_wrap a b : pyDivmod true a b = divmod_int_int a b.
Proof.
  unfold pyDivmod, divmod_int_int, cpp_div, sdiv. destruct (_ || _); auto. cbn [bind]. rewrite !cpp_wrap. cbn [bind]. rewrite cpp_wrap. cbn [bind].
  destruct (_ && _); auto. rewrite !cpp_wrap. reflexivity.
Qed.

(** C20: on a compiler whose integer arithmetic wraps, every int operation with a defined
    result is folded to that result, in whatever order the rules are applied. *)
Theorem C20_int_constants_folded rules m a b v : Permutation rules (standard_rules ret true py fopq) ->
  in64 a -> in64 b -> int_spec py m a b = Some v ->
  rewrite rules (Call (Magic m [TInt; TInt]) [Const (VInt a); Const (VInt b)]) = Ok (Const v).
Proof.
  intros HP Ha Hb HS. pose proof (C32_int_operators py fopq fpowi m a b v Ha Hb HS) as ES. cbn [magic_sem bin_sem] in ES.
  apply rewrite_const.
  - eapply Permutation_Forall; [symmetry; exact HP|]. unfold standard_rules, safe_rules, identity_rules, const_rules, int_rules, bool_rules, float_rules, int_float_rules, convert_rules.
    destruct py; repeat apply Forall_cons; try apply Forall_nil; reflexivity.
  - eapply Permutation_Forall; [symmetry; exact HP|].
    assert (KI : (m = FloorDiv \/ m = Mod) -> b <> 0) by (intros [->| ->]; cbn in HS; destruct (b =? 0) eqn:E; [discriminate|lia|discriminate|lia]).
    assert (KD : (if py then intToIntBinaryNoZeroRHS ret (fun x y => ('(d, _) <- pyDivmod true x y ;; Ok d)%res) FloorDiv else intToIntBinaryNoZeroRHS ret cpp_div FloorDiv)
       (Call (Magic m [TInt; TInt]) [Const (VInt a); Const (VInt b)]) = Ok None \/
       (if py then intToIntBinaryNoZeroRHS ret (fun x y => ('(d, _) <- pyDivmod true x y ;; Ok d)%res) FloorDiv else intToIntBinaryNoZeroRHS ret cpp_div FloorDiv)
       (Call (Magic m [TInt; TInt]) [Const (VInt a); Const (VInt b)]) = Ok (Some (Const v))).
    { destruct m; try (left; destruct py; reflexivity). cbn [int_int] in ES. destruct py; apply dbl_dec; intros SK.
      - rewrite SK in ES. rewrite pyDivmod_wrap. destruct (divmod_int_int a b) as [[]| | |]; exact ES.
      - unfold sdiv in ES. unfold cpp_div. destruct (_ || _); exact ES. }
    assert (KM : (if py then intToIntBinaryNoZeroRHS ret (fun x y => ('(_, m) <- pyDivmod true x y ;; Ok m)%res) Mod else intToIntBinaryNoZeroRHS ret cpp_mod Mod)
       (Call (Magic m [TInt; TInt]) [Const (VInt a); Const (VInt b)]) = Ok None \/
       (if py then intToIntBinaryNoZeroRHS ret (fun x y => ('(_, m) <- pyDivmod true x y ;; Ok m)%res) Mod else intToIntBinaryNoZeroRHS ret cpp_mod Mod)
       (Call (Magic m [TInt; TInt]) [Const (VInt a); Const (VInt b)]) = Ok (Some (Const v))).
    { destruct m; try (left; destruct py; reflexivity). cbn [int_int] in ES. destruct py; apply dbl_dec; intros SK.
      - rewrite SK in ES. rewrite pyDivmod_wrap. destruct (divmod_int_int a b) as [[]| | |]; exact ES.
      - unfold srem in ES. unfold cpp_mod. destruct (_ || _); exact ES. }
    assert (KT : forall x, x =? 0 = true -> x = 0) by (intros; lia).
    unfold standard_rules, safe_rules, const_rules.
    constructor; [|constructor; [|constructor]].
    + unfold mul_zero. destruct m; try (left; reflexivity). apply single_dec; intros _ ->; unfold to_val; cbn in ES; [|rewrite Z.mul_0_r in ES]; change (w64 0) with 0 in ES; congruence.
    + unfold zero_floordiv. destruct m; try (left; reflexivity). apply single_dec; [intros _ ->|discriminate]. unfold to_val. cbn [int_spec] in HS.
      destruct (_ || _); [discriminate|]. injection HS as <-. destruct py; rewrite ?Z.div_0_l, ?Z.quot_0_l by auto; reflexivity.
    + left. destruct m; reflexivity.
    + rewrite !Forall_app. repeat split.
      * unfold identity_rules. repeat (apply Forall_cons; [try (left; destruct m; reflexivity)|]); try apply Forall_nil.
        -- destruct m; try (left; reflexivity). apply single_dec; intros _ E1; unfold id_val; cbn [int_int] in ES; injection ES as <-; [replace (a * b) with b by (rewrite E1; lia)|replace (a * b) with a by (rewrite E1; lia)]; now rewrite w64_id.
        -- destruct m; try (left; reflexivity). apply single_dec; [discriminate|]; intros _ ->; unfold id_val; cbn [int_int] in ES; injection ES as <-; rewrite Z.sub_0_r, w64_id; auto.
        -- destruct m; try (left; reflexivity). apply single_dec; intros _ E1; unfold id_val; cbn [int_int] in ES; injection ES as <-; [replace (a + b) with b by lia|replace (a + b) with a by lia]; now rewrite w64_id.
        -- destruct m; try (left; reflexivity). apply single_dec; [discriminate|]; intros _ ->; unfold id_val. cbn [int_spec] in HS.
           replace ((1 =? 0) || ((a =? - 2 ^ 63) && (1 =? -1))) with false in HS by lia. injection HS as <-. destruct py; rewrite ?Z.div_1_r, ?Z.quot_1_r; reflexivity.
      * unfold int_rules. repeat (apply Forall_cons; [try exact KD; try exact KM; try (left; destruct m; reflexivity); destruct m; try (left; reflexivity); try (apply dbl_dec; intros _; rewrite ?cpp_wrap; cbn; cbn in ES; exact ES)|]); try apply Forall_nil.
        -- apply dbl_dec; intros _. unfold cpp_shl. cbn [int_int] in ES. destruct (_ && _); exact ES.
        -- apply dbl_dec; intros _. unfold cpp_shr. cbn [int_int] in ES. destruct (_ && _); exact ES.
        -- apply dbl_dec; intros _. cbn [int_int] in ES. unfold int_pow. unfold ipow in ES. destruct (b <? 0); [exact ES|]. now rewrite int_pow_wrap_loop.
      * unfold bool_rules. repeat (apply Forall_cons; [left; destruct m; reflexivity|]). apply Forall_nil.
      * unfold float_rules. repeat (apply Forall_cons; [left; destruct py, m; reflexivity|]). apply Forall_nil.
      * unfold int_float_rules. repeat (apply Forall_cons; [left; destruct py, m; reflexivity|]). apply Forall_nil.
      * unfold convert_rules. repeat (apply Forall_cons; [left; destruct m; reflexivity|]). apply Forall_nil.
  - eapply Permutation_Exists; [symmetry; exact HP|]. unfold standard_rules, safe_rules, const_rules. do 3 apply Exists_cons_tl. apply Exists_app. right. apply Exists_app. left.
    unfold int_rules. destruct m; try discriminate; cbn [int_int] in ES.
    + apply Exists_cons_hd. apply dbl_fires; auto. rewrite cpp_wrap. exact ES.
    + do 1 apply Exists_cons_tl. apply Exists_cons_hd. apply dbl_fires; auto. rewrite cpp_wrap. exact ES.
    + do 3 apply Exists_cons_tl. apply Exists_cons_hd. apply dbl_fires; auto. rewrite cpp_wrap. exact ES.
    + do 2 apply Exists_cons_tl. apply Exists_cons_hd. cbn [int_spec] in HS. assert (SK : b =? 0 = false) by (destruct (b =? 0); [discriminate|auto]).
      destruct py; apply dbl_fires; auto.
      * rewrite SK in ES. rewrite pyDivmod_wrap. destruct (divmod_int_int a b) as [[]| | |]; exact ES.
    + do 10 apply Exists_cons_tl. apply Exists_cons_hd. cbn [int_spec] in HS. assert (SK : b =? 0 = false) by (destruct (b =? 0); [discriminate|auto]).
      destruct py; apply dbl_fires; auto.
      * rewrite SK in ES. rewrite pyDivmod_wrap. destruct (divmod_int_int a b) as [[]| | |]; exact ES.
    + do 4 apply Exists_cons_tl. apply Exists_cons_hd. apply dbl_fires; auto. unfold cpp_shl. destruct (_ && _); exact ES.
    + do 5 apply Exists_cons_tl. apply Exists_cons_hd. apply dbl_fires; auto. unfold cpp_shr. destruct (_ && _); exact ES.
    + do 6 apply Exists_cons_tl. apply Exists_cons_hd. apply dbl_fires; auto. unfold int_pow. unfold ipow in ES. destruct (b <? 0); [exact ES|]. now rewrite int_pow_wrap_loop.
    + do 7 apply Exists_cons_tl. apply Exists_cons_hd. apply dbl_fires; auto.
    + do 8 apply Exists_cons_tl. apply Exists_cons_hd. apply dbl_fires; auto.
    + do 9 apply Exists_cons_tl. apply Exists_cons_hd. apply dbl_fires; auto.
    + do 11 apply Exists_cons_tl. apply Exists_cons_hd. apply dbl_fires; auto.
    + do 12 apply Exists_cons_tl. apply Exists_cons_hd. apply dbl_fires; auto.
    + do 15 apply Exists_cons_tl. apply Exists_cons_hd. apply dbl_fires; auto.
    + do 16 apply Exists_cons_tl. apply Exists_cons_hd. apply dbl_fires; auto.
    + do 13 apply Exists_cons_tl. apply Exists_cons_hd. apply dbl_fires; auto.
    + do 14 apply Exists_cons_tl. apply Exists_cons_hd. apply dbl_fires; auto.
Qed.

(** The compiler itself has undefined behaviour on overflowing constants when its arithmetic
    does not wrap (C++), although the program's result is defined. *)
Theorem C20_folding_overflow_refuted : exists a b v, in64 a /\ in64 b /\ int_spec py Add a b = Some v /\
  rewrite (standard_rules ret false py fopq) (Call (Magic Add [TInt; TInt]) [Const (VInt a); Const (VInt b)]) = Undef.
Proof. exists max64, 1, (VInt min64). repeat split; try (unfold in64, min64, max64; lia); destruct py; reflexivity. Qed.

(** Dividing the least int by -1 and shifting by 64 or more execute undefined behaviour in the
    compiler even if its arithmetic wraps. *)
Theorem C20_folding_undefined_refuted :
  rewrite (standard_rules ret true py fopq) (Call (Magic FloorDiv [TInt; TInt]) [Const (VInt min64); Const (VInt (-1))]) = Undef /\
  rewrite (standard_rules ret true py fopq) (Call (Magic LShift [TInt; TInt]) [Const (VInt 1); Const (VInt 64)]) = Undef.
Proof. destruct py; split; reflexivity. Qed.

(** [1 != nan] is folded to True; the generated code computes False (int.__ne__(float) uses
    an ordered comparison). *)
Theorem C20_int_ne_nan_refuted : let e := Call (Magic Ne [TInt; TFloat]) [Const (VInt 1); Const (VFloat S754_nan)] in
  wt e /\ int_float_ne ret e = Ok (Some (Const (VBool true))) /\ forall n s, ev n e s = Some (Val (VBool false), s).
Proof. cbv zeta. repeat split; try (unfold in64, min64, max64; lia); try (eexists; reflexivity). Qed.

Context (UW : wt_ufun ret tenv uc).

(** C21: folding a whole program with any of the rules except x*0, 0//x and int != float, in any
    order, gives a program with the same defined results from every state: same value or
    exception, same final variables and world. *)
Theorem C21_folding_preserves_behaviour_partial wrap rules e e' : incl rules (safe_rules ret wrap py fopq) ->
  wt e -> fold_pass rules e = Ok e' ->
  ty_of ret e' = ty_of ret e /\
  forall n s o s', wt_state tenv s -> o <> UB -> (ev n e s = Some (o, s') <-> ev n e' s = Some (o, s')).
Proof.
  intros HI WT E. destruct (fold_pass_eqv fopq fpowi py uc ret tenv wrap UW rules HI e e' WT E) as [[_ T] [R1 R2]].
  split; auto. intros n s o s' Hs HO. split; intros H; [apply R1|apply R2]; auto.
Qed.

(** C21: without Python numerics, x*0 and 0//x can be folded too in programs whose integer
    products and floor divisions have operands without effects. *)
Theorem C21_folding_effect_free_operands_partial wrap rules e e' : py = false ->
  incl rules (mul_zero ret :: zero_floordiv ret :: safe_rules ret wrap py fopq) ->
  wt e -> keeps e -> fold_pass rules e = Ok e' ->
  forall n s o s', wt_state tenv s -> o <> UB -> ev n e s = Some (o, s') -> ev n e' s = Some (o, s').
Proof.
  intros Hpy HI WT K E. destruct (fold_pass_keeps fopq fpowi py uc ret tenv wrap UW rules Hpy HI e e' WT K E) as [_ R1].
  intros n s o s' Hs HO H. apply R1; auto.
Qed.
End C20.

(** ** Counterexamples to C21 *)
Section Refuted.
Context (fopq : magic -> spec_float -> spec_float -> spec_float) (fpowi : spec_float -> Z -> spec_float).
Definition r0 (f : nat) : ty := TInt.
Definition t0 (g : bool) (i : nat) : ty := TInt.
(** a function that counts its calls *)
Definition uc0 : ufun (W := nat) := fun f vs g w => Some (Val (VInt 7), g, S w).
Definition s0 : state nat := St (fun _ => VInt 0) (fun _ => VInt 0) 0%nat.
Lemma uc0_wt : wt_ufun r0 t0 uc0.
Proof. intros f vs g w o g' w'. unfold uc0. intros [= <- <- <-] H. split; auto. cbn. unfold in64, min64, max64. lia. Qed.
Lemma s0_wt : wt_state t0 s0.
Proof. split; intros i; cbn; unfold in64, min64, max64; lia. Qed.

(** [f() * 0] becomes [0]: the call is lost, in any numerics mode. *)
Theorem C21_multiply_by_zero_drops_call_refuted py : let e := Call (Magic Mul [TInt; TInt]) [Call (User 0) []; Const (VInt 0)] in
  wt r0 t0 e /\ fold_pass (standard_rules r0 true py fopq) e = Ok (Const (VInt 0)) /\
  wld (snd (match ev fopq fpowi py uc0 1 e s0 with Some r => r | None => (UB, s0) end)) = 1%nat /\
  ev fopq fpowi py uc0 1 (Const (VInt 0)) s0 = Some (Val (VInt 0), s0).
Proof. cbv zeta. destruct py; repeat split; try (unfold in64, min64, max64; lia); try (eexists; reflexivity). Qed.

(** [0 // x] becomes [0]: with Python numerics the ZeroDivisionError for x = 0 is lost. *)
Theorem C21_zero_floordiv_drops_exception_refuted : let x := Var 0 TInt false in
  let e := Call (Magic FloorDiv [TInt; TInt]) [Const (VInt 0); VarV x] in
  wt r0 t0 e /\ fold_pass (standard_rules r0 true true fopq) e = Ok (Const (VInt 0)) /\
  ev fopq fpowi true uc0 1 e s0 = Some (Exn (exn_val ZeroDivisionError), s0).
Proof. cbv zeta. repeat split; try (unfold in64, min64, max64; lia); try (eexists; reflexivity). Qed.

(** A program the preservation theorems apply to: x = (f() + 0) * 1; return x << (2 + 3) *)
Definition prog0 : node :=
  let x := Var 0 TInt false in
  Series [Assign x (Call (Magic Mul [TInt; TInt]) [Call (Magic Add [TInt; TInt]) [Call (User 0) []; Const (VInt 0)]; Const (VInt 1)]);
          Return (Call (Magic LShift [TInt; TInt]) [VarV x; Call (Magic Add [TInt; TInt]) [Const (VInt 2); Const (VInt 3)]])].
Example C21_applies : wt r0 t0 prog0 /\
  fold_pass (safe_rules r0 true true fopq) prog0 =
    Ok (Series [Assign (Var 0 TInt false) (Call (User 0) []); Return (Call (Magic LShift [TInt; TInt]) [VarV (Var 0 TInt false); Const (VInt 5)])]) /\
  exists s', ev fopq fpowi true uc0 1 prog0 s0 = Some (Ret (VInt 224), s').
Proof. repeat split; try (unfold in64, min64, max64; lia); try (eexists; reflexivity). Qed.
Definition prog1 : node :=
  let x := Var 0 TInt false in
  Return (Call (Magic Add [TInt; TInt]) [Call (User 0) []; Call (Magic Mul [TInt; TInt]) [Const (VInt 0); Call (Magic Sub [TInt; TInt]) [VarV x; Const (VInt 1)]]]).
Example C21_keeps_applies : wt r0 t0 prog1 /\ keeps prog1 /\
  fold_pass (standard_rules r0 true false fopq) prog1 = Ok (Return (Call (User 0) [])).
Proof. repeat split; try (unfold in64, min64, max64; lia); try (eexists; reflexivity). Qed.
End Refuted.

Print Assumptions C32_python_division_partial.
Print Assumptions C32_c_division.
Print Assumptions C32_int_operators.
Print Assumptions C20_constant_folding_agrees_partial.
Print Assumptions C20_int_constants_folded.
Print Assumptions C20_folding_overflow_refuted.
Print Assumptions C20_int_ne_nan_refuted.
Print Assumptions C21_folding_preserves_behaviour_partial.
Print Assumptions C21_folding_effect_free_operands_partial.
Print Assumptions C21_multiply_by_zero_drops_call_refuted.
Print Assumptions C21_zero_floordiv_drops_exception_refuted.
