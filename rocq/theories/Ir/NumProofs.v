(** Facts about run-time arithmetic: ranges, floor division, powers. *)
From Coq Require Import List ZArith Lia Bool ZifyBool Floats.SpecFloat.
From Verif.Common Require Import Result Int64.
From Verif.Ir Require Import Num.
Import ListNotations.
Local Open Scope Z_scope.

Lemma in64_shift z : in64 z <-> Z.shiftr z 63 = 0 \/ Z.shiftr z 63 = -1.
Proof.
  rewrite Z.shiftr_div_pow2 by lia. unfold in64, min64, max64. split; intros H.
  - destruct (Z_lt_le_dec z 0).
    + right. symmetry. apply Z.div_unique with (r := z + 2^63); lia.
    + left. apply Z.div_small. lia.
  - pose proof (Z.div_mod z (2^63) ltac:(lia)). pose proof (Z.mod_pos_bound z (2^63) ltac:(lia)).
    destruct H as [E|E]; rewrite E in H0; lia.
Qed.
Lemma in64_land a b : in64 a -> in64 b -> in64 (Z.land a b).
Proof. rewrite !in64_shift, Z.shiftr_land. intros [-> | ->] [-> | ->]; auto. Qed.
Lemma in64_lor a b : in64 a -> in64 b -> in64 (Z.lor a b).
Proof. rewrite !in64_shift, Z.shiftr_lor. intros [-> | ->] [-> | ->]; auto. Qed.
Lemma in64_lxor a b : in64 a -> in64 b -> in64 (Z.lxor a b).
Proof. rewrite !in64_shift, Z.shiftr_lxor. intros [-> | ->] [-> | ->]; auto. Qed.
Lemma in64_lnot a : in64 a -> in64 (Z.lnot a).
Proof. unfold in64, min64, max64, Z.lnot. lia. Qed.
Lemma in64_shiftr a n : 0 <= n -> in64 a -> in64 (Z.shiftr a n).
Proof.
  intros Hn. rewrite !in64_shift, Z.shiftr_shiftr by lia. rewrite Z.add_comm, <- Z.shiftr_shiftr by lia. intros [-> | ->].
  - left. apply Z.shiftr_0_l.
  - right. rewrite Z.shiftr_div_pow2 by lia. symmetry. apply Z.div_unique with (r := 2^n - 1); [|lia].
    left. split; [|lia]. pose proof (Z.pow_pos_nonneg 2 n). lia.
Qed.
Lemma in64b_spec z : in64b z = true <-> in64 z.
Proof. unfold in64b, in64. lia. Qed.
Lemma sdiv_in a b d : in64 a -> in64 b -> sdiv a b = Ok d -> in64 d.
Proof.
  unfold sdiv. intros Ha Hb. destruct ((b =? 0) || ((a =? min64) && (b =? -1))) eqn:E; [discriminate|].
  intros [= <-]. unfold in64, min64, max64 in *.
  assert (b <> 0) by lia. assert (Q : Z.abs (Z.quot a b) <= Z.abs a).
  { rewrite <- Z.quot_abs by lia. apply Z.quot_le_upper_bound; nia. }
  destruct (Z.eq_dec b (-1)) as [->|Nb].
  - change (-1) with (- (1)). rewrite Z.quot_opp_r, Z.quot_1_r by lia. lia.
  - destruct (Z.eq_dec b 1) as [->|Nb1]; [rewrite Z.quot_1_r; lia|].
    assert (Z.abs (Z.quot a b) < 2^63); [|lia].
    rewrite <- Z.quot_abs by lia. apply Z.le_lt_trans with (Z.abs a / 2).
    + rewrite Z.quot_div_nonneg by lia. apply Z.div_le_compat_l; lia.
    + apply Z.div_lt_upper_bound; lia.
Qed.
Lemma srem_in a b d : in64 a -> in64 b -> srem a b = Ok d -> in64 d.
Proof.
  unfold srem. intros Ha Hb. destruct ((b =? 0) || ((a =? min64) && (b =? -1))) eqn:E; [discriminate|].
  intros [= <-]. unfold in64, min64, max64 in *. pose proof (Z.rem_bound_abs a b ltac:(lia)). lia.
Qed.

(** Floor division. *)
Lemma sign_lxor b m : (Z.lxor b m <? 0) = negb (Bool.eqb (b <? 0) (m <? 0)).
Proof.
  assert (N : forall x, (x <? 0) = negb (0 <=? x)) by (intros; lia).
  rewrite !N. destruct (0 <=? b) eqn:Eb, (0 <=? m) eqn:Em; cbn [eqb negb]; apply eq_true_iff_eq; rewrite ?negb_true_iff, ?negb_false_iff.
  all: try (assert (0 <= Z.lxor b m) by (apply Z.lxor_nonneg; lia)).
  all: try (assert (~ 0 <= Z.lxor b m) by (rewrite Z.lxor_nonneg; lia)).
  all: lia.
Qed.
Lemma divmod_floor a b : in64 a -> in64 b -> b <> 0 -> ~ (a = min64 /\ b = -1) ->
  divmod_int_int a b = Ok (a / b, a mod b).
Proof.
  intros Ha Hb Nb Nm. unfold divmod_int_int, sdiv.
  replace ((b =? 0) || ((a =? min64) && (b =? -1))) with false by lia. cbn [bind].
  pose proof (Z.quot_rem' a b) as QR. pose proof (Z.rem_bound_abs a b Nb) as RB.
  assert (SD : sdiv a b = Ok (Z.quot a b)) by (unfold sdiv; now replace ((b =? 0) || ((a =? min64) && (b =? -1))) with false by lia).
  pose proof (sdiv_in a b _ Ha Hb SD) as QI.
  set (q := Z.quot a b) in *. set (r := Z.rem a b) in *.
  assert (E1 : w64 (a - w64 (q * b)) = r).
  { rewrite w64_sub_r. replace (a - q * b) with r by lia. apply w64_id. unfold in64, min64, max64 in *. lia. }
  rewrite E1. rewrite sign_lxor.
  assert (RS : (0 <= a -> 0 <= r) /\ (a <= 0 -> r <= 0)).
  { split; intros; [apply Z.rem_nonneg|apply Z.rem_nonpos]; lia. }
  destruct (negb (r =? 0) && negb (eqb (b <? 0) (r <? 0))) eqn:E.
  - assert (r <> 0 /\ (b < 0 /\ 0 < r \/ 0 < b /\ r < 0)) as (R0 & RB') by lia.
    assert (D : q - 1 = a / b /\ r + b = a mod b).
    { destruct RB' as [RB'|RB'].
      - split; [apply Z.div_unique with (r := r + b)|apply Z.mod_unique with (q := q - 1)]; lia.
      - split; [apply Z.div_unique with (r := r + b)|apply Z.mod_unique with (q := q - 1)]; lia. }
    destruct D as (D1 & D2). rewrite <- D1, <- D2. rewrite !w64_id; auto.
    + unfold in64, min64, max64 in *. lia.
    + unfold in64, min64, max64 in *.
      assert (q - 1 = a / b) by auto. assert (-2^63 <= a / b); [|lia].
      destruct (Z_lt_le_dec b 0).
      * 
        assert (0 < r) by lia. assert (0 <= a) by lia.
        assert (q <= 0). { unfold q. destruct (Z.eq_dec a 0) as [->|]; [rewrite Z.quot_0_l; lia|].
          pose proof (Z.quot_opp_r a (-b) ltac:(lia)) as Q. rewrite Z.opp_involutive in Q. rewrite Q.
          pose proof (Z.quot_pos a (-b) ltac:(lia) ltac:(lia)). lia. }
        nia.
      * apply Z.div_le_lower_bound; nia.
  - assert (r = 0 \/ (b < 0 /\ r < 0 \/ 0 < b /\ 0 < r)) as RB' by lia.
    f_equal. f_equal; [apply Z.div_unique with (r := r)|apply Z.mod_unique with (q := q)]; lia.
Qed.

(** Powers modulo 2^64. *)
Lemma w64_pow a n : 0 <= n -> w64 (w64 a ^ n) = w64 (a ^ n).
Proof.
  intros H. pattern n. apply natlike_ind; auto. intros x Hx IH. unfold Z.succ. rewrite !Z.pow_add_r, !Z.pow_1_r by lia.
  rewrite <- w64_mul_l, IH, w64_mul_l, w64_mul_r. reflexivity.
Qed.
Lemma ipow_loop_ok fuel : forall self exp result, 0 <= exp < 2 ^ Z.of_nat fuel -> in64 result ->
  ipow_loop (S fuel) self exp result = Ok (w64 (result * self ^ exp)).
Proof.
  induction fuel as [|fuel IH]; intros self exp result He Hr.
  - assert (exp = 0) as -> by (change (2 ^ Z.of_nat 0) with 1 in He; lia). cbn. f_equal. rewrite Z.mul_1_r. now rewrite w64_id.
  - cbn [ipow_loop]. assert (L : Z.land exp 1 = exp mod 2). { change 1 with (Z.ones 1). now rewrite Z.land_ones by lia. }
    rewrite L. rewrite Z.shiftr_div_pow2 by lia. change (2^1) with 2.
    pose proof (Z.div_mod exp 2 ltac:(lia)) as DM. pose proof (Z.mod_pos_bound exp 2 ltac:(lia)) as MB.
    set (h := exp / 2) in *. set (o := exp mod 2) in *.
    assert (P : self ^ exp = (self * self) ^ h * self ^ o).
    { rewrite DM. rewrite Z.pow_add_r by lia. rewrite Z.pow_mul_r by lia. rewrite Z.pow_2_r. reflexivity. }
    assert (R : (if negb (o =? 0) then w64 (result * self) else result) = w64 (result * self ^ o)).
    { destruct (Z.eqb_spec o 0) as [E0|E0]; cbn [negb].
      - rewrite E0, Z.pow_0_r, Z.mul_1_r. now rewrite w64_id.
      - replace o with 1 by lia. now rewrite Z.pow_1_r. }
    rewrite R. destruct (Z.eqb_spec h 0) as [E0|E0].
    + rewrite P, E0, Z.pow_0_r, Z.mul_1_l. reflexivity.
    + change (ipow_loop (S fuel) (w64 (self * self)) h (w64 (result * self ^ o)) = Ok (w64 (result * self ^ exp))).
      rewrite IH; [| |apply w64_in].
      * f_equal. rewrite w64_mul_l. rewrite <- w64_mul_r. rewrite w64_pow by lia. rewrite w64_mul_r.
        f_equal. rewrite P. ring.
      * rewrite Nat2Z.inj_succ, Z.pow_succ_r in He by lia. lia.
Qed.
Lemma ipow_ok a n : in64 a -> in64 n -> ipow a n = Ok (if n <? 0 then 0 else w64 (a ^ n)).
Proof.
  intros Ha Hn. unfold ipow. destruct (n <? 0) eqn:E; auto.
  change 64%nat with (S 63). rewrite ipow_loop_ok.
  - now rewrite Z.mul_1_l.
  - change (2 ^ Z.of_nat 63) with (2^63). unfold in64, min64, max64 in *. lia.
  - unfold in64, min64, max64. lia.
Qed.

(** Results have the declared type. *)
Lemma int_int_ty py m a b v t : in64 a -> in64 b -> bin_ty m TInt TInt = Some t -> int_int py m a b = Ok v -> has_ty v t.
Proof.
  intros Ha Hb.
  assert (DM : forall d r, divmod_int_int a b = Ok (d, r) -> in64 d /\ in64 r).
  { unfold divmod_int_int. intros d r. destruct (sdiv a b) as [q| | |] eqn:Q; cbn [bind]; try discriminate.
    destruct (_ && _); intros H; injection H as <- <-; split; first [apply w64_in | now apply (sdiv_in a b)]. }
  destruct m; cbn; intros [= <-]; try (intros [= <-]; cbn); auto using w64_in, in64_land, in64_lor, in64_lxor.
  - destruct py.
    + destruct (b =? 0); [discriminate|]. destruct (divmod_int_int a b) as [[d r]| | |] eqn:E; cbn [bind]; try discriminate.
      intros [= <-]. cbn. now destruct (DM d r eq_refl).
    + destruct (sdiv a b) eqn:E; cbn [bind]; try discriminate. intros [= <-]. cbn. now apply (sdiv_in a b).
  - destruct (py && _); [discriminate|]. now intros [= <-].
  - destruct py.
    + destruct (b =? 0); [discriminate|]. destruct (divmod_int_int a b) as [[d r]| | |] eqn:E; cbn [bind]; try discriminate.
      intros [= <-]. cbn. now destruct (DM d r eq_refl).
    + destruct (srem a b) eqn:E; cbn [bind]; try discriminate. intros [= <-]. cbn. now apply (srem_in a b).
  - destruct ((0 <=? b) && (b <? 64)); [|discriminate]. intros [= <-]. cbn. apply w64_in.
  - destruct ((0 <=? b) && (b <? 64)) eqn:E; [|discriminate]. intros [= <-]. cbn. apply in64_shiftr; auto. lia.
  - rewrite ipow_ok by auto. cbn [bind]. intros [= <-]. cbn. destruct (b <? 0); [|apply w64_in]. unfold in64, min64, max64. lia.
Qed.
Lemma flt_flt_ty fopq py ne m a b v t : bin_ty m TFloat TFloat = Some t -> flt_flt fopq py ne m a b = Ok v -> has_ty v t.
Proof.
  destruct m; cbn; intros [= <-]; try (intros [= <-]; exact I);
  destruct (py && foeq b fzero); try discriminate; intros [= <-]; exact I.
Qed.
Lemma bool_bool_ty m a b v t : bin_ty m TBool TBool = Some t -> bool_bool m a b = Ok v -> has_ty v t.
Proof. destruct m; cbn; intros [= <-]; intros [= <-]; exact I. Qed.

Lemma magic_sem_ty fopq fpowi py m vs ts t v : Forall2 has_ty vs ts -> magic_ty m ts = Some t ->
  magic_sem fopq fpowi py m vs = Ok v -> has_ty v t.
Proof.
  intros F. inversion F as [|a ta vs1 ts1 Ha F1]; subst; [discriminate|].
  inversion F1 as [|b tb vs2 ts2 Hb F2]; subst.
  - cbn. clear F F1. destruct a, ta; try contradiction; destruct m; cbn; try discriminate; intros [= <-];
      try (intros [= <-]; cbn; auto using w64_in, in64_lnot; fail).
    + unfold f2i. destruct (ftrunc f) as [z|]; cbn; [|discriminate]. destruct (in64b z) eqn:E; cbn; [|discriminate].
      intros [= <-]. cbn. now apply in64b_spec.
    + intros [= <-]. cbn. unfold in64, min64, max64. destruct b; cbn; lia.
  - inversion F2; subst; [|discriminate]. cbn. clear F F1 F2.
    destruct a, ta; try contradiction; destruct b, tb; try contradiction; cbn; try discriminate.
    + now apply int_int_ty.
    + intros H1 H2. eapply flt_flt_ty; eauto.
    + destruct m; try discriminate. intros [= <-] [= <-]. cbn. apply w64_in.
    + intros H1 H2. destruct m; try (eapply flt_flt_ty; [|exact H2]; exact H1). cbn in H1. injection H1 as <-. injection H2 as <-. exact I.
    + intros H1 H2. eapply flt_flt_ty; eauto.
    + destruct m; try discriminate. intros [= <-] [= <-]. exact I.
    + now apply bool_bool_ty.
Qed.

(** Floats: addition and multiplication commute, subtraction is addition of the negation. *)
Lemma fadd_comm a b : fadd a b = fadd b a.
Proof.
  unfold fadd, SFadd. destruct a as [sa|sa| |sa ma ea], b as [sb|sb| |sb mb eb]; try reflexivity.
  - destruct sa, sb; reflexivity.
  - destruct sa, sb; reflexivity.
  - rewrite Z.min_comm. f_equal. apply Z.add_comm.
Qed.
Lemma fmul_comm a b : fmul a b = fmul b a.
Proof.
  unfold fmul, SFmul. destruct a as [sa|sa| |sa ma ea], b as [sb|sb| |sb mb eb]; try reflexivity.
  all: try now rewrite xorb_comm.
  rewrite xorb_comm, Pos.mul_comm, Z.add_comm. reflexivity.
Qed.
Lemma fsub_neg a b : fsub a b = fadd a (fneg b).
Proof.
  unfold fsub, SFsub, fadd, SFadd, fneg, SFopp. destruct a as [sa|sa| |sa ma ea], b as [sb|sb| |sb mb eb]; try reflexivity.
  cbv zeta. f_equal. unfold Zminus. f_equal. now destruct sb.
Qed.
