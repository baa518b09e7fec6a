(** Facts about the flag words, the bucket-count arithmetic and the probe sequence. *)
From Coq Require Import List ZArith Znumtheory Zpow_facts Lia Bool.
From Verif.Common Require Import Result Int64 Arr Tac.
From Verif.Dict Require Import Model.
Import ListNotations.
Local Open Scope Z_scope.
Local Arguments Z.add : simpl never.
Local Arguments Z.sub : simpl never.
Local Arguments Z.mul : simpl never.
Local Arguments Z.pow : simpl never.
Local Arguments Z.div : simpl never.
Local Arguments Z.modulo : simpl never.

(** ** Flag bits *)

Definition word (f : list Z) (i : Z) : Z := zn 0 f (i / 16).
Definition dbit (f : list Z) (i : Z) : bool := Z.testbit (word f i) (2 * (i mod 16)).
Definition ebit (f : list Z) (i : Z) : bool := Z.testbit (word f i) (2 * (i mod 16) + 1).

Lemma shr4 i : Z.shiftr i 4 = i / 16.
Proof. rewrite Z.shiftr_div_pow2 by lia. reflexivity. Qed.
Lemma and15 i : Z.land i 15 = i mod 16.
Proof. change 15 with (Z.ones 4). rewrite Z.land_ones by lia. reflexivity. Qed.
Lemma shl1 i : Z.shiftl i 1 = 2 * i.
Proof. rewrite Z.shiftl_mul_pow2 by lia. lia. Qed.
Lemma mod16 i : 0 <= i mod 16 < 16.
Proof. apply Z.mod_pos_bound. lia. Qed.

Lemma low2 x : Z.land x 3 = (if Z.testbit x 0 then 1 else 0) + (if Z.testbit x 1 then 2 else 0).
Proof.
  change 3 with (Z.ones 2). rewrite Z.land_ones by lia. change (2^2) with 4.
  rewrite (Z.bit0_odd x). replace (Z.testbit x 1) with (Z.odd (x / 2)).
  2:{ change 1 with (0 + 1) at 1. rewrite <- Z.bit0_odd. rewrite <- Z.shiftr_div_pow2 with (n := 1) by lia.
      rewrite Z.shiftr_spec by lia. f_equal. }
  pose proof (Z.div_mod x 2 ltac:(lia)). pose proof (Z.div_mod (x/2) 2 ltac:(lia)).
  pose proof (Z.mod_pos_bound x 2 ltac:(lia)). pose proof (Z.mod_pos_bound (x/2) 2 ltac:(lia)).
  pose proof (Zmod_odd x). pose proof (Zmod_odd (x/2)).
  symmetry. apply Z.mod_unique_pos with (q := x / 2 / 2).
  - destruct (Z.odd x), (Z.odd (x/2)); lia.
  - destruct (Z.odd x), (Z.odd (x/2)); lia.
Qed.
Lemma low1 x : Z.land x 1 = if Z.testbit x 0 then 1 else 0.
Proof.
  change 1 with (Z.ones 1) at 1. rewrite Z.land_ones by lia. change (2^1) with 2. rewrite Z.bit0_odd.
  pose proof (Zmod_odd x). destruct (Z.odd x); auto.
Qed.
Lemma lowb x : Z.land x 2 = if Z.testbit x 1 then 2 else 0.
Proof.
  apply Z.bits_inj'. intros n Hn. rewrite Z.land_spec.
  destruct (Z.eq_dec n 1) as [->|H1].
  - destruct (Z.testbit x 1); reflexivity.
  - replace (Z.testbit 2 n) with false.
    + rewrite andb_false_r. destruct (Z.testbit x 1); [|now rewrite Z.bits_0].
      symmetry. change 2 with (2^1). rewrite Z.pow2_bits_eqb by lia. lia.
    + symmetry. change 2 with (2^1). rewrite Z.pow2_bits_eqb by lia. lia.
Qed.

Lemma fb f i m : 0 <= i -> i / 16 < zlen f ->
  flag_bits f i m = Ok (Z.land (Z.shiftr (word f i) (2 * (i mod 16))) m).
Proof.
  intros H1 H2. unfold flag_bits. rewrite shr4, and15, shl1.
  assert (0 <= i / 16) by (apply Z.div_pos; lia).
  rewrite (aget_ok 0) by lia. cbn [bind]. pose proof (mod16 i).
  unfold u32. rewrite (Z.mod_small (2 * (i mod 16))) by lia. reflexivity.
Qed.

Lemma isempty_eq f i : 0 <= i -> i / 16 < zlen f -> isempty f i = Ok (if ebit f i then 2 else 0).
Proof.
  intros. unfold isempty. rewrite fb by auto. rewrite lowb. pose proof (mod16 i).
  rewrite Z.shiftr_spec by lia. unfold ebit. now rewrite Z.add_comm.
Qed.
Lemma isdel_eq f i : 0 <= i -> i / 16 < zlen f -> isdel f i = Ok (if dbit f i then 1 else 0).
Proof.
  intros. unfold isdel. rewrite fb by auto. rewrite low1. pose proof (mod16 i).
  rewrite Z.shiftr_spec by lia. unfold dbit. now rewrite Z.add_0_l.
Qed.
Lemma iseither_eq f i : 0 <= i -> i / 16 < zlen f ->
  exists v, iseither f i = Ok v /\ (v =? 0) = negb (dbit f i || ebit f i).
Proof.
  intros. unfold iseither. rewrite fb by auto. rewrite low2. pose proof (mod16 i).
  rewrite !Z.shiftr_spec by lia. eexists. split; [reflexivity|]. unfold ebit, dbit.
  rewrite Z.add_0_l. rewrite (Z.add_comm 1).
  destruct (Z.testbit _ _), (Z.testbit _ _); reflexivity.
Qed.

Lemma u32_bits x n : 0 <= n < 32 -> Z.testbit (u32 x) n = Z.testbit x n.
Proof. intros. unfold u32. now rewrite Z.mod_pow2_bits_low by lia. Qed.

(** The effect of clearing bits [m] (1, 2 or 3) of bucket [i]. *)
Lemma clear_spec f i m : 0 <= i -> i / 16 < zlen f -> 0 <= m < 4 ->
  wp (clear_bits f i m) (fun g => zlen g = zlen f /\ forall j, 0 <= j ->
     dbit g j = (if j =? i then dbit f i && negb (Z.testbit m 0) else dbit f j) /\
     ebit g j = (if j =? i then ebit f i && negb (Z.testbit m 1) else ebit f j)).
Proof.
  intros H1 H2 Hm. unfold clear_bits. rewrite shr4, and15, shl1.
  assert (0 <= i / 16) by (apply Z.div_pos; lia).
  rewrite (aget_ok 0) by lia. cbn [bind]. rewrite aset_ok by lia. apply wp_ok.
  split; [apply zlen_upd|]. intros j Hj. pose proof (mod16 i). pose proof (mod16 j).
  assert (0 <= j / 16) by (apply Z.div_pos; lia).
  unfold dbit, ebit, word. rewrite zn_upd by lia.
  pose proof (Z.div_mod i 16 ltac:(lia)). pose proof (Z.div_mod j 16 ltac:(lia)).
  assert (MB : forall n, 2 <= n -> Z.testbit m n = false).
  { intros n Hn. destruct (Z.eq_dec m 0) as [->|]; [apply Z.bits_0|]. apply Z.bits_above_log2; [lia|]. 
    assert (Z.log2 m < 2) by (apply Z.log2_lt_pow2; lia). lia. }
  assert (MN : forall n, n < 0 -> Z.testbit m n = false) by (intros; now apply Z.testbit_neg_r).
  destruct (Z.eqb_spec (j / 16) (i / 16)) as [E|E].
  - rewrite !Z.land_spec, !u32_bits, !Z.lnot_spec, !Z.shiftl_spec by lia. fold (word f i).
    destruct (Z.eqb_spec j i) as [->|N].
    + replace (2 * (i mod 16) - 2 * (i mod 16)) with 0 by lia.
      replace (2 * (i mod 16) + 1 - 2 * (i mod 16)) with 1 by lia. auto.
    + assert (i mod 16 <> j mod 16) by lia. unfold word. rewrite E.
      assert (T1 : Z.testbit m (2 * (j mod 16) - 2 * (i mod 16)) = false).
      { destruct (Z_lt_le_dec (j mod 16) (i mod 16)); [apply MN|apply MB]; lia. }
      assert (T2 : Z.testbit m (2 * (j mod 16) + 1 - 2 * (i mod 16)) = false).
      { destruct (Z_lt_le_dec (j mod 16) (i mod 16)); [apply MN|apply MB]; lia. }
      rewrite T1, T2. now rewrite !andb_true_r.
  - destruct (Z.eqb_spec j i) as [->|N]; [lia|]. auto.
Qed.

Lemma set_del_spec f i : 0 <= i -> i / 16 < zlen f ->
  wp (set_isdel_true f i) (fun g => zlen g = zlen f /\ forall j, 0 <= j ->
     dbit g j = (if j =? i then true else dbit f j) /\ ebit g j = ebit f j).
Proof.
  intros H1 H2. unfold set_isdel_true. rewrite shr4, and15, shl1.
  assert (0 <= i / 16) by (apply Z.div_pos; lia).
  rewrite (aget_ok 0) by lia. cbn [bind]. rewrite aset_ok by lia. apply wp_ok.
  split; [apply zlen_upd|]. intros j Hj. pose proof (mod16 i). pose proof (mod16 j).
  assert (0 <= j / 16) by (apply Z.div_pos; lia).
  unfold dbit, ebit, word. rewrite zn_upd by lia.
  pose proof (Z.div_mod i 16 ltac:(lia)). pose proof (Z.div_mod j 16 ltac:(lia)).
  destruct (Z.eqb_spec (j / 16) (i / 16)) as [E|E].
  - rewrite !Z.lor_spec, !u32_bits by lia. rewrite Z.shiftl_1_l. rewrite !Z.pow2_bits_eqb by lia.
    rewrite E. split.
    + destruct (Z.eqb_spec j i) as [->|N].
      * rewrite Z.eqb_refl. now rewrite orb_true_r.
      * replace (2 * (i mod 16) =? 2 * (j mod 16)) with false by lia. now rewrite orb_false_r.
    + replace (2 * (i mod 16) =? 2 * (j mod 16) + 1) with false by lia. now rewrite orb_false_r.
  - destruct (Z.eqb_spec j i) as [->|N]; [lia|]. auto.
Qed.

(** Fresh flags: every bucket empty, not deleted. *)
Lemma aaaa_bits n : 0 <= n < 16 ->
  Z.testbit 2863311530 (2 * n) = false /\ Z.testbit 2863311530 (2 * n + 1) = true.
Proof.
  intros H. rewrite <- (Z2Nat.id n) by lia.
  assert (L : (Z.to_nat n < 16)%nat) by lia. revert L. generalize (Z.to_nat n) as k. intros k L.
  do 16 (destruct k as [|k]; [vm_compute; auto|]). lia.
Qed.

Lemma fresh_bits w i : 0 <= i -> i / 16 < Z.of_nat w ->
  dbit (repeat 2863311530 w) i = false /\ ebit (repeat 2863311530 w) i = true.
Proof.
  intros H1 H2. assert (0 <= i / 16) by (apply Z.div_pos; lia).
  assert (W : word (repeat 2863311530 w) i = 2863311530).
  { unfold word, zn. apply (repeat_spec w). apply nth_In. rewrite repeat_length. lia. }
  unfold dbit, ebit. rewrite W. apply aaaa_bits, mod16.
Qed.

(** ** Powers of two *)

Definition pow2 (n : Z) : Prop := exists k, 2 <= k <= 62 /\ n = 2 ^ k.

Lemma fsize_enough n i : pow2 n -> 0 <= i < n -> i / 16 < fsize n.
Proof.
  intros (k & Hk & ->) Hi. unfold fsize. rewrite shr4.
  destruct (Z.ltb_spec (2 ^ k) 16).
  - apply Z.div_lt_upper_bound; lia.
  - apply Z.div_lt_upper_bound; [lia|]. 
    assert (4 <= k). { apply Z.le_ngt. intros C. assert (2^k < 2^4) by (apply Z.pow_lt_mono_r; lia). lia. }
    assert (E : 2 ^ k = 2 ^ (k - 4) * 16).
    { change 16 with (2 ^ 4). rewrite <- Z.pow_add_r by lia. f_equal. lia. }
    rewrite E in *. rewrite Z.div_mul by lia. lia.
Qed.
Lemma fsize_pos n : pow2 n -> 1 <= fsize n.
Proof.
  intros H. pose proof (fsize_enough n 0 H) as F. 
  assert (1 <= n). { destruct H as (k & Hk & ->). assert (0 < 2^k) by (apply Z.pow_pos_nonneg; lia). lia. }
  specialize (F ltac:(lia)). rewrite Z.div_0_l in F; lia.
Qed.

Lemma pow2_bounds n : pow2 n -> 4 <= n <= 2^62.
Proof.
  intros (k & Hk & ->). split.
  - change 4 with (2^2). apply Z.pow_le_mono_r; lia.
  - apply Z.pow_le_mono_r; lia.
Qed.

(** A bit pattern whose set bits in (l-w, l] are all there and none above. *)
Definition filled (w l n : Z) : Prop :=
  0 <= n /\ (forall b, l < b -> Z.testbit n b = false) /\
  (forall b, l - w < b <= l -> 0 <= b -> Z.testbit n b = true).

Lemma smear_filled w l n : 0 < w -> filled w l n -> filled (2 * w) l (smear w n).
Proof.
  intros Hw (H0 & H1 & H2). unfold smear. split; [|split].
  - apply Z.lor_nonneg. split; auto. apply Z.shiftr_nonneg. auto.
  - intros b Hb. rewrite Z.lor_spec, H1 by auto. simpl.
    destruct (Z_lt_le_dec b 0); [apply Z.testbit_neg_r; lia|].
    rewrite Z.shiftr_spec by lia. apply H1. lia.
  - intros b Hb Hb0. rewrite Z.lor_spec, Z.shiftr_spec by lia.
    destruct (Z_lt_le_dec (l - w) b).
    + now rewrite H2 by lia.
    + rewrite (H2 (b + w)) by lia. apply orb_true_r.
Qed.

Lemma round_core n : 0 < n < 2^63 ->
  smear 32 (smear 16 (smear 8 (smear 4 (smear 2 (smear 1 n))))) = 2 ^ (Z.log2 n + 1) - 1.
Proof.
  intros H. pose proof (Z.log2_nonneg n).
  assert (L : Z.log2 n < 63) by (apply Z.log2_lt_pow2; lia).
  assert (F : filled 1 (Z.log2 n) n).
  { split; [lia|]. split.
    - intros b Hb. apply Z.bits_above_log2; lia.
    - intros b Hb Hb0. replace b with (Z.log2 n) by lia. apply Z.bit_log2. lia. }
  apply smear_filled, smear_filled, smear_filled, smear_filled, smear_filled, smear_filled in F; try lia.
  destruct F as (F0 & F1 & F2). 
  change (2*1) with 2 in *; change (2*2) with 4 in *; change (2*4) with 8 in *;
  change (2*8) with 16 in *; change (2*16) with 32 in *; change (2*32) with 64 in *.
  replace (2 ^ (Z.log2 n + 1) - 1) with (Z.ones (Z.log2 n + 1)) by (rewrite Z.ones_equiv; lia).
  apply Z.bits_inj'. intros b Hb. destruct (Z_lt_le_dec (Z.log2 n) b).
  - rewrite F1 by lia. symmetry. apply Z.ones_spec_high. lia.
  - rewrite F2 by lia. symmetry. apply Z.ones_spec_low. lia.
Qed.

Lemma smear_m1 s : 0 <= s -> smear s (-1) = -1.
Proof. intros. unfold smear. now rewrite Z.lor_m1_l. Qed.

(** On negative numbers the smearing stays negative. *)
Lemma smear_neg s n : 0 <= s -> n < 0 -> smear s n < 0.
Proof. intros Hs H. unfold smear. apply Z.lor_neg. auto. Qed.
Lemma smear_ge s n : 0 <= s -> n < 0 -> n <= smear s n.
Proof.
  intros Hs H. unfold smear.
  assert (E : Z.lor n (Z.shiftr n s) = - Z.land (-1 - n) (-1 - Z.shiftr n s) - 1).
  { assert (L : forall a, -1 - a = Z.lnot a) by (intros; unfold Z.lnot; lia).
    rewrite !L. rewrite <- Z.lnot_lor. unfold Z.lnot. lia. }
  rewrite E. assert (Z.land (-1 - n) (-1 - Z.shiftr n s) <= -1 - n).
  { assert (0 <= -1 - n) by lia. assert (0 <= -1 - Z.shiftr n s). { pose proof (Z.shiftr_neg n s). lia. }
    pose proof (Z.ldiff_nonneg (-1 - n) (-1 - Z.shiftr n s)).
    assert (S : Z.land (-1 - n) (-1 - Z.shiftr n s) + Z.ldiff (-1 - n) (-1 - Z.shiftr n s) = -1 - n).
    { rewrite Z.add_nocarry_lxor.
      - rewrite Z.lxor_lor. + apply Z.bits_inj'. intros b Hb. 
        rewrite Z.lor_spec, Z.land_spec, Z.ldiff_spec. destruct (Z.testbit _ b), (Z.testbit _ b); auto.
        + apply Z.bits_inj'. intros b Hb. rewrite !Z.land_spec, Z.ldiff_spec, Z.bits_0.
          destruct (Z.testbit _ b), (Z.testbit _ b); auto.
      - apply Z.bits_inj'. intros b Hb. rewrite !Z.land_spec, Z.ldiff_spec, Z.bits_0.
          destruct (Z.testbit _ b), (Z.testbit _ b); auto. }
    lia. }
  lia.
Qed.

Lemma round_up_pow2 n : in64 n -> pow2 (round_up n).
Proof.
  intros Hn. unfold round_up. pose proof (w64_in (n - 1)) as W. set (m := w64 (n - 1)) in *.
  unfold in64, min64, max64 in *.
  assert (P4 : pow2 4) by (exists 2; split; [lia|reflexivity]).
  cbv zeta. destruct (Z_lt_le_dec 0 m) as [Hm|Hm].
  - rewrite round_core by lia. pose proof (Z.log2_nonneg m).
    assert (L : Z.log2 m < 63) by (apply Z.log2_lt_pow2; lia).
    replace (2 ^ (Z.log2 m + 1) - 1 + 1) with (2 ^ (Z.log2 m + 1)) by lia.
    destruct (Z.eq_dec (Z.log2 m) 62) as [->|N].
    + change (w64 (2 ^ (62 + 1)) <? 4) with true. exact P4.
    + assert (2 ^ (Z.log2 m + 1) <= 2 ^ 62) by (apply Z.pow_le_mono_r; lia).
      assert (0 < 2 ^ (Z.log2 m + 1)) by (apply Z.pow_pos_nonneg; lia).
      rewrite w64_id by (unfold in64, min64, max64; lia).
      destruct (Z.ltb_spec (2 ^ (Z.log2 m + 1)) 4); [exact P4|].
      exists (Z.log2 m + 1). split; [|reflexivity].
      split; [|lia]. apply Z.le_ngt. intros C. assert (2 ^ (Z.log2 m + 1) <= 2 ^ 1) by (apply Z.pow_le_mono_r; lia). lia.
  - destruct (Z.eq_dec m 0) as [->|N].
    + change (pow2 4). exact P4.
    + set (r := smear 32 _).
      assert (R : min64 <= r < 0).
      { unfold r, min64. split.
        - assert (forall s x, 0 <= s -> -2^63 <= x -> x < 0 -> -2^63 <= smear s x /\ smear s x < 0).
          { intros s x Hs H1 H2. pose proof (smear_ge s x Hs H2). pose proof (smear_neg s x Hs H2). lia. }
          repeat (apply H; try lia).
        - apply smear_neg; [lia|]. repeat (apply smear_neg; try lia). }
      unfold min64 in R. rewrite w64_id by (unfold in64, min64, max64; lia).
      replace (r + 1 <? 4) with true by lia. exact P4.
Qed.

Lemma round_up_same n : pow2 n -> round_up (n - 1) = n.
Proof.
  intros P. pose proof (pow2_bounds n P). destruct P as (k & Hk & E).
  unfold round_up. rewrite (w64_id (n - 1 - 1)) by (unfold in64, min64, max64; lia).
  rewrite round_core by lia.
  assert (L : Z.log2 (n - 1 - 1) = k - 1).
  { apply Z.log2_unique; [lia|]. replace (Z.succ (k - 1)) with k by lia. rewrite <- E. 
    assert (2 * 2 ^ (k - 1) = n). { rewrite E. rewrite <- Z.pow_succ_r by lia. f_equal. lia. }
    split; [|lia]. assert (2 ^ 1 <= 2 ^ (k-1)) by (apply Z.pow_le_mono_r; lia). lia. }
  rewrite L. replace (k - 1 + 1) with k by lia. rewrite <- E.
  replace (n - 1 + 1) with n by lia. rewrite w64_id by (unfold in64, min64, max64; lia).
  destruct (Z.ltb_spec n 4); lia.
Qed.

Lemma round_up_double n : pow2 n -> n <= 2^61 -> round_up (n + 1) = 2 * n.
Proof.
  intros P B. pose proof (pow2_bounds n P). destruct P as (k & Hk & E).
  unfold round_up. replace (n + 1 - 1) with n by lia. rewrite (w64_id n) by (unfold in64, min64, max64; lia).
  rewrite round_core by lia.
  assert (L : Z.log2 n = k) by (rewrite E; apply Z.log2_pow2; lia).
  rewrite L. assert (E2 : 2 ^ (k + 1) = 2 * n) by (rewrite Z.pow_add_r by lia; lia).
  rewrite E2. replace (2 * n - 1 + 1) with (2 * n) by lia.
  rewrite w64_id by (unfold in64, min64, max64; lia).
  destruct (Z.ltb_spec (2 * n) 4); lia.
Qed.

Lemma pow2_double n : pow2 n -> n <= 2^61 -> pow2 (2 * n).
Proof. intros P B. rewrite <- round_up_double by auto. apply round_up_pow2.
  pose proof (pow2_bounds n P). unfold in64, min64, max64. lia. Qed.

(** The load bound of every table size: at least half, less than all. *)
Lemma upper_bounds n : pow2 n -> n / 2 < upper n < n /\ (2 * n <= 2^62 -> upper n < upper (2 * n)) .
Proof.
  intros (k & Hk & ->).
  assert (C : forallb (fun k => let n := 2 ^ Z.of_nat k in
     (n / 2 <? upper n) && (upper n <? n) && (upper n <? upper (2 * n))) (seq 2 61) = true)
    by (vm_compute; reflexivity).
  rewrite forallb_forall in C. specialize (C (Z.to_nat k)).
  rewrite Z2Nat.id in C by lia. cbv zeta in C.
  assert (I : In (Z.to_nat k) (seq 2 61)) by (apply in_seq; lia).
  specialize (C I). apply andb_prop in C. destruct C as [C1 C3]. apply andb_prop in C1. destruct C1 as [C1 C2].
  apply Z.ltb_lt in C1, C2, C3. auto.
Qed.

(** ** Triangular probing *)

Definition tri (s : Z) : Z := s * (s + 1) / 2.
Lemma tri_double s : 2 * tri s = s * (s + 1).
Proof.
  unfold tri. pose proof (Z.div_mod (s * (s + 1)) 2 ltac:(lia)) as E.
  assert (M : (s * (s + 1)) mod 2 = 0).
  { destruct (Z.Even_or_Odd s) as [[q ->]|[q ->]].
    - replace (2 * q * (2 * q + 1)) with (q * (2 * q + 1) * 2) by ring. apply Z.mod_mul; lia.
    - replace ((2 * q + 1) * (2 * q + 1 + 1)) with ((2 * q + 1) * (q + 1) * 2) by ring. apply Z.mod_mul; lia. }
  lia.
Qed.
Lemma tri_succ s : tri (s + 1) = tri s + (s + 1).
Proof. pose proof (tri_double s). pose proof (tri_double (s + 1)). nia. Qed.
Lemma tri_0 : tri 0 = 0. Proof. reflexivity. Qed.

(** The bucket visited at probe number [s] from home bucket [h]. *)
Definition probe (n h s : Z) : Z := (h + tri s) mod n.

Lemma land_mask a n : pow2 n -> Z.land a (n - 1) = a mod n.
Proof.
  intros (k & Hk & ->). replace (2 ^ k - 1) with (Z.ones k).
  - rewrite Z.land_ones by lia. reflexivity.
  - rewrite Z.ones_equiv. lia.
Qed.

Lemma probe_step n h s : pow2 n -> Z.land (probe n h s + (s + 1)) (n - 1) = probe n h (s + 1).
Proof.
  intros P. pose proof (pow2_bounds n P). rewrite land_mask by auto. unfold probe. rewrite tri_succ.
  rewrite Zplus_mod_idemp_l. f_equal. lia.
Qed.
Lemma probe_range n h s : pow2 n -> 0 <= probe n h s < n.
Proof. intros P. pose proof (pow2_bounds n P). apply Z.mod_pos_bound. lia. Qed.
Lemma probe_0 n h : pow2 n -> probe n h 0 = Z.land h (n - 1).
Proof. intros P. rewrite land_mask by auto. unfold probe. rewrite tri_0. f_equal. lia. Qed.
Lemma probe_home n h s : pow2 n -> probe n (Z.land h (n - 1)) s = probe n h s.
Proof.
  intros P. rewrite land_mask by auto. unfold probe. apply Zplus_mod_idemp_l.
Qed.

Lemma probe_inj_lt n h a b : pow2 n -> 0 <= a -> a < b -> b < n -> probe n h a <> probe n h b.
Proof.
  intros P Ha Hab Hb E. pose proof (pow2_bounds n P) as B. destruct P as (k & Hk & En).
  unfold probe in E.
  assert (D : (n | tri b - tri a)).
  { apply Z.mod_divide; [lia|]. 
    replace (tri b - tri a) with ((h + tri b) - (h + tri a)) by lia.
    rewrite Zminus_mod, E, Z.sub_diag. apply Z.mod_0_l. lia. }
  destruct D as [q Dq]. pose proof (tri_double a). pose proof (tri_double b).
  assert (F : (b - a) * (b + a + 1) = q * (2 * n)) by nia.
  assert (DV : (2 * n | (b - a) * (b + a + 1))) by (exists q; lia).
  assert (N2 : 2 * n = 2 ^ (k + 1)) by (rewrite Z.pow_add_r by lia; lia).
  assert (CO : forall x, Z.Odd x -> rel_prime (2 * n) x).
  { intros x [y ->]. rewrite N2. apply rel_prime_sym. apply Zpow_facts.rel_prime_Zpower_r; [lia|].
    apply bezout_rel_prime. apply Bezout_intro with 1 (- y). ring. }
  destruct (Z.Even_or_Odd (b - a)) as [Ev|Od].
  - assert (O2 : Z.Odd (b + a + 1)) by (destruct Ev as [e Ee]; exists (e + a); lia).
    rewrite (Z.mul_comm (b - a)) in DV. apply Gauss in DV; [|apply CO; auto].
    apply Z.divide_pos_le in DV; lia.
  - apply Gauss in DV; [|apply CO; auto]. apply Z.divide_pos_le in DV; lia.
Qed.

Lemma probe_inj n h a b : pow2 n -> 0 <= a < n -> 0 <= b < n -> probe n h a = probe n h b -> a = b.
Proof.
  intros P Ha Hb E. destruct (Z_lt_le_dec a b); [exfalso; eapply (probe_inj_lt n h a b); eauto; lia|].
  destruct (Z_lt_le_dec b a); [exfalso; eapply (probe_inj_lt n h b a); eauto; lia|]. lia.
Qed.

Definition zseq (n : Z) : list Z := map Z.of_nat (seq 0 (Z.to_nat n)).
Lemma in_zseq n x : In x (zseq n) <-> 0 <= x < n.
Proof.
  unfold zseq. rewrite in_map_iff. split.
  - intros (m & <- & H). apply in_seq in H. lia.
  - intros H. exists (Z.to_nat x). split; [lia|]. apply in_seq. lia.
Qed.
Lemma zseq_length n : length (zseq n) = Z.to_nat n.
Proof. unfold zseq. now rewrite map_length, seq_length. Qed.
Lemma zseq_nodup n : NoDup (zseq n).
Proof. unfold zseq. apply FinFun.Injective_map_NoDup; [intros x y; lia|apply seq_NoDup]. Qed.

Lemma NoDup_map_in {X Y} (f : X -> Y) l : NoDup l ->
  (forall x y, In x l -> In y l -> f x = f y -> x = y) -> NoDup (map f l).
Proof.
  induction 1 as [|a l Ha HN IH]; intros Hf; simpl; constructor.
  - rewrite in_map_iff. intros (y & E & I). apply Ha.
    rewrite (Hf a y); auto; [left; auto|right; auto].
  - apply IH. intros x y Hx Hy. apply Hf; right; auto.
Qed.

(** Within n probes every bucket is visited. *)
Lemma probe_surj n h i : pow2 n -> 0 <= i < n -> exists s, 0 <= s < n /\ probe n h s = i.
Proof.
  intros P Hi.
  assert (ND : NoDup (map (probe n h) (zseq n))).
  { apply NoDup_map_in; [apply zseq_nodup|]. intros x y Hx Hy E. apply in_zseq in Hx, Hy.
    eapply probe_inj; eauto. }
  assert (INC : incl (zseq n) (map (probe n h) (zseq n))).
  { apply NoDup_length_incl; auto.
    - rewrite map_length. lia.
    - intros x Hx. apply in_map_iff in Hx. destruct Hx as (s & <- & _). apply in_zseq. now apply probe_range. }
  specialize (INC i ltac:(now apply in_zseq)). apply in_map_iff in INC. destruct INC as (s & E & Hs).
  exists s. split; auto. now apply in_zseq.
Qed.
