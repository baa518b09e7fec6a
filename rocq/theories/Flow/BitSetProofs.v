(** Facts about [BitSet]. *)
From Coq Require Import List Bool ZArith Lia.
From Verif.Flow Require Import BitSet.
Import ListNotations.
Local Open Scope Z_scope.

Definition wok (n : nat) (w : bits) : Prop := length w = n /\ Forall (fun x => 0 <= x < 2 ^ 64) w.

Lemma get_testbit w i : get w i = Z.testbit (at_ w (Nat.div i 64)) (Z.of_nat (Nat.modulo i 64)).
Proof.
  unfold get. set (x := at_ w (Nat.div i 64)). set (k := Z.of_nat (Nat.modulo i 64)). assert (K : 0 <= k) by (unfold k; lia).
  rewrite <- (Z.land_comm (Z.shiftl 1 k)). rewrite Z.shiftl_1_l.
  destruct (Z.testbit x k) eqn:E.
  - apply negb_true_iff, Z.eqb_neq. intros H. assert (T : Z.testbit (Z.land (2 ^ k) x) k = true) by (rewrite Z.land_spec, E, Z.pow2_bits_true by auto; auto). rewrite H, Z.bits_0 in T. discriminate.
  - apply negb_false_iff, Z.eqb_eq. apply Z.bits_inj'. intros m Hm. rewrite Z.land_spec, Z.bits_0, Z.pow2_bits_eqb by auto. destruct (Z.eqb_spec k m) as [->|]; auto.
Qed.
Lemma at_wset w i j x : (i < length w)%nat -> at_ (wset w i x) j = if Nat.eqb i j then x else at_ w j.
Proof. unfold at_. revert i j. induction w as [|y w IH]; intros i j H; [inversion H|]. destruct i, j; cbn; auto. apply IH. cbn in H. lia. Qed.
Lemma wset_len w i x : length (wset w i x) = length w.
Proof. revert i. induction w; destruct i; cbn; auto. Qed.
Lemma at_lt w i : Forall (fun x => 0 <= x < 2 ^ 64) w -> 0 <= at_ w i < 2 ^ 64.
Proof. intros F. unfold at_. destruct (le_lt_dec (length w) i); [rewrite nth_overflow by auto; lia|]. rewrite Forall_forall in F. apply F, nth_In. auto. Qed.
Lemma lor_lt a b : 0 <= a < 2 ^ 64 -> 0 <= b < 2 ^ 64 -> 0 <= Z.lor a b < 2 ^ 64.
Proof.
  intros A C. assert (0 <= Z.lor a b) by (apply Z.lor_nonneg; lia). split; auto. destruct (Z.eq_dec (Z.lor a b) 0) as [->|]; [lia|].
  apply Z.log2_lt_pow2; [lia|]. rewrite Z.log2_lor by lia. destruct (Z.eq_dec a 0) as [->|], (Z.eq_dec b 0) as [->|]; apply Z.max_lub_lt; try (apply Z.log2_lt_pow2; lia); cbn; lia.
Qed.
Lemma land_lt a b : 0 <= a < 2 ^ 64 -> 0 <= b -> 0 <= Z.land a b < 2 ^ 64.
Proof.
  intros A C. assert (0 <= Z.land a b) by (apply Z.land_nonneg; lia). split; auto. destruct (Z.eq_dec (Z.land a b) 0) as [->|]; [lia|].
  apply Z.log2_lt_pow2; [lia|]. pose proof (Z.log2_land a b). destruct (Z.eq_dec a 0) as [->|]; [now rewrite Z.land_0_l in *|]. assert (Z.log2 a < 64) by (apply Z.log2_lt_pow2; lia). lia.
Qed.
Lemma lxor_ones q k : 0 <= q < 2 ^ 64 -> 0 <= k < 64 -> Z.testbit (Z.lxor q (2 ^ 64 - 1)) k = negb (Z.testbit q k).
Proof.
  intros Q K. rewrite Z.lxor_spec. change (2 ^ 64 - 1) with (Z.ones 64). rewrite Z.ones_spec_low by lia. now destruct (Z.testbit q k).
Qed.
Lemma lxor_ones_pos q : 0 <= q < 2 ^ 64 -> 0 <= Z.lxor q (2 ^ 64 - 1).
Proof. intros Q. apply Z.lxor_nonneg. lia. Qed.
Lemma div64 i n : (i < n)%nat -> (Nat.div i 64 < allocSize n)%nat.
Proof. intros H. unfold allocSize. apply Nat.div_lt_upper_bound; [lia|]. pose proof (Nat.div_mod (n + 63) 64). pose proof (Nat.mod_upper_bound (n + 63) 64). lia. Qed.

Lemma empty_ok n : wok (allocSize n) (empty n).
Proof. split; [apply repeat_length|]. unfold empty. apply Forall_forall. intros x H. apply repeat_spec in H. lia. Qed.
Lemma get_empty n i : get (empty n) i = false.
Proof.
  rewrite get_testbit. unfold at_, empty. replace (nth (i / 64) (repeat 0 (allocSize n)) 0) with 0; [apply Z.bits_0|].
  symmetry. generalize (i / 64)%nat. induction (allocSize n); intros [|k]; cbn; auto.
Qed.
Lemma wset_ok n w i x : wok n w -> 0 <= x < 2 ^ 64 -> wok n (wset w i x).
Proof.
  intros [L F] X. split; [now rewrite wset_len|]. clear L. revert i. induction F as [|y w Y F IH]; intros [|i]; cbn; constructor; auto.
Qed.
Lemma set_ok n w i : wok n w -> wok n (set w i).
Proof.
  intros O. apply wset_ok; auto. apply lor_lt; [apply at_lt, O|]. rewrite Z.shiftl_1_l. pose proof (Nat.mod_upper_bound i 64). split; [apply Z.pow_nonneg; lia|]. apply Z.pow_lt_mono_r; lia.
Qed.
Lemma get_set n w i j : wok (allocSize n) w -> (i < n)%nat -> get (set w i) j = Nat.eqb i j || get w j.
Proof.
  intros [L F] H. rewrite !get_testbit. unfold set. rewrite at_wset by (rewrite L; now apply div64).
  pose proof (Nat.div_mod i 64). pose proof (Nat.div_mod j 64). pose proof (Nat.mod_upper_bound i 64). pose proof (Nat.mod_upper_bound j 64).
  destruct (Nat.eqb_spec (i / 64) (j / 64)) as [E|N].
  - rewrite Z.lor_spec, E, Z.shiftl_1_l, Z.pow2_bits_eqb by lia. rewrite orb_comm. f_equal.
    destruct (Nat.eqb_spec i j) as [->|N']; [apply Z.eqb_refl|]. apply Z.eqb_neq. lia.
  - destruct (Nat.eqb_spec i j) as [->|]; [congruence|reflexivity].
Qed.
Lemma map2_len f v w : length v = length w -> length (map2 f v w) = length v.
Proof. revert w. induction v; intros [|y w] H; cbn in *; try discriminate; auto. Qed.
Lemma at_map2 f v w i : length v = length w -> f 0 0 = 0 -> at_ (map2 f v w) i = f (at_ v i) (at_ w i).
Proof. unfold at_. revert w i. induction v as [|a v IH]; intros [|y w] i H Z0; cbn in *; try discriminate; destruct i; cbn; auto. Qed.
Lemma map2_ok n f v w : wok n v -> wok n w -> (forall a b, 0 <= a < 2 ^ 64 -> 0 <= b < 2 ^ 64 -> 0 <= f a b < 2 ^ 64) -> wok n (map2 f v w).
Proof.
  intros [L F] [L' F'] H. split; [rewrite map2_len; congruence|]. clear n L L'. revert w F'. induction F as [|a v A F IH]; intros w F'; cbn; auto. destruct F' as [|b w C F']; constructor; auto.
Qed.
Lemma update_ok n v w : wok n v -> wok n w -> wok n (update v w).
Proof. intros V W. apply map2_ok; auto. apply lor_lt. Qed.
Lemma get_update n v w i : wok n v -> wok n w -> get (update v w) i = get v i || get w i.
Proof. intros [L _] [L' _]. rewrite !get_testbit. unfold update. rewrite at_map2 by (auto; congruence). apply Z.lor_spec. Qed.
Lemma subtract_ok n v w : wok n v -> wok n w -> wok n (subtract v w).
Proof. intros V W. apply map2_ok; auto. intros a b A C. apply land_lt; auto. now apply lxor_ones_pos. Qed.
Lemma get_subtract n v w i : wok n v -> wok n w -> get (subtract v w) i = get v i && negb (get w i).
Proof.
  intros [L _] [L' F']. rewrite !get_testbit. unfold subtract. rewrite at_map2 by (auto; congruence). rewrite Z.land_spec. f_equal. pose proof (Nat.mod_upper_bound i 64).
  apply lxor_ones; [now apply at_lt|lia].
Qed.
Lemma equals_eq v w : equals v w = true <-> v = w.
Proof.
  revert w. induction v as [|a v IH]; intros [|b w]; cbn; split; try discriminate; auto.
  - rewrite andb_true_iff, Z.eqb_eq. intros [-> H]. f_equal. now apply IH.
  - intros H; injection H as -> ->. rewrite andb_true_iff, Z.eqb_eq. split; auto. now apply IH.
Qed.

(** Number of bits set *)
Definition count (n : nat) (w : bits) : nat := length (filter (get w) (seq 0 (64 * n))).
Lemma bits_ext n v w : wok n v -> wok n w -> (forall i, (i < 64 * n)%nat -> get v i = get w i) -> v = w.
Proof.
  intros [L F] [L' F'] H. apply nth_ext with (d := 0) (d' := 0); [congruence|]. intros k Hk. rewrite L in Hk.
  apply Z.bits_inj'. intros m Hm. destruct (Z_lt_le_dec m 64) as [M|M].
  - specialize (H (64 * k + Z.to_nat m)%nat ltac:(lia)). rewrite !get_testbit in H.
    replace ((64 * k + Z.to_nat m) / 64)%nat with k in H by (apply (Nat.div_unique _ _ _ (Z.to_nat m)); lia).
    replace ((64 * k + Z.to_nat m) mod 64)%nat with (Z.to_nat m) in H by (apply (Nat.mod_unique _ _ k); lia). now rewrite Z2Nat.id in H by lia.
  - pose proof (at_lt v k F) as A. pose proof (at_lt w k F') as C. unfold at_ in *.
    assert (G : forall x, 0 <= x < 2 ^ 64 -> Z.testbit x m = false); [|now rewrite !G].
    intros x X. destruct (Z.eq_dec x 0) as [->|]; [apply Z.bits_0|]. apply Z.bits_above_log2; [lia|]. assert (Z.log2 x < 64) by (apply Z.log2_lt_pow2; lia). lia.
Qed.
Lemma filter_len_sub {A} (f g : A -> bool) l : (forall x, In x l -> f x = true -> g x = true) -> (length (filter f l) <= length (filter g l))%nat /\
  ((exists x, In x l /\ f x = false /\ g x = true) -> (length (filter f l) < length (filter g l))%nat).
Proof.
  induction l as [|a l IH]; intros H; cbn; [split; auto; intros (x & [] & _)|].
  destruct IH as [I1 I2]; [intros x Hx; apply H; now right|]. assert (HA := H a (or_introl eq_refl)).
  destruct (f a) eqn:FA, (g a) eqn:GA; cbn; try (specialize (HA eq_refl); discriminate); (split; [lia|]).
  - intros (x & [->|Hx] & X1 & X2); [congruence|]. enough (length (filter f l) < length (filter g l))%nat by lia. eauto.
  - intros _. lia.
  - intros (x & [->|Hx] & X1 & X2); [congruence|]. eauto.
Qed.
Lemma count_sub n v w : wok n v -> wok n w -> (forall i, get v i = true -> get w i = true) -> (count n v <= count n w)%nat /\ (v <> w -> (count n v < count n w)%nat).
Proof.
  intros V W S. unfold count. destruct (filter_len_sub (get v) (get w) (seq 0 (64 * n))) as [H1 H2]; [auto|]. split; auto. intros N. apply H2.
  destruct (existsb (fun i => negb (get v i) && get w i) (seq 0 (64 * n))) eqn:E.
  - apply existsb_exists in E. destruct E as (i & I & E). apply andb_true_iff in E. destruct E as [E1 E2]. apply negb_true_iff in E1. eauto.
  - exfalso. apply N, (bits_ext n); auto. intros i Hi.
    assert (X : (negb (get v i) && get w i) = false).
    { destruct (negb (get v i) && get w i) eqn:E'; auto. rewrite <- E. symmetry. apply existsb_exists. exists i. split; auto. apply in_seq. lia. }
    specialize (S i). destruct (get v i), (get w i); cbn in X; auto; try discriminate X; symmetry; auto.
Qed.
Lemma count_le n w : (count n w <= 64 * n)%nat.
Proof. unfold count. rewrite <- (seq_length (64 * n) 0) at 2. induction (seq 0 (64 * n)) as [|a l IH]; cbn; auto. destruct (get w a); cbn; lia. Qed.
