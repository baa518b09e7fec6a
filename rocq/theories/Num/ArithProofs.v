(** Proofs about the integer functions. *)
From Coq Require Import List ZArith Lia Bool Znumtheory.
From Verif.Common Require Import Result Int64.
From Verif.Ir Require Import Num NumProofs.
From Verif.Num Require Import ArithModel ArithSpec.
Import ListNotations.
Local Open Scope Z_scope.
Local Open Scope res_scope.

(** ** Division *)

Definition rem_ (py : bool) (a b : Z) : Z := if py then a mod b else Z.rem a b.
Lemma imod_ok py a b : in64 a -> in64 b -> b <> 0 -> ~ (a = min64 /\ b = -1) -> imod py a b = Ok (rem_ py a b).
Proof.
  intros Ha Hb Nb Nm. unfold imod, rem_. destruct py.
  - replace (b =? 0) with false by lia. rewrite divmod_floor by assumption. reflexivity.
  - unfold srem. replace ((b =? 0) || ((a =? min64) && (b =? -1))) with false by lia. reflexivity.
Qed.
Lemma rem_nonneg py a b : 0 <= a -> 0 < b -> rem_ py a b = a mod b.
Proof. intros. unfold rem_. destruct py; [reflexivity|]. apply Z.rem_mod_nonneg; lia. Qed.
Lemma idiv_exact py a b q : in64 a -> in64 b -> b <> 0 -> ~ (a = min64 /\ b = -1) -> a = q * b -> idiv py a b = Ok q.
Proof.
  intros Ha Hb Nb Nm E. unfold idiv. destruct py.
  - replace (b =? 0) with false by lia. rewrite divmod_floor by assumption. cbn [bind]. subst a. now rewrite Z.div_mul.
  - unfold sdiv. replace ((b =? 0) || ((a =? min64) && (b =? -1))) with false by lia. subst a. now rewrite Z.quot_mul.
Qed.
Lemma iabs_ok x : in64 x -> x <> min64 -> iabs x = Z.abs x.
Proof. intros H N0. unfold iabs. apply w64_id. unfold in64, min64, max64 in *. lia. Qed.
Lemma iabs_min : iabs min64 = min64.
Proof. reflexivity. Qed.

(** ** gcd *)

Lemma gcd_loop_ok py k : forall a b, 0 <= a < 2 ^ Z.of_nat k -> 0 <= b -> in64 a -> in64 b -> gcd_loop py (2 * k + 2) a b = Ok (Z.gcd a b).
Proof.
  induction k as [|k IH]; intros a b Ha Hb Ia Ib.
  - assert (a = 0) as -> by (change (2 ^ Z.of_nat 0) with 1 in Ha; lia). cbn [Nat.mul Nat.add gcd_loop]. cbn [Z.eqb]. now rewrite Z.gcd_0_l, Z.abs_eq by lia.
  - replace (2 * S k + 2)%nat with (S (S (2 * k + 2))) by lia. cbn [gcd_loop]. destruct (Z.eqb_spec a 0) as [->|Na]; [now rewrite Z.gcd_0_l, Z.abs_eq by lia|].
    rewrite imod_ok by (auto; unfold min64; lia). rewrite rem_nonneg by lia. cbn [bind]. pose proof (Z.mod_pos_bound b a ltac:(lia)) as B. set (r := b mod a) in *.
    assert (Ir : in64 r) by (unfold in64, min64, max64 in *; lia). assert (Gr : Z.gcd a b = Z.gcd r a) by (unfold r; now rewrite Z.gcd_mod by lia).
    destruct (Z.eqb_spec r 0) as [Er|Nr]; [rewrite Gr, Er, Z.gcd_0_l, Z.abs_eq by lia; reflexivity|].
    rewrite imod_ok by (auto; unfold min64; lia). rewrite rem_nonneg by lia. cbn [bind]. pose proof (Z.mod_pos_bound a r ltac:(lia)) as B2. set (s := a mod r) in *.
    assert (Half : 2 * s < a).
    { pose proof (Z.div_mod a r ltac:(lia)) as E. fold s in E. assert (1 <= a / r) by (apply Z.div_le_lower_bound; lia). nia. }
    rewrite IH; [|split; [lia|]|lia|unfold in64, min64, max64 in *; lia|assumption].
    + f_equal. rewrite Gr. unfold s. now rewrite Z.gcd_mod by lia.
    + replace (Z.of_nat (S k)) with (1 + Z.of_nat k) in Ha by lia. rewrite Z.pow_add_r in Ha by lia. lia.
Qed.
Lemma gcd2_ok py a b : in64 a -> in64 b -> a <> min64 -> b <> min64 -> gcd2 py a b = Ok (Z.gcd a b).
Proof.
  intros Ha Hb Na Nb. unfold gcd2. rewrite !iabs_ok by assumption. change 130%nat with (2 * 64 + 2)%nat. rewrite gcd_loop_ok.
  - now rewrite Z.gcd_abs_l, Z.gcd_abs_r.
  - unfold in64, min64, max64 in Ha. change (Z.of_nat 64) with 64. lia.
  - lia.
  - unfold in64, min64, max64 in *. lia.
  - unfold in64, min64, max64 in *. lia.
Qed.

(** The running result: all numbers so far but a negative first one. *)
Definition gcd_all (l : list Z) : Z := fold_right Z.gcd 0 l.
Lemma gcd_all_nonneg l : 0 <= gcd_all l.
Proof. destruct l; cbn; [lia|apply Z.gcd_nonneg]. Qed.
Lemma gcd_all_is l : is_gcd (gcd_all l) l.
Proof.
  induction l as [|a l (N0 & D & M)]; [split; [cbn; lia|]; split; [intros x []|intros d _; apply Z.divide_0_r]|].
  split; [apply gcd_all_nonneg|]. split.
  - intros x [<-|Hx]; [apply Z.gcd_divide_l|]. transitivity (gcd_all l); [apply Z.gcd_divide_r|now apply D].
  - intros d Hd. apply Z.gcd_greatest; [apply Hd; now left|]. apply M. intros x Hx. apply Hd. now right.
Qed.
Lemma gcd_in64 a b : in64 a -> in64 b -> a <> min64 -> b <> min64 -> in64 (Z.gcd a b) /\ Z.gcd a b <> min64.
Proof.
  intros Ha Hb Na Nb. pose proof (Z.gcd_nonneg a b) as G0. assert (Z.gcd a b <= max64); [|unfold in64, min64 in *; lia].
  destruct (Z.eq_dec a 0) as [->|Za].
  - rewrite Z.gcd_0_l. unfold in64, min64, max64 in *. lia.
  - pose proof (Z.gcd_divide_l a b) as D. apply Z.divide_abs_r in D. apply Z.divide_pos_le in D; [|lia]. unfold in64, min64, max64 in *. lia.
Qed.
Lemma gcd_rest_ok py l : forall acc, in64 acc -> acc <> min64 -> (forall x, In x l -> in64 x /\ x <> min64) -> (l = [] -> 0 <= acc) ->
  gcd_rest py acc l = Ok (Z.gcd acc (gcd_all l)).
Proof.
  induction l as [|x l IH]; intros acc Ha Na Hl Nn; cbn [gcd_rest].
  - specialize (Nn eq_refl). cbn. rewrite Z.gcd_0_r. f_equal. lia.
  - destruct (Z.eqb_spec acc 1) as [->|N1]; [now rewrite Z.gcd_1_l|]. destruct (Hl x (or_introl eq_refl)) as [Hx Nx]. rewrite gcd2_ok by assumption. cbn [bind].
    destruct (gcd_in64 acc x Ha Hx Na Nx) as [G1 G2]. rewrite IH; auto; [|intros y Hy; apply Hl; now right|intros _; apply Z.gcd_nonneg].
    cbn [gcd_all fold_right]. now rewrite Z.gcd_assoc.
Qed.
Lemma gcd_ok py l : (forall x, In x l -> in64 x /\ x <> min64) -> gcd py l = Ok (gcd_all l).
Proof.
  intros H. unfold gcd. destruct l as [|a [|b l]]; [reflexivity| |].
  - destruct (H a (or_introl eq_refl)) as [Ha Na]. rewrite iabs_ok by assumption. cbn. now rewrite Z.gcd_0_r.
  - destruct (H a (or_introl eq_refl)) as [Ha Na]. apply gcd_rest_ok; auto; [|discriminate]. intros x Hx. apply H. now right.
Qed.

(** ** lcm *)

Definition lcm_all (l : list Z) : Z := fold_right Z.lcm 1 l.
Lemma lcm_all_nonneg l : 0 <= lcm_all l.
Proof. destruct l; cbn; [lia|apply Z.lcm_nonneg]. Qed.
Lemma lcm_all_is l : is_lcm (lcm_all l) l.
Proof.
  induction l as [|a l (N0 & D & M)]; [split; [cbn; lia|]; split; [intros x []|intros k _; apply Z.divide_1_l]|].
  split; [apply lcm_all_nonneg|]. split.
  - intros x [<-|Hx]; [apply Z.divide_lcm_l|]. transitivity (lcm_all l); [now apply D|apply Z.divide_lcm_r].
  - intros k Hk. apply Z.lcm_least; [apply Hk; now left|]. apply M. intros x Hx. apply Hk. now right.
Qed.
Lemma lcm2_ok py a b : in64 a -> in64 b -> a <> min64 -> b <> min64 -> a <> 0 -> Z.lcm a b <= max64 -> lcm2 py a b = Ok (Z.lcm a b).
Proof.
  intros Ha Hb Na Nb Za L. unfold lcm2. rewrite gcd2_ok by assumption. cbn [bind]. destruct (gcd_in64 a b Ha Hb Na Nb) as [G1 G2].
  assert (G3 : Z.gcd a b <> 0) by (intros E; apply Z.gcd_eq_0_l in E; contradiction).
  pose proof (Z.gcd_nonneg a b). destruct (Z.gcd_divide_l a b) as (q & Eq). rewrite (idiv_exact py a (Z.gcd a b) q) by (auto; lia). cbn [bind].
  assert (EL : Z.lcm a b = Z.abs (q * b)).
  { unfold Z.lcm. destruct (Z.gcd_divide_r a b) as (p & Ep). set (g := Z.gcd a b) in *. replace (b / g) with p by (rewrite Ep at 1; symmetry; now apply Z.div_mul). f_equal. rewrite Eq, Ep. lia. }
  rewrite EL in L. rewrite (w64_id (q * b)) by (unfold in64, min64, max64 in *; lia). rewrite iabs_ok by (unfold in64, min64, max64 in *; lia). now rewrite EL.
Qed.
Lemma lcm_rest_ok py l : forall acc, in64 acc -> acc <> min64 -> (forall x, In x l -> in64 x /\ x <> min64) -> (l = [] -> 0 <= acc) ->
  Z.lcm acc (lcm_all l) <= max64 -> (forall x, In x l -> x <> 0) -> lcm_rest py acc l = Ok (Z.lcm acc (lcm_all l)).
Proof.
  induction l as [|x l IH]; intros acc Ha Na Hl Nn L Nz; cbn [lcm_rest].
  - specialize (Nn eq_refl). cbn. rewrite Z.lcm_1_r. f_equal. lia.
  - destruct (Z.eqb_spec acc 0) as [->|N0]; [now rewrite Z.lcm_0_l|]. destruct (Hl x (or_introl eq_refl)) as [Hx Nx].
    assert (Lx : Z.lcm acc x <= Z.lcm acc (lcm_all (x :: l))).
    { apply Z.divide_pos_le.
      - pose proof (Z.lcm_nonneg acc (lcm_all (x :: l))). assert (Z.lcm acc (lcm_all (x :: l)) <> 0); [|lia].
        assert (Lz : forall m, (forall y, In y m -> y <> 0) -> lcm_all m <> 0).
        { clear. induction m as [|y m IH]; intros H; [cbn; lia|]. cbn. intros E. apply Z.lcm_eq_0 in E. destruct E as [E|E]; [apply (H y (or_introl eq_refl) E)|]. apply IH; [|assumption]. intros z Hz. apply H. now right. }
        intros E. apply Z.lcm_eq_0 in E. destruct E as [E|E]; [contradiction|]. now apply (Lz (x :: l) Nz).
      - apply Z.lcm_least; [apply Z.divide_lcm_l|]. transitivity (lcm_all (x :: l)); [apply Z.divide_lcm_l|apply Z.divide_lcm_r]. }
    rewrite lcm2_ok by (auto; lia). cbn [bind]. pose proof (Z.lcm_nonneg acc x). cbn [lcm_all fold_right] in *. rewrite Z.lcm_assoc in *.
    rewrite IH; auto; try (unfold in64, min64, max64 in *; lia); try (intros y Hy; first [apply Hl; now right|apply Nz; now right]).
Qed.

(** A zero among the arguments. *)
Lemma lcm_rest_zero py l : forall acc, in64 acc -> acc <> min64 -> (forall x, In x l -> in64 x /\ x <> min64) -> In 0 l -> (acc = 0 \/ Z.lcm acc (lcm_all (filter (fun x => negb (x =? 0)) l)) <= max64) ->
  lcm_rest py acc l = Ok 0.
Proof.
  induction l as [|x l IH]; intros acc Ha Na Hl Z0 L; [destruct Z0|]. cbn [lcm_rest]. destruct (Z.eqb_spec acc 0) as [->|N0]; [reflexivity|].
  destruct L as [L|L]; [contradiction|]. destruct (Hl x (or_introl eq_refl)) as [Hx Nx]. cbn [filter] in L. destruct (Z.eqb_spec x 0) as [->|Nz]; cbn [negb] in L.
  - rewrite lcm2_ok by (auto; rewrite Z.lcm_0_r; unfold max64; lia). cbn [bind]. rewrite Z.lcm_0_r. destruct l; reflexivity.
  - destruct Z0 as [Z0|Z0]; [congruence|]. cbn [lcm_all fold_right] in L. fold (lcm_all (filter (fun x => negb (x =? 0)) l)) in L. rewrite Z.lcm_assoc in L. set (m := lcm_all _) in *.
    assert (Mz : m <> 0).
    { assert (Lz : forall m, (forall y, In y m -> y <> 0) -> lcm_all m <> 0).
      { clear. induction m as [|y m IH]; intros H; [cbn; lia|]. cbn. intros E. apply Z.lcm_eq_0 in E. destruct E as [E|E]; [apply (H y (or_introl eq_refl) E)|]. apply IH; [|assumption]. intros z Hz. apply H. now right. }
      apply Lz. intros y Hy. apply filter_In in Hy. destruct Hy as [_ Hy]. lia. }
    assert (Lx : Z.lcm acc x <= Z.lcm (Z.lcm acc x) m).
    { apply Z.divide_pos_le; [|apply Z.divide_lcm_l]. pose proof (Z.lcm_nonneg (Z.lcm acc x) m). assert (Z.lcm (Z.lcm acc x) m <> 0); [|lia].
      intros E. apply Z.lcm_eq_0 in E. destruct E as [E|E]; [|contradiction]. apply Z.lcm_eq_0 in E. lia. }
    rewrite lcm2_ok by (auto; lia). cbn [bind]. pose proof (Z.lcm_nonneg acc x). apply IH; auto; try (unfold in64, min64, max64 in *; lia). intros y Hy. apply Hl. now right.
Qed.
Lemma lcm_ok py l : (forall x, In x l -> in64 x /\ x <> min64) -> lcm_all (filter (fun x => negb (x =? 0)) l) <= max64 -> lcm py l = Ok (lcm_all l).
Proof.
  intros H L. unfold lcm. destruct l as [|a [|b l]]; [reflexivity| |].
  - destruct (H a (or_introl eq_refl)) as [Ha Na]. rewrite iabs_ok by assumption. cbn. now rewrite Z.lcm_1_r.
  - destruct (H a (or_introl eq_refl)) as [Ha Na]. set (r := b :: l) in *. assert (Hr : forall x, In x r -> in64 x /\ x <> min64) by (intros x Hx; apply H; now right).
    destruct (in_dec Z.eq_dec 0 r) as [Z0|N0].
    + rewrite lcm_rest_zero; auto.
      * f_equal. symmetry. assert (E : (0 | lcm_all (a :: r))) by (apply (proj1 (proj2 (lcm_all_is (a :: r)))); now right). now apply Z.divide_0_l in E.
      * cbn [filter] in L. destruct (Z.eqb_spec a 0) as [->|]; [now left|right]. exact L.
    + assert (Fr : filter (fun x => negb (x =? 0)) r = r).
      { clear - N0. induction r as [|x r IH]; [reflexivity|]. cbn [filter]. destruct (Z.eqb_spec x 0) as [->|]; [exfalso; apply N0; now left|]. cbn [negb]. f_equal. apply IH. intros Hx. apply N0. now right. }
      destruct (Z.eq_dec a 0) as [->|Na0].
      * unfold r. cbn [lcm_rest]. reflexivity.
      * cbn [filter] in L. replace (a =? 0) with false in L by lia. cbn [negb] in L. rewrite Fr in L. apply lcm_rest_ok; auto; [discriminate|]. intros x Hx ->. contradiction.
Qed.

(** ** Products and sums *)

Lemma fold_wrap (f : Z -> Z -> Z) (F : forall a b, w64 (f (w64 a) b) = w64 (f a b)) l : forall s, w64 (fold_left (fun r a => w64 (f r a)) l s) = w64 (fold_left f l s).
Proof.
  induction l as [|a l IH]; intros s; cbn [fold_left]; [reflexivity|]. rewrite IH.
  assert (G : forall l x, w64 (fold_left f l (w64 x)) = w64 (fold_left f l x)).
  { clear - F. induction l as [|a l IH]; intros x; cbn [fold_left]; [apply w64_idem|]. rewrite <- IH, F. rewrite IH. reflexivity. }
  apply G.
Qed.
Lemma fold_in (f : Z -> Z -> Z) l : forall s, in64 s -> in64 (fold_left (fun r a => w64 (f r a)) l s).
Proof. induction l as [|a l IH]; intros s Hs; cbn [fold_left]; [assumption|]. apply IH, w64_in. Qed.
Lemma prod_ok l s : in64 s -> prod l s = w64 (fold_left Z.mul l s).
Proof. intros Hs. unfold prod. rewrite <- (fold_wrap Z.mul); [|intros; now rewrite w64_mul_l]. symmetry. apply w64_id. now apply fold_in. Qed.
Lemma sum_ok l s : in64 s -> sum l s = w64 (fold_left Z.add l s).
Proof. intros Hs. unfold sum. rewrite <- (fold_wrap Z.add); [|intros; now rewrite w64_add_l]. symmetry. apply w64_id. now apply fold_in. Qed.

(** ** Powers *)

Lemma exp_halves e : 0 < e -> Z.shiftr e 1 = e / 2 /\ e = 2 * (e / 2) + e mod 2 /\ Z.land e 1 = e mod 2 /\ (e mod 2 = 0 \/ e mod 2 = 1).
Proof.
  intros H. split; [now rewrite Z.shiftr_div_pow2 by lia|]. split; [apply Z.div_mod; lia|]. split; [change 1 with (Z.ones 1); now rewrite Z.land_ones by lia|].
  pose proof (Z.mod_pos_bound e 2 ltac:(lia)). lia.
Qed.
Lemma exp_fuel e n : 0 < e < 2 ^ Z.of_nat (S n) -> 0 <= e / 2 < 2 ^ Z.of_nat n.
Proof.
  intros H. replace (Z.of_nat (S n)) with (1 + Z.of_nat n) in H by lia. rewrite Z.pow_add_r in H by lia. split; [apply Z.div_pos; lia|]. apply Z.div_lt_upper_bound; lia.
Qed.

Lemma pow_loop_plain py n : forall base e r, 0 <= e < 2 ^ Z.of_nat n -> in64 r -> pow_loop py None (S n) base e r = Ok (w64 (r * base ^ e)).
Proof.
  induction n as [|n IH]; intros base e r He Hr.
  - assert (e = 0) as -> by (change (2 ^ Z.of_nat 0) with 1 in He; lia). cbn. rewrite Z.mul_1_r. now rewrite w64_id.
  - remember (S n) as m. cbn [pow_loop]. destruct (Z.ltb_spec 0 e) as [L|L]; [|assert (e = 0) as -> by lia; cbn; rewrite Z.mul_1_r; now rewrite w64_id].
    destruct (exp_halves e L) as (-> & Ee & -> & Od). subst m. assert (Hh := exp_fuel e n ltac:(lia)). cbn [reduce].
    assert (P2 : forall h, 0 <= h -> (base * base) ^ h = base ^ (2 * h)) by (intros h Hh2; rewrite <- (Z.pow_2_r base), <- Z.pow_mul_r by lia; reflexivity).
    destruct Od as [Od|Od]; rewrite Od in *; cbn [Z.eqb negb bind]; rewrite IH by (auto; apply w64_in); f_equal.
    + rewrite <- w64_mul_r, w64_pow, w64_mul_r by lia. rewrite P2 by lia. now replace (2 * (e / 2)) with e by lia.
    + rewrite w64_mul_l. rewrite <- w64_mul_r, w64_pow, w64_mul_r by lia. rewrite P2 by lia. replace (base ^ e) with (base ^ (2 * (e / 2)) * base) by (transitivity (base ^ (2 * (e / 2) + 1)); [rewrite Z.pow_add_r, Z.pow_1_r by lia; reflexivity|f_equal; lia]). f_equal. ring.
Qed.

Section Modular.
Context (py : bool) (m : Z) (Hm : 0 < Z.abs m <= 3037000500).
Local Notation R x := (rem_ py x m).
Lemma R_bound x : Z.abs (R x) < Z.abs m.
Proof. unfold rem_. destruct py; [pose proof (Z.mod_bound_or x m ltac:(lia)); lia|]. apply Z.rem_bound_abs. lia. Qed.
Lemma R_mul x y : R (R x * R y) = R (x * y).
Proof. unfold rem_. destruct py; symmetry; [apply Z.mul_mod|apply Z.mul_rem]; lia. Qed.
Lemma R_R x : R (R x) = R x.
Proof. unfold rem_. destruct py; [apply Z.mod_mod|apply Z.rem_rem]; lia. Qed.
Lemma R_pow x n : 0 <= n -> R (R x ^ n) = R (x ^ n).
Proof.
  intros H. pattern n. apply natlike_ind; auto. intros k Hk IH. unfold Z.succ. rewrite !Z.pow_add_r, !Z.pow_1_r by lia. rewrite <- R_mul, IH, R_R, R_mul. reflexivity.
Qed.
Lemma R_mul_r x y : R (x * R y) = R (x * y).
Proof. rewrite <- R_mul, R_R. apply R_mul. Qed.
Lemma R_mul_l x y : R (R x * y) = R (x * y).
Proof. rewrite Z.mul_comm, R_mul_r, Z.mul_comm. reflexivity. Qed.
Lemma reduce_ok x : Z.abs x < 2 ^ 63 -> reduce py (Some m) x = Ok (R x).
Proof. intros Hx. cbn [reduce]. apply imod_ok; unfold in64, min64, max64; lia. Qed.

Lemma pow_loop_mod n : forall base e r, 0 <= e < 2 ^ Z.of_nat n -> Z.abs base < Z.abs m -> Z.abs r < 3037000500 ->
  exists v, pow_loop py (Some m) (S n) base e r = Ok v /\ Z.abs v < 3037000500 /\ R v = R (r * base ^ e).
Proof.
  assert (W : forall x, Z.abs x < 2 ^ 63 -> w64 x = x) by (intros x Hx; apply w64_id; unfold in64, min64, max64; lia).
  induction n as [|n IH]; intros base e r He Hb Hr.
  - assert (e = 0) as -> by (change (2 ^ Z.of_nat 0) with 1 in He; lia). exists r. cbn. rewrite Z.mul_1_r. auto.
  - remember (S n) as k. cbn [pow_loop]. destruct (Z.ltb_spec 0 e) as [L|L]; [|assert (e = 0) as -> by lia; exists r; cbn; rewrite Z.mul_1_r; auto].
    destruct (exp_halves e L) as (-> & Ee & -> & Od). subst k. assert (Hh := exp_fuel e n ltac:(lia)).
    assert (Bb : Z.abs (base * base) < 2 ^ 63) by (rewrite Z.abs_mul; nia). assert (Br : Z.abs (r * base) < 2 ^ 63) by (rewrite Z.abs_mul; nia).
    rewrite (W (base * base)) by assumption. rewrite (W (r * base)) by assumption.
    assert (P2 : forall h, 0 <= h -> (base * base) ^ h = base ^ (2 * h)) by (intros h Hh2; rewrite <- (Z.pow_2_r base), <- Z.pow_mul_r by lia; reflexivity).
    destruct Od as [Od|Od]; rewrite Od in *; cbn [Z.eqb negb bind]; rewrite ?reduce_ok by assumption; cbn [bind].
    + destruct (IH (R (base * base)) (e / 2) r Hh (R_bound _) Hr) as (v & -> & Bv & Ev). exists v. split; [reflexivity|]. split; [assumption|]. rewrite Ev.
      rewrite <- R_mul_r, R_pow, R_mul_r by lia. rewrite P2 by lia. now replace (2 * (e / 2)) with e by lia.
    + pose proof (R_bound (r * base)). destruct (IH (R (base * base)) (e / 2) (R (r * base)) Hh (R_bound _) ltac:(lia)) as (v & -> & Bv & Ev). exists v. split; [reflexivity|]. split; [assumption|]. rewrite Ev.
      rewrite R_mul_l. rewrite <- R_mul_r, R_pow, R_mul_r by lia. rewrite P2 by lia. replace (base ^ e) with (base ^ (2 * (e / 2)) * base) by (transitivity (base ^ (2 * (e / 2) + 1)); [rewrite Z.pow_add_r, Z.pow_1_r by lia; reflexivity|f_equal; lia]). f_equal. ring.
Qed.
Lemma pow_mod_ok base e : in64 base -> in64 e -> 0 <= e -> ~ (base = min64 /\ m = -1) -> pow py base e (Some m) = Ok (R (base ^ e)).
Proof.
  intros Hb He Pe Nm. unfold pow. replace (e <? 0) with false by lia. replace (m =? 0) with false by lia.
  rewrite imod_ok by (auto; unfold in64, min64, max64 in *; lia). cbn [bind].
  destruct (pow_loop_mod 64 (R base) e 1) as (v & E & Bv & Ev); [unfold in64, max64 in He; change (Z.of_nat 64) with 64; lia|apply R_bound|lia|].
  change 65%nat with (S 64). rewrite E. cbn [bind]. rewrite reduce_ok by lia. f_equal. rewrite Ev. rewrite Z.mul_1_l. now apply R_pow.
Qed.
End Modular.

Lemma pow_ok py base e : in64 base -> in64 e -> 0 <= e -> pow py base e None = Ok (w64 (base ^ e)).
Proof.
  intros Hb He Pe. unfold pow. replace (e <? 0) with false by lia. cbn [bind]. change 65%nat with (S 64).
  rewrite pow_loop_plain by (unfold in64, min64, max64 in *; change (Z.of_nat 64) with 64; lia). cbn [bind reduce]. now rewrite Z.mul_1_l.
Qed.

(** ** Least and greatest items *)

Section Order.
Context {A K : Type} (le : K -> K -> bool) (key : A -> K).
Local Notation LE a b := (le a b = true).
Context (trans : forall a b c, LE a b -> LE b c -> LE a c) (total : forall a b, LE a b \/ LE b a).

Lemma keep_first (better : K -> K -> bool) (B : forall a b, better a b = negb (le b a)) l : forall l0 s rest,
  (forall y, In y l0 -> ~ LE (key y) (key s)) -> (forall y, In y rest -> LE (key s) (key y)) ->
  first_least (fun a b => LE a b) key (l0 ++ s :: rest ++ l) (fold_left (fun s i => if better (key i) (key s) then i else s) l s).
Proof.
  induction l as [|i l IH]; intros l0 s rest H0 H1; cbn [fold_left].
  - rewrite app_nil_r. exists l0, rest. auto.
  - destruct (better (key i) (key s)) eqn:E.
    + assert (N0 : ~ LE (key s) (key i)) by (rewrite B in E; destruct (le (key s) (key i)); discriminate). assert (Li : LE (key i) (key s)) by (destruct (total (key i) (key s)); [assumption|contradiction]).
      replace (l0 ++ s :: rest ++ i :: l) with ((l0 ++ s :: rest) ++ i :: [] ++ l) by (rewrite <- app_assoc; reflexivity). apply IH; [|intros y []].
      intros y Hy. apply in_app_iff in Hy. destruct Hy as [Hy|[<-|Hy]]; [|exact N0|].
      * intros C. apply (H0 y Hy). now apply (trans _ (key i)).
      * intros C. apply N0. apply (trans _ (key y)); [now apply H1|assumption].
    + assert (Le : LE (key s) (key i)) by (rewrite B in E; now destruct (le (key s) (key i))).
      replace (l0 ++ s :: rest ++ i :: l) with (l0 ++ s :: (rest ++ [i]) ++ l) by (rewrite <- app_assoc; reflexivity). apply IH; [assumption|].
      intros y Hy. apply in_app_iff in Hy. destruct Hy as [Hy|[<-|[]]]; auto.
Qed.
End Order.
