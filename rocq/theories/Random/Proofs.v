(** The consumers of random words. *)
From Coq Require Import List ZArith Lia Bool Permutation.
From Verif.Common Require Import Result Int64 Arr.
From Verif.Random Require Import Model Spec TwisterProofs.
Import ListNotations.
Local Open Scope Z_scope.
Local Open Scope res_scope.
Local Arguments Z.add : simpl never.
Local Arguments Z.sub : simpl never.
Local Arguments Z.mul : simpl never.
Local Arguments Z.pow : simpl never.
Local Arguments Z.of_nat : simpl never.
Local Arguments Z.to_nat : simpl never.

Lemma may_bind {A B} (m : res A) (k : A -> res B) (Q : B -> Prop) : may m (fun a => may (k a) Q) -> may (bind m k) Q.
Proof. destruct m; cbn; auto. Qed.
Lemma may_conseq {A} (m : res A) (P Q : A -> Prop) : may m P -> (forall a, P a -> Q a) -> may m Q.
Proof. destruct m; cbn; auto. Qed.

(** ** Rounding *)

Lemma round53_bounds x : 0 <= x -> exists e, 0 <= e /\ (e = 0 /\ round53 x = x \/ 0 < e /\ e = Z.log2 x - 52 /\ round53 x mod 2^e = 0 /\ 2 * Z.abs (round53 x - x) <= 2^e).
Proof.
  intros Hx. unfold round53. set (e := Z.log2 x - 52). destruct (Z.leb_spec e 0) as [L|L]; [exists 0; auto with zarith|].
  exists e. split; [lia|]. right. split; [assumption|]. split; [reflexivity|].
  assert (P : 0 < 2^e) by (apply Z.pow_pos_nonneg; lia). split; [apply Z.mod_mul; lia|].
  assert (D : 2^e = 2 * 2^(e - 1)) by (replace e with (e - 1 + 1) at 1 by lia; rewrite Z.pow_add_r by lia; lia).
  pose proof (Z.div_mod x (2^e) ltac:(lia)) as E. pose proof (Z.mod_pos_bound x (2^e) P) as B. cbv zeta.
  set (q := x / 2^e) in *. set (r := x mod 2^e) in *. set (h := 2^(e - 1)) in *. rewrite D in *. clearbody q r h.
  destruct (Z.ltb_spec h r); cbn [orb]; [nia|]. destruct (Z.eqb_spec r h); cbn [andb]; [destruct (Z.odd q)|]; nia.
Qed.
Lemma round53_exact x : 0 <= x <= 2^53 -> round53 x = x.
Proof.
  intros Hx. destruct (Z.eq_dec x (2^53)) as [->|N0]; [reflexivity|]. unfold round53. assert (Z.log2 x <= 52).
  { destruct (Z.eq_dec x 0) as [->|]; [cbn; lia|]. assert (Z.log2 x < 53) by (apply Z.log2_lt_pow2; lia). lia. }
  now replace (Z.log2 x - 52 <=? 0) with true by lia.
Qed.
Lemma f64_exact x : Z.abs x <= 2^53 -> f64 x = x.
Proof. intros H. unfold f64. destruct (Z.ltb_spec x 0); rewrite round53_exact by lia; lia. Qed.

(** A fraction below 1 times [n] stays below [n] after rounding. *)
Lemma fraction_below r n : 0 <= r < 2^53 -> 0 < n <= 2^53 -> 0 <= round53 (r * n) / 2^53 < n.
Proof.
  intros Hr Hn. destruct (round53_bounds (r * n) ltac:(nia)) as (e & He & [[_ E]|(Pe & Ee & Md & B)]).
  - rewrite E. split; [apply Z.div_pos; nia|]. apply Z.div_lt_upper_bound; nia.
  - set (P := r * n) in *. assert (HP : 0 < P).
    { destruct (Z.eq_dec P 0) as [E0|]; [|nia]. rewrite E0 in Ee. cbn in Ee. lia. }
    assert (PL : 2^(52 + e) <= P < 2^(53 + e)).
    { pose proof (Z.log2_spec P HP) as LS. replace (52 + e) with (Z.log2 P) by lia. replace (53 + e) with (Z.succ (Z.log2 P)) by lia. lia. }
    assert (Pw : 0 < 2^e) by (apply Z.pow_pos_nonneg; lia). rewrite !Z.pow_add_r in PL by lia.
    assert (R0 : 0 <= round53 P) by nia.
    split; [apply Z.div_pos; lia|]. apply Z.div_lt_upper_bound; [lia|]. rewrite Z.mul_comm.
    (* n * 2^53 - P >= n *)
    assert (Gap : P <= n * 2^53 - n) by nia.
    assert (Half : 2^e <= 2 * n).
    { assert (2^52 * 2^e < n * 2^53) by lia. nia. }
    destruct (Z.eq_dec (2^e) (2 * n)) as [Eq|Ne]; [|lia].
    (* then the bound is 2^(e+52), a multiple of 2^e reached only from above *)
    exfalso. assert (n * 2^53 = 2^52 * 2^e) by (rewrite Eq; lia). lia.
Qed.

(** ** Number of bits *)

Lemma bit_length_ok fuel : forall n, 0 < n <= max64 -> n < 2^(Z.of_nat fuel) -> bit_length fuel n = Z.log2 n + 1.
Proof.
  induction fuel as [|fuel IH]; intros n Hn F; [change (Z.of_nat 0) with 0 in F; change (2^0) with 1 in F; lia|]. cbn [bit_length].
  destruct (Z.eqb_spec n 0); [lia|]. unfold u64. rewrite Z.mod_small by (unfold max64 in *; lia). rewrite Z.shiftr_div_pow2 by lia. change (2^1) with 2.
  assert (H2 : 0 <= n / 2 <= n) by (split; [apply Z.div_pos; lia|apply Z.div_le_upper_bound; lia]).
  rewrite w64_id by (unfold in64, min64, max64 in *; lia).
  destruct (Z.eq_dec n 1) as [->|N1].
  - change (1 / 2) with 0. destruct fuel; reflexivity.
  - assert (H3 : 1 <= n / 2) by (apply Z.div_le_lower_bound; lia). rewrite IH.
    + replace (n / 2) with (Z.shiftr n 1) by (now rewrite Z.shiftr_div_pow2 by lia). rewrite Z.log2_shiftr by lia.
      assert (1 <= Z.log2 n) by (apply Z.log2_le_pow2; lia). lia.
    + lia.
    + apply Z.div_lt_upper_bound; [lia|]. replace (Z.of_nat (S fuel)) with (1 + Z.of_nat fuel) in F by lia. rewrite Z.pow_add_r in F by lia. lia.
Qed.
Lemma bits_of n : 0 < n <= max64 -> bit_length 65 n = Z.log2 n + 1 /\ 1 <= Z.log2 n + 1 <= 63 /\ 2^(Z.log2 n) <= n < 2^(Z.log2 n + 1).
Proof.
  intros H. split; [apply bit_length_ok; [assumption|unfold max64 in H; change (Z.of_nat 65) with 65; lia]|].
  pose proof (Z.log2_spec n ltac:(lia)) as S1. pose proof (Z.log2_nonneg n). assert (Z.log2 n < 63) by (apply Z.log2_lt_pow2; unfold max64 in H; lia).
  split; [lia|]. replace (Z.log2 n + 1) with (Z.succ (Z.log2 n)) by lia. lia.
Qed.

Section Source.
Context {G : Type} (draw : G -> res (Z * G)) (I : G -> Prop).
Context (D : forall g, I g -> exists w g', draw g = Ok (w, g') /\ word w /\ I g').

Lemma bits_low k g w g' : 1 <= k <= 32 -> draw g = Ok (w, g') -> getrandbits draw k g = Ok (w / 2^(32 - k), g').
Proof.
  intros Hk E. unfold getrandbits. replace (k =? 0) with false by lia. replace (k <? 0) with false by lia. replace (64 <? k) with false by lia. replace (k <=? 32) with true by lia.
  rewrite E. cbn [bind]. now rewrite Z.shiftr_div_pow2 by lia.
Qed.
Lemma masked hi s : word hi -> 0 <= s <= 31 -> Z.shiftr (Z.land hi (Z.ldiff (2^64 - 1) (u64 (u64 (Z.shiftl 1 s) - 1)))) s = hi / 2^s.
Proof.
  intros Hw Hs. assert (Ps : 1 <= 2^s <= 2^31) by (split; [assert (0 < 2^s) by (apply Z.pow_pos_nonneg; lia); lia|apply Z.pow_le_mono_r; lia]).
  unfold u64. rewrite Z.shiftl_mul_pow2, Z.mul_1_l by lia. rewrite (Z.mod_small (2^s)) by lia. rewrite Z.mod_small by lia.
  rewrite <- Z.shiftr_div_pow2 by lia. apply Z.bits_inj'. intros n Hn. rewrite !Z.shiftr_spec, Z.land_spec, Z.ldiff_spec by lia.
  replace (2^64 - 1) with (Z.ones 64) by reflexivity. replace (2^s - 1) with (Z.ones s) by (rewrite Z.ones_equiv; lia).
  rewrite (Z.ones_spec_high s) by lia. cbn [negb]. rewrite andb_true_r. destruct (Z.lt_ge_cases (n + s) 64) as [L|L].
  - rewrite Z.ones_spec_low by lia. apply andb_true_r.
  - replace hi with (hi mod 2^32) by (unfold word in Hw; apply Z.mod_small; lia). rewrite Z.mod_pow2_bits_high by lia. reflexivity.
Qed.
Lemma bits_high k g lo g1 hi g2 : 33 <= k <= 64 -> draw g = Ok (lo, g1) -> draw g1 = Ok (hi, g2) -> word lo -> word hi ->
  getrandbits draw k g = Ok (w64 (hi / 2^(64 - k) * 2^32 + lo), g2).
Proof.
  intros Hk E1 E2 H1 H2. unfold getrandbits. replace (k =? 0) with false by lia. replace (k <? 0) with false by lia. replace (64 <? k) with false by lia. replace (k <=? 32) with false by lia.
  rewrite E1. cbn [bind]. rewrite E2. cbn [bind]. cbv zeta. rewrite masked by (auto; lia). do 3 f_equal.
  assert (Hd : word (hi / 2^(64 - k))) by (apply word_div; [assumption|apply Z.pow_pos_nonneg; lia]). unfold word in *.
  rewrite Z.shiftl_mul_pow2 by lia. unfold u64. rewrite Z.mod_small by nia. apply lor_shift; lia.
Qed.
Lemma high_value k hi lo : 33 <= k <= 63 -> word hi -> word lo -> 0 <= hi / 2^(64 - k) * 2^32 + lo < 2^k.
Proof.
  intros Hk H1 H2. unfold word in *. pose proof (Z.div_pos hi (2^(64 - k)) ltac:(lia) ltac:(apply Z.pow_pos_nonneg; lia)).
  assert (hi / 2^(64 - k) < 2^(k - 32)). { apply Z.div_lt_upper_bound; [apply Z.pow_pos_nonneg; lia|]. rewrite <- Z.pow_add_r by lia. replace (64 - k + (k - 32)) with 32 by lia. lia. }
  replace k with (k - 32 + 32) by lia. rewrite Z.pow_add_r by lia. replace (k - 32 + 32) with k in * by lia. nia.
Qed.
Lemma bits_ok k g : 0 <= k <= 63 -> I g -> exists r g', getrandbits draw k g = Ok (r, g') /\ 0 <= r < 2^k /\ I g'.
Proof.
  intros Hk Hg. destruct (Z.eq_dec k 0) as [->|N0]; [exists 0, g; split; [reflexivity|split; [change (2^0) with 1; lia|assumption]]|].
  destruct (D g Hg) as (w & g1 & E1 & W1 & I1). destruct (Z.le_gt_cases k 32) as [L|L].
  - exists (w / 2^(32 - k)), g1. split; [now apply bits_low; [lia|]|]. split; [|assumption]. unfold word in W1. split; [apply Z.div_pos; [lia|apply Z.pow_pos_nonneg; lia]|].
    apply Z.div_lt_upper_bound; [apply Z.pow_pos_nonneg; lia|]. rewrite <- Z.pow_add_r by lia. replace (32 - k + k) with 32 by lia. lia.
  - destruct (D g1 I1) as (w2 & g2 & E2 & W2 & I2). pose proof (high_value k w2 w ltac:(lia) W2 W1) as B.
    assert (2^k <= 2^63) by (apply Z.pow_le_mono_r; lia).
    exists (w64 (w2 / 2^(64 - k) * 2^32 + w)), g2. split; [now apply (bits_high k g w g1 w2 g2); [lia|..]|].
    rewrite w64_id by (unfold in64, min64, max64; lia). auto.
Qed.

Lemma redraw_ok fuel n k : 0 <= k <= 63 -> forall g, I g -> may (redraw draw fuel n k g) (fun '(r, g') => 0 <= r < n /\ I g').
Proof.
  intros Hk. induction fuel as [|fuel IH]; intros g Hg; cbn [redraw]; [exact Logic.I|].
  destruct (bits_ok k g Hk Hg) as (r & g1 & -> & B & I1). cbn [bind]. destruct (Z.leb_spec n r); [now apply IH|]. cbn. split; [lia|assumption].
Qed.
Lemma below_ok fuel n g : 0 < n <= max64 -> I g -> may (randbelow draw fuel n g) (fun '(r, g') => 0 <= r < n /\ I g').
Proof. intros Hn Hg. unfold randbelow. destruct (bits_of n Hn) as (E & B & _). apply redraw_ok; [rewrite E; lia|assumption]. Qed.

(** ** randrange *)

Lemma quotient (py : bool) a b : b <> 0 -> exists q m, (if py then a / b else Z.quot a b) = q /\ a = b * q + m /\ Z.abs m < Z.abs b /\ (0 < q \/ 0 < a * b -> 0 <= m * b).
Proof.
  clear. intros Hb. destruct py.
  - exists (a / b), (a mod b). split; [reflexivity|]. split; [apply Z.div_mod; assumption|]. destruct (Z.lt_ge_cases 0 b) as [L|L].
    + pose proof (Z.mod_pos_bound a b L). split; [lia|]. intros _. nia.
    + pose proof (Z.mod_neg_bound a b ltac:(lia)). split; [lia|]. intros _. nia.
  - exists (Z.quot a b), (Z.rem a b). split; [reflexivity|]. pose proof (Z.quot_rem a b Hb) as E. split; [exact E|]. pose proof (Z.rem_bound_abs a b Hb) as B. split; [exact B|].
    intros C. pose proof (Z.rem_sign_mul a b Hb) as Sg. set (q := Z.quot a b) in *. set (m := Z.rem a b) in *. clearbody q m.
    destruct (Z.eq_dec a 0) as [->|Na]; [nia|]. assert (0 < a * b) by (destruct C as [C|C]; [|assumption]; nia).
    destruct (Z.lt_ge_cases 0 a); nia.
Qed.

Lemma randrange_ok py fuel start stop step g : in64 start -> in64 stop -> in64 step -> I g -> stop <> 0 ->
  in64 (stop - start) -> in64 (stop - start + step) -> (step = 1 \/ Z.abs (stop - start) + Z.abs step <= 2^53 * Z.abs step) ->
  step <> 0 ->
  if ((0 <? step) && (start <? stop)) || ((step <? 0) && (stop <? start))
  then may (randrange draw py fuel start stop step g) (fun '(r, g') => in_range start stop step r /\ I g')
  else randrange draw py fuel start stop step g = Raise ValueError.
Proof.
  intros H1 H2 H3 Hg Ns Hw Hws Hf Nz. unfold randrange. replace (stop =? 0) with false by lia. cbv zeta. rewrite (w64_id (stop - start)) by assumption.
  assert (In : forall r, in_range start stop step r -> (0 < step /\ start < stop \/ step < 0 /\ stop < start) -> in64 r).
  { intros r (i & Hi & -> & A & B) C. unfold in64 in *. destruct C as [C|C]; [specialize (A ltac:(lia))|specialize (B ltac:(lia))]; nia. }
  destruct (Z.eqb_spec step 1) as [->|N1].
  { change (0 <? 1) with true. change (1 <? 0) with false. cbn [andb orb]. rewrite orb_false_r. destruct (Z.ltb_spec start stop) as [L|L].
    - replace (0 <? stop - start) with true by lia. apply may_bind. eapply may_conseq; [apply below_ok; [unfold in64 in *; lia|exact Hg]|].
      cbv beta. intros [r g'] [B I']. cbn. split; [|assumption].
      assert (R : in_range start stop 1 (start + r)) by (exists r; split; [lia|]; split; [lia|]; split; [intros _; lia|lia]).
      rewrite w64_id; [assumption|]. apply In; [assumption|lia].
    - replace (0 <? stop - start) with false by lia. reflexivity. }
  cbn [andb]. destruct Hf as [Hf|Hf]; [contradiction|]. destruct (Z.lt_ge_cases 0 step) as [Sp|Sn].
  - replace (0 <? step) with true by lia. replace (step <? 0) with false by lia. cbn [andb]. rewrite orb_false_r.
    rewrite (w64_id (stop - start + step)) by assumption. rewrite (w64_id (stop - start + step - 1)) by (unfold in64, min64, max64 in *; lia).
    unfold floordiv. replace (step =? -1) with false by lia. rewrite andb_false_r. cbn [bind]. destruct (quotient py (stop - start + step - 1) step ltac:(lia)) as (q & m & -> & Dv & Mb & Ms).
    rewrite f64_exact by (rewrite (Z.abs_eq step) in Hf by lia; nia). destruct (Z.ltb_spec start stop) as [L|L].
    + assert (Ms' : 0 <= m * step) by (apply Ms; right; nia). assert (0 < q) by nia. replace (q <=? 0) with false by lia. unfold int_of. assert (Q : 0 < q <= max64) by (split; [assumption|]; rewrite (Z.abs_eq step) in Hf by lia; unfold max64; nia).
      replace ((min64 <=? q) && (q <=? max64)) with true by (unfold min64 in *; lia). cbn [bind].
      apply may_bind. eapply may_conseq; [apply below_ok; [exact Q|exact Hg]|]. cbv beta. intros [r g'] [B I']. cbn. split; [|assumption].
      assert (R : in_range start stop step (start + step * r)) by (exists r; split; [lia|]; split; [lia|]; split; [intros _; nia|lia]).
      rewrite w64_add_r, w64_id; [assumption|]. apply In; [assumption|lia].
    + assert (q <= 0) by (destruct (Z.lt_ge_cases 0 q) as [Cq|Cq]; [pose proof (Ms (or_introl Cq)); nia|lia]). replace (q <=? 0) with true by lia. reflexivity.
  - assert (step < 0) by lia. replace (0 <? step) with false by lia. replace (step <? 0) with true by lia. cbn [andb orb].
    rewrite (w64_id (stop - start + step)) by assumption.
    destruct (Z.eq_dec (stop - start + step) max64) as [Ex|Nx]; [exfalso; unfold in64, min64, max64 in *; lia|].
    rewrite (w64_id (stop - start + step + 1)) by (unfold in64, min64, max64 in *; lia).
    unfold floordiv. assert (Nm : (stop - start + step + 1 =? min64) && (step =? -1) = false).
    { destruct (Z.eqb_spec step (-1)) as [->|]; [|apply andb_false_r]. rewrite andb_true_r. change (Z.abs (-1)) with 1 in Hf. unfold min64. lia. }
    rewrite Nm. cbn [bind]. destruct (quotient py (stop - start + step + 1) step ltac:(lia)) as (q & m & -> & Dv & Mb & Ms).
    rewrite f64_exact by (rewrite (Z.abs_neq step) in Hf by lia; nia). destruct (Z.ltb_spec stop start) as [L|L].
    + assert (Ms' : 0 <= m * step) by (apply Ms; right; nia). assert (0 < q) by nia. replace (q <=? 0) with false by lia. unfold int_of. assert (Q : 0 < q <= max64) by (split; [assumption|]; rewrite (Z.abs_neq step) in Hf by lia; unfold max64; nia).
      replace ((min64 <=? q) && (q <=? max64)) with true by (unfold min64 in *; lia). cbn [bind].
      apply may_bind. eapply may_conseq; [apply below_ok; [exact Q|exact Hg]|]. cbv beta. intros [r g'] [B I']. cbn. split; [|assumption].
      assert (R : in_range start stop step (start + step * r)) by (exists r; split; [lia|]; split; [lia|]; split; [lia|intros _; nia]).
      rewrite w64_add_r, w64_id; [assumption|]. apply In; [assumption|lia].
    + assert (q <= 0) by (destruct (Z.lt_ge_cases 0 q) as [Cq|Cq]; [pose proof (Ms (or_introl Cq)); nia|lia]). replace (q <=? 0) with true by lia. reflexivity.
Qed.

(** ** Sequences *)

Context {A : Type}.

Lemma choice_ok fuel (l : list A) g : l <> [] -> zlen l <= max64 -> I g -> may (choice draw fuel l g) (fun '(x, g') => In x l /\ I g').
Proof.
  intros Nl Ll Hg. unfold choice. destruct l as [|d l0] eqn:E; [contradiction|]. rewrite <- E in *. assert (0 < zlen l) by (rewrite E; unfold zlen; cbn [length]; lia).
  replace (zlen l =? 0) with false by lia. apply may_bind. eapply may_conseq; [apply below_ok; [lia|exact Hg]|]. cbv beta. intros [i g'] [B I'].
  rewrite (aget_ok d) by lia. cbn. split; [|assumption]. apply nth_In. unfold zlen in B. lia.
Qed.

Lemma shuffle_ok fuel (x : list A) g : zlen x <= max64 -> I g -> may (shuffle draw fuel x g) (fun '(y, g') => Permutation y x /\ I g').
Proof.
  intros Lx Hg. unfold shuffle. assert (Li : (length x - 1 < length x \/ x = [])%nat) by (destruct x; cbn [length]; [now right|left; lia]).
  destruct Li as [Li| ->]; [|cbn; auto]. destruct x as [|d x0] eqn:Ex; [cbn in Li; lia|]. rewrite <- Ex in *. clear Ex x0.
  assert (G1 : forall i y g, (i < length x)%nat -> Permutation y x -> I g -> may (shuffle_loop draw fuel i y g) (fun '(y, g') => Permutation y x /\ I g')).
  { clear g Hg Li. induction i as [|i IH]; intros y g Hi P Hg; cbn [shuffle_loop]; [cbn; auto|].
    assert (Ly : zlen y = zlen x) by (unfold zlen; now rewrite (Permutation_length P)). unfold zlen in Lx.
    apply may_bind. eapply may_conseq; [apply below_ok; [lia|exact Hg]|]. cbv beta. intros [j g'] [B I'].
    unfold zlen in *. rewrite (aswap_ok d) by (unfold zlen; lia). cbn [bind]. apply IH; [lia| |assumption]. rewrite swp_perm by (unfold zlen; lia). assumption. }
  now apply G1.
Qed.

Lemma draw_below_length fuel ns : forall g js g', draw_below draw fuel ns g = Ok (js, g') -> length js = length ns.
Proof.
  clear. induction ns as [|n ns IH]; intros g js g' E; cbn [draw_below] in E; [injection E as <- <-; reflexivity|].
  destruct (randbelow draw fuel n g) as [[j g1]| | |]; try discriminate. cbn [bind] in E. destruct (draw_below draw fuel ns g1) as [[l g2]| | |] eqn:E2; try discriminate.
  injection E as <- <-. cbn [length]. f_equal. now apply (IH g1 l g2).
Qed.
Lemma draw_below_ok fuel ns : (forall n, In n ns -> 0 < n <= max64) -> forall g, I g -> may (draw_below draw fuel ns g) (fun '(js, g') => Forall2 (fun j n => 0 <= j < n) js ns /\ I g').
Proof.
  induction ns as [|n ns IH]; intros H g Hg; cbn [draw_below]; [cbn; auto|]. apply may_bind. eapply may_conseq; [apply below_ok; [apply H; now left|exact Hg]|].
  cbv beta. intros [j g'] [B I']. apply may_bind. eapply may_conseq; [apply (IH (fun m Hm => H m (or_intror Hm)) g' I')|]. cbv beta. intros [l g2] [F I2]. cbn. auto.
Qed.
Lemma shuffle_loop_draws fuel i : forall (x : list A) g, Z.of_nat i < max64 -> (i < length x)%nat -> I g ->
  shuffle_loop draw fuel i x g = ('(js, g') <- draw_below draw fuel (down i) g ;; y <- exchange js x ;; Ok (y, g')).
Proof.
  induction i as [|i IH]; intros x g Hi L Hg; cbn [shuffle_loop down draw_below]; [reflexivity|].
  pose proof (below_ok fuel (Z.of_nat (S i) + 1) g ltac:(lia) Hg) as B. destruct (randbelow draw fuel (Z.of_nat (S i) + 1) g) as [[j g1]| | |]; cbn in B; try contradiction; [|reflexivity]. cbn [bind].
  destruct B as [B I1]. destruct x as [|d x0] eqn:Ex; [cbn in L; lia|]. rewrite <- Ex in *. clear Ex x0.
  rewrite (aswap_ok d) by (unfold zlen; lia). cbn [bind]. pose proof (zlen_swp d x (Z.of_nat (S i)) j) as LS. unfold zlen in LS.
  rewrite IH by (auto; lia). pose proof (draw_below_length fuel (down i) g1) as DL. destruct (draw_below draw fuel (down i) g1) as [[js g2]| | |]; try reflexivity. cbn [bind].
  specialize (DL js g2 eq_refl). assert (Ld : forall n, length (down n) = n) by (clear; induction n; cbn [down length]; auto). rewrite Ld in DL.
  cbn [exchange length]. rewrite DL. now rewrite (aswap_ok d) by (unfold zlen; lia).
Qed.
Lemma fits_down js : forall i, Forall2 (fun j n => 0 <= j < n) js (down i) -> length js = i /\ fitting js.
Proof.
  clear. induction js as [|j js IH]; intros i F; destruct i as [|i]; cbn [down] in F; inversion F; subst; cbn [fitting length]; [auto|].
  destruct (IH i ltac:(assumption)) as [L Fj]. split; [lia|]. split; [lia|assumption].
Qed.
End Source.

Section Orders.
Context {A : Type}.

Lemma exchange_ok (d : A) js : forall x : list A, fitting js -> (length js < length x)%nat -> exists y, exchange js x = Ok y /\ length y = length x /\
  forall k, Z.of_nat (length js) < k < zlen x -> zn d y k = zn d x k.
Proof.
  induction js as [|j js IH]; intros x F L; cbn [exchange].
  - exists x. auto.
  - destruct F as [Fj F]. cbn [length] in *. rewrite (aswap_ok d) by (unfold zlen; lia). cbn [bind].
    pose proof (zlen_swp d x (Z.of_nat (S (length js))) j) as LS. unfold zlen in LS.
    destruct (IH (swp d x (Z.of_nat (S (length js))) j)) as (y & E & Ly & K); [assumption|lia|].
    exists y. split; [assumption|]. split; [lia|]. intros k Hk. rewrite K by (rewrite zlen_swp; lia). rewrite zn_swp by (unfold zlen in *; lia).
    replace (k =? j) with false by lia. destruct (Z.eqb_spec k (Z.of_nat (S (length js)))); [lia|reflexivity].
Qed.

Lemma zn_inj (d : A) x i j : NoDup x -> 0 <= i < zlen x -> 0 <= j < zlen x -> zn d x i = zn d x j -> i = j.
Proof.
  intros Nd Hi Hj E. unfold zn, zlen in *. pose proof (proj1 (NoDup_nth x d) Nd (Z.to_nat i) (Z.to_nat j)) as H. specialize (H ltac:(lia) ltac:(lia) E). lia.
Qed.

(** Different exchanges give different orders. *)
Lemma exchange_inj js : forall js' (x y : list A), NoDup x -> fitting js -> fitting js' -> length js' = length js -> (length js < length x)%nat ->
  exchange js x = Ok y -> exchange js' x = Ok y -> js = js'.
Proof.
  induction js as [|j js IH]; intros [|j' js'] x y Nd F F' LL L E E'; try discriminate; [reflexivity|]. cbn [length] in *.
  destruct x as [|d x0] eqn:Ex; [cbn in L; lia|]. rewrite <- Ex in *. clear Ex x0.
  destruct F as [Fj F], F' as [Fj' F']. cbn [length] in *. assert (LE : length js' = length js) by lia. rewrite LE in *. cbn [exchange length] in E, E'. rewrite LE in *.
  rewrite (aswap_ok d) in E by (unfold zlen; lia). rewrite (aswap_ok d) in E' by (unfold zlen; lia). cbn [bind] in E, E'.
  set (i := Z.of_nat (S (length js))) in *.
  assert (Top : forall q ks, 0 <= q <= i -> fitting ks -> length ks = length js -> exchange ks (swp d x i q) = Ok y -> zn d y i = zn d x q).
  { intros q ks Hq Fk Lk Ek. pose proof (zlen_swp d x i q) as LS. unfold zlen in LS.
    destruct (exchange_ok d ks (swp d x i q) Fk) as (y' & Ey & _ & K); [lia|]. rewrite Ek in Ey. injection Ey as <-.
    rewrite K by (rewrite zlen_swp; unfold i, zlen; lia). rewrite zn_swp by (unfold i, zlen in *; lia). rewrite Z.eqb_refl. destruct (Z.eqb_spec i q) as [<-|]; reflexivity. }
  assert (EJ : j = j').
  { apply (zn_inj d x); [assumption|unfold i, zlen in *; lia|unfold i, zlen in *; lia|]. rewrite <- (Top j js), <- (Top j' js'); auto. }
  subst j'. f_equal. pose proof (zlen_swp d x i j) as LS. unfold zlen in LS. apply (IH js' (swp d x i j) y); auto; [|lia].
  eapply Permutation_NoDup; [|exact Nd]. symmetry. apply swp_perm; unfold i, zlen in *; lia.
Qed.

(** Every order is reached. *)
Lemma exchange_surj n : forall (x y : list A), Permutation x y -> (n < length x)%nat ->
  (forall d k, Z.of_nat n < k < zlen x -> zn d x k = zn d y k) -> exists js, length js = n /\ fitting js /\ exchange js x = Ok y.
Proof.
  induction n as [|n IH]; intros x y P L K.
  - exists []. split; [reflexivity|]. split; [exact Logic.I|]. cbn. f_equal. destruct x as [|a x]; [cbn in L; lia|]. pose proof (Permutation_length P) as PL. destruct y as [|b y]; [discriminate|].
    assert (E : x = y).
    { apply (list_eq_zn a); [unfold zlen; cbn in PL; lia|]. intros k Hk. specialize (K a (k + 1)). unfold zn, zlen in *. cbn [length] in K. replace (Z.to_nat (k + 1)) with (S (Z.to_nat k)) in K by lia. apply K. lia. }
    subst y. assert (a = b) as ->; [|reflexivity]. change (a :: x) with ([a] ++ x) in P. change (b :: x) with ([b] ++ x) in P.
    apply Permutation_app_inv_r in P. apply Permutation_length_1 in P. assumption.
  - destruct x as [|d x0] eqn:Ex; [cbn in L; lia|]. rewrite <- Ex in *. clear Ex x0. pose proof (Permutation_length P) as PL.
    set (i := Z.of_nat (S n)). assert (Li : 0 <= i < zlen x) by (unfold i, zlen; lia).
    (* the element wanted at position i is among the first i + 1 *)
    assert (J : exists j, 0 <= j <= i /\ zn d x j = zn d y i).
    { assert (Px : Permutation (firstn (S (S n)) x) (firstn (S (S n)) y)).
      { assert (Sk : skipn (S (S n)) x = skipn (S (S n)) y).
        { apply (list_eq_zn d); [unfold zlen; rewrite !skipn_length; lia|]. intros k Hk. unfold zlen in Hk. rewrite skipn_length in Hk. unfold zn. rewrite !nth_skipn.
          specialize (K d (Z.of_nat (S (S n)) + k)). unfold zn, zlen in K. replace (Z.to_nat (Z.of_nat (S (S n)) + k)) with (S (S n) + Z.to_nat k)%nat in K by lia. apply K. lia. }
        rewrite <- (firstn_skipn (S (S n)) x), <- (firstn_skipn (S (S n)) y), Sk in P. now apply Permutation_app_inv_r in P. }
      assert (In1 : In (zn d y i) (firstn (S (S n)) y)).
      { unfold zn. rewrite <- (nth_firstn_lt d y (S (S n))) by (unfold i; lia). apply nth_In. rewrite firstn_length. unfold i. lia. }
      apply (Permutation_in _ (Permutation_sym Px)) in In1. apply (In_nth _ _ d) in In1. destruct In1 as (m & Hm & E). rewrite firstn_length in Hm. rewrite nth_firstn_lt in E by lia.
      exists (Z.of_nat m). split; [unfold i; lia|]. unfold zn at 1. rewrite Nat2Z.id. exact E. }
    destruct J as (j & Hj & Ej). pose proof (zlen_swp d x i j) as LS.
    destruct (IH (swp d x i j) y) as (js & Lj & Fj & E).
    + rewrite swp_perm by lia. assumption.
    + unfold zlen in LS. lia.
    + intros d' k Hk. rewrite LS in Hk. assert (Dd : forall (l : list A) q, 0 <= q < zlen l -> zn d' l q = zn d l q) by (intros l q Hq; apply nth_indep; unfold zlen in Hq; lia).
      rewrite (Dd (swp d x i j) k), (Dd y k) by (rewrite ?LS; unfold zlen in *; lia). rewrite zn_swp by lia. destruct (Z.eqb_spec k j) as [->|N1].
      * assert (j = i) as -> by (unfold i in *; lia). exact Ej.
      * destruct (Z.eqb_spec k i) as [->|N2]; [exact Ej|]. apply K. unfold i in *; lia.
    + exists (j :: js). cbn [length fitting exchange]. rewrite Lj. split; [reflexivity|]. split; [split; [exact Hj|assumption]|].
      fold i. rewrite (aswap_ok d) by lia. exact E.
Qed.
End Orders.

(** ** Samples *)

Section Sample.
Context {G : Type} (draw : G -> res (Z * G)) (I : G -> Prop).
Context (D : forall g, I g -> exists w g', draw g = Ok (w, g') /\ word w /\ I g').
Context {A : Type} (d : A).

Lemma take_out (P : list A) j : P <> [] -> 0 <= j < zlen P ->
  Permutation P (zn d P j :: firstn (length P - 1) (upd P j (zn d P (zlen P - 1)))).
Proof.
  intros Np Hj. destruct (exists_last Np) as (Q & l & ->). assert (Lq : zlen (Q ++ [l]) = zlen Q + 1) by (unfold zlen; rewrite app_length; cbn [length]; lia).
  rewrite app_length. cbn [length]. replace (length Q + 1 - 1)%nat with (length Q) by lia.
  assert (Lst : zn d (Q ++ [l]) (zlen (Q ++ [l]) - 1) = l).
  { unfold zn. rewrite Lq. unfold zlen. replace (Z.to_nat (Z.of_nat (length Q) + 1 - 1)) with (length Q) by lia. rewrite app_nth2 by lia. now rewrite Nat.sub_diag. }
  rewrite Lst. destruct (Z.eq_dec j (zlen Q)) as [->|Nj].
  - rewrite Lq in Lst. replace (zlen Q + 1 - 1) with (zlen Q) in Lst by lia. rewrite Lst. unfold upd. rewrite upd_nat_split by (rewrite app_length; unfold zlen; cbn [length]; lia).
    unfold zlen. rewrite Nat2Z.id. replace (firstn (length Q) (Q ++ [l])) with Q by (rewrite firstn_app, Nat.sub_diag, firstn_all; cbn [firstn]; now rewrite app_nil_r).
    rewrite firstn_app, Nat.sub_diag, firstn_all. cbn [firstn]. rewrite app_nil_r. symmetry. apply Permutation_cons_append.
  - assert (Hq : 0 <= j < zlen Q) by lia. replace (upd (Q ++ [l]) j l) with (upd Q j l ++ [l]).
    + rewrite firstn_app. rewrite <- (upd_nat_length Q (Z.to_nat j) l) at 1 2. fold (upd Q j l). rewrite Nat.sub_diag, firstn_all. cbn [firstn]. rewrite app_nil_r.
      replace (zn d (Q ++ [l]) j) with (zn d Q j) by (unfold zn; rewrite app_nth1; [reflexivity|unfold zlen in Hq; lia]).
      rewrite upd_perm_cons by lia. symmetry. apply Permutation_cons_append.
    + unfold upd. assert (Hn : (Z.to_nat j < length Q)%nat) by (unfold zlen in Hq; lia). revert Hn. generalize (Z.to_nat j) as n. clear. induction Q as [|a Q IH]; intros [|n] H; cbn in *; try lia; auto. f_equal. apply IH. lia.
Qed.

Lemma firstn_upd (l : list A) n x : (n < length l)%nat -> firstn (S n) (upd_nat l n x) = firstn n l ++ [x].
Proof. revert n. induction l as [|a l IH]; intros [|n] H; cbn in *; try lia; auto. f_equal. apply IH. lia. Qed.
Lemma firstn_upd_low (l : list A) j n x : (j < n)%nat -> firstn n (upd_nat l j x) = upd_nat (firstn n l) j x.
Proof. revert j n. induction l as [|a l IH]; intros [|j] [|n] H; cbn in *; try lia; auto. f_equal. apply IH. lia. Qed.

Lemma from_pool_ok fuel (pop : list A) : zlen pop <= max64 -> forall k i pool result g, 0 <= i -> i + Z.of_nat k <= zlen pop -> zlen result = i + Z.of_nat k ->
  zlen pool = zlen pop -> Permutation pop (firstn (Z.to_nat i) result ++ firstn (Z.to_nat (zlen pop - i)) pool) -> I g ->
  may (from_pool draw fuel k (zlen pop) i pool result g) (fun '(r, g') => sample_of pop r (i + Z.of_nat k) /\ I g').
Proof.
  intros Lp. induction k as [|k IH]; intros i pool result g Hi Hk Lr Lo P Hg; cbn [from_pool].
  - cbn. split; [|assumption]. split; [unfold zlen in Lr; lia|]. eexists. rewrite P. rewrite firstn_all2 by (unfold zlen in Lr; lia). reflexivity.
  - apply may_bind. eapply may_conseq; [apply (below_ok draw I D); [lia|exact Hg]|]. cbv beta. intros [j g'] [B I'].
    rewrite !(aget_ok d) by lia. cbn [bind]. rewrite !aset_ok by lia. cbn [bind].
    replace (i + Z.of_nat (S k)) with (i + 1 + Z.of_nat k) by lia. apply IH; [lia|lia|rewrite zlen_upd; lia|rewrite zlen_upd; lia| |assumption].
    set (n := zlen pop) in *. set (Q := firstn (Z.to_nat (n - i)) pool) in *.
    assert (LQ : length Q = Z.to_nat (n - i)) by (unfold Q; rewrite firstn_length; unfold zlen in Lo; lia).
    assert (NQ : Q <> []) by (intros E; rewrite E in LQ; cbn in LQ; lia).
    pose proof (take_out Q j NQ ltac:(unfold zlen; lia)) as T. rewrite LQ in T.
    assert (Qn : forall q, 0 <= q < n - i -> zn d Q q = zn d pool q) by (intros q Hq; unfold zn, Q; apply nth_firstn_lt; lia).
    rewrite P, T. rewrite (Qn j) by lia. rewrite (Qn (zlen Q - 1)) by (unfold zlen; lia). replace (zlen Q - 1) with (n - i - 1) by (unfold zlen; lia).
    unfold upd. replace (Z.to_nat (i + 1)) with (S (Z.to_nat i)) by lia. rewrite firstn_upd by (unfold zlen in Lr; lia). rewrite <- app_assoc. apply Permutation_app_head. cbn [app]. apply perm_skip.
    replace (Z.to_nat (n - (i + 1))) with (Z.to_nat (n - i) - 1)%nat by lia.
    unfold Q. rewrite <- firstn_upd_low by lia. rewrite firstn_firstn. now rewrite Nat.min_l by lia.
Qed.

Lemma fresh_ok tries fuel n sel : 0 < n <= max64 -> forall g, I g -> may (fresh draw tries fuel n sel g) (fun '(j, g') => 0 <= j < n /\ ~ In j sel /\ I g').
Proof.
  intros Hn. induction tries as [|tries IH]; intros g Hg; cbn [fresh]; [exact Logic.I|]. apply may_bind. eapply may_conseq; [apply (below_ok draw I D); [exact Hn|exact Hg]|].
  cbv beta. intros [j g'] [B I']. destruct (existsb (Z.eqb j) sel) eqn:E; [now apply IH|]. cbn. split; [assumption|]. split; [|assumption].
  intros H. assert (existsb (Z.eqb j) sel = true) by (apply existsb_exists; exists j; split; [assumption|apply Z.eqb_refl]). congruence.
Qed.

Lemma positions (l : list Z) : NoDup l -> forall m, (forall z, In z l -> In z m) -> exists r, Permutation m (l ++ r).
Proof.
  induction 1 as [|a l N0 Nd IH]; intros m H; [exists m; reflexivity|]. destruct (in_split a m (H a (or_introl eq_refl))) as (m1 & m2 & ->).
  destruct (IH (m1 ++ m2)) as (r & P).
  - intros z Hz. specialize (H z (or_intror Hz)). apply in_app_iff in H. apply in_app_iff. destruct H as [H|[->|H]]; auto. contradiction.
  - exists r. rewrite <- Permutation_middle. cbn. now rewrite P.
Qed.
Lemma all_positions (pop : list A) : pop = map (fun j => zn d pop (Z.of_nat j)) (seq 0 (length pop)).
Proof.
  apply nth_ext with (d := d) (d' := zn d pop (Z.of_nat 0)); [now rewrite map_length, seq_length|]. intros n Hn.
  rewrite (map_nth (fun j => zn d pop (Z.of_nat j)) (seq 0 (length pop)) 0%nat n). rewrite seq_nth by lia. unfold zn. now rewrite Nat.add_0_l, Nat2Z.id.
Qed.

Lemma by_set_ok fuel (pop : list A) : zlen pop <= max64 -> forall k i result sel g, 0 <= i -> i + Z.of_nat k <= zlen pop -> zlen result = i + Z.of_nat k -> zlen sel = i ->
  NoDup sel -> (forall j, In j sel -> 0 <= j < zlen pop) -> firstn (Z.to_nat i) result = map (zn d pop) (rev sel) -> I g ->
  may (by_set draw fuel k (zlen pop) i pop result sel g) (fun '(r, g') => sample_of pop r (i + Z.of_nat k) /\ I g').
Proof.
  intros Lp. induction k as [|k IH]; intros i result sel g Hi Hk Lr Ls Nd Rg Fr Hg; cbn [by_set].
  - cbn. split; [|assumption]. split; [unfold zlen in Lr; lia|]. rewrite firstn_all2 in Fr by (unfold zlen in Lr; lia). subst result.
    destruct (positions (rev sel) ltac:(now apply NoDup_rev) (map Z.of_nat (seq 0 (length pop)))) as (r & P).
    + intros z Hz. apply in_rev in Hz. apply Rg in Hz. apply in_map_iff. exists (Z.to_nat z). split; [lia|]. apply in_seq. unfold zlen in Hz. lia.
    + exists (map (zn d pop) r). rewrite <- map_app. rewrite (all_positions pop) at 1. rewrite <- P, map_map. reflexivity.
  - apply may_bind. eapply may_conseq; [apply fresh_ok; [lia|exact Hg]|]. cbv beta. intros [j g'] (B & Nj & I').
    rewrite (aget_ok d) by lia. cbn [bind]. rewrite aset_ok by lia. cbn [bind]. replace (i + Z.of_nat (S k)) with (i + 1 + Z.of_nat k) by lia.
    apply IH; [lia|lia|rewrite zlen_upd; lia|unfold zlen in *; cbn [length]; lia|now constructor| | |assumption].
    + intros q [<-|Hq]; [lia|now apply Rg].
    + unfold upd. replace (Z.to_nat (i + 1)) with (S (Z.to_nat i)) by lia. rewrite firstn_upd by (unfold zlen in Lr; lia). rewrite Fr. cbn [rev]. now rewrite map_app.
Qed.

Lemma sample_ok fuel small (pop : list A) k g : 0 <= k <= zlen pop -> zlen pop <= max64 -> I g ->
  may (sample draw fuel small pop k g) (fun '(r, g') => sample_of pop r k /\ I g').
Proof.
  intros Hk Lp Hg. unfold sample. replace ((0 <=? k) && (k <=? zlen pop)) with true by lia. cbn [negb].
  assert (E : exists r0, (if k =? 0 then Ok [] else x <- aget pop 0 ;; Ok (repeat x (Z.to_nat k))) = Ok r0 /\ zlen r0 = k).
  { destruct (Z.eqb_spec k 0) as [->|]; [exists []; auto|]. rewrite (aget_ok d) by lia. cbn [bind]. eexists. split; [reflexivity|]. unfold zlen. rewrite repeat_length. lia. }
  destruct E as (r0 & -> & Lr). cbn [bind]. assert (K0 : k = 0 + Z.of_nat (Z.to_nat k)) by lia. destruct small.
  - eapply may_conseq; [apply from_pool_ok; try exact Hg; try lia; auto|].
    + replace (zlen pop - 0) with (zlen pop) by lia. unfold zlen. rewrite Nat2Z.id, firstn_all. reflexivity.
    + cbv beta. now rewrite <- K0.
  - eapply may_conseq; [apply by_set_ok; try exact Hg; try lia; auto; [constructor|intros j []]|]. cbv beta. now rewrite <- K0.
Qed.

Lemma choices_ok (pop : list A) k : pop <> [] -> zlen pop <= 2^53 -> forall g, I g -> exists l g', choices draw pop k g = Ok (l, g') /\ length l = k /\ (forall x, In x l -> In x pop) /\ I g'.
Proof.
  intros Np Lp. assert (0 < zlen pop) by (destruct pop; [contradiction|unfold zlen; cbn [length]; lia]). induction k as [|k IH]; intros g Hg; cbn [choices].
  - exists [], g. split; [reflexivity|]. split; [reflexivity|]. split; [intros ? []|assumption].
  - unfold choice_index, random_num. destruct (D g Hg) as (a & g1 & -> & Wa & I1). cbn [bind]. destruct (D g1 I1) as (b & g2 & -> & Wb & I2). cbn [bind].
    rewrite !Z.shiftr_div_pow2 by lia. unfold word in *.
    assert (R : 0 <= a / 2^5 * 67108864 + b / 2^6 < 2^53).
    { pose proof (Z.div_pos a (2^5) ltac:(lia) ltac:(lia)). pose proof (Z.div_pos b (2^6) ltac:(lia) ltac:(lia)).
      assert (a / 2^5 < 2^27) by (apply Z.div_lt_upper_bound; lia). assert (b / 2^6 < 2^26) by (apply Z.div_lt_upper_bound; lia). lia. }
    pose proof (fraction_below _ (zlen pop) R ltac:(lia)) as B. set (i := _ / 2^53) in *. rewrite (aget_ok d) by lia. cbn [bind].
    destruct (IH g2 I2) as (l & g' & -> & Ll & Fl & I'). cbn [bind]. exists (zn d pop i :: l), g'. split; [reflexivity|]. split; [cbn; lia|]. split; [|assumption].
    intros x [<-|Hx]; [|now apply Fl]. apply nth_In. unfold zlen in *. lia.
Qed.
End Sample.
