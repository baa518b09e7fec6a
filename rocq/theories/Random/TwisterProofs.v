(** The generator's words are those of the Mersenne twister; seeding. *)
From Coq Require Import List ZArith Lia Bool.
From Verif.Common Require Import Result Int64 Arr.
From Verif.Random Require Import Model Spec.
Import ListNotations.
Local Open Scope Z_scope.
Local Open Scope res_scope.
Local Arguments Z.add : simpl never.
Local Arguments Z.sub : simpl never.
Local Arguments Z.mul : simpl never.
Local Arguments Z.pow : simpl never.
Local Arguments Z.of_nat : simpl never.
Local Arguments Z.to_nat : simpl never.
Local Notation zn := (zn 0).

(** ** Words *)

Lemma word_shift x : word x <-> 0 <= x /\ Z.shiftr x 32 = 0.
Proof.
  unfold word. rewrite Z.shiftr_div_pow2 by lia. split; intros [H1 H2]; (split; [assumption|]).
  - apply Z.div_small. lia.
  - apply Z.div_small_iff in H2; lia.
Qed.
Lemma word_lxor a b : word a -> word b -> word (Z.lxor a b).
Proof.
  rewrite !word_shift. intros [A1 A2] [B1 B2]. split; [apply Z.lxor_nonneg; tauto|]. now rewrite Z.shiftr_lxor, A2, B2.
Qed.
Lemma word_land a b : 0 <= a -> word b -> word (Z.land a b).
Proof.
  rewrite !word_shift. intros A1 [B1 B2]. split; [apply Z.land_nonneg; tauto|]. now rewrite Z.shiftr_land, B2, Z.land_0_r.
Qed.
Lemma word_div a b : word a -> 0 < b -> word (a / b).
Proof. unfold word. intros H Hb. split; [apply Z.div_pos; lia|]. apply Z.le_lt_trans with a; [|lia]. apply Z.div_le_upper_bound; nia. Qed.
Lemma word_u32 x : word (u32 x).
Proof. unfold word, u32. apply Z.mod_pos_bound. lia. Qed.

Lemma lor_shift a b k : 0 <= b < 2 ^ k -> 0 <= k -> Z.lor (a * 2 ^ k) b = a * 2 ^ k + b.
Proof.
  intros Hb Hk. rewrite <- Z.lxor_lor, <- Z.add_nocarry_lxor; try reflexivity;
  (apply Z.bits_inj'; intros n Hn; rewrite Z.land_spec, Z.bits_0; destruct (Z.lt_ge_cases n k) as [L|L];
   [rewrite Z.mul_pow2_bits_low by lia; reflexivity
   |rewrite andb_comm; replace b with (b mod 2 ^ k) by (apply Z.mod_small; lia); rewrite Z.mod_pow2_bits_high by lia; reflexivity]).
Qed.

Lemma upper_bit a : word a -> Z.land a UPPER_MASK = a / 2^31 * 2^31.
Proof.
  intros H. apply Z.bits_inj'. intros n Hn. rewrite Z.land_spec. change UPPER_MASK with (2^31). rewrite Z.pow2_bits_eqb by lia.
  destruct (Z.eqb_spec 31 n) as [<-|N0].
  - rewrite andb_true_r, Z.mul_pow2_bits, Z.div_pow2_bits by lia. reflexivity.
  - rewrite andb_false_r. destruct (Z.lt_ge_cases n 31) as [L|L]; [now rewrite Z.mul_pow2_bits_low by lia|].
    rewrite Z.mul_pow2_bits, Z.div_pow2_bits by lia. replace (n - 31 + 31) with n by lia. replace a with (a mod 2^32) by (unfold word in H; apply Z.mod_small; lia).
    rewrite Z.mod_pow2_bits_high by lia. reflexivity.
Qed.

Lemma mixed_ok a b c : word a -> mixed a b c = Ok (next_word c a b).
Proof.
  intros Ha. unfold mixed. rewrite (upper_bit a Ha). change LOWER_MASK with (Z.ones 31). rewrite Z.land_ones by lia.
  rewrite lor_shift by (try lia; apply Z.mod_pos_bound; lia). unfold next_word. set (y := _ + _).
  change 1 with (Z.ones 1) at 1. rewrite Z.land_ones by lia. change (2^1) with 2. rewrite Zmod_odd. unfold times_A, mag01.
  rewrite Z.shiftr_div_pow2 by lia. change (2^1) with 2. destruct (Z.odd y).
  - change (aget [0; MATRIX_A] 1) with (Ok MATRIX_A). cbn [bind]. f_equal. apply Z.lxor_assoc.
  - change (aget [0; MATRIX_A] 0) with (Ok 0). cbn [bind]. now rewrite Z.lxor_0_r.
Qed.
Lemma next_word_word xm x0 x1 : word xm -> word x0 -> word (next_word xm x0 x1).
Proof.
  intros Hm H0. unfold next_word, times_A. set (y := _ + _). assert (word y).
  { unfold y, word in *. pose proof (Z.mod_pos_bound x1 (2^31) ltac:(lia)). pose proof (Z.div_pos x0 (2^31) ltac:(lia) ltac:(lia)).
    assert (x0 / 2^31 < 2) by (apply Z.div_lt_upper_bound; lia). lia. }
  apply word_lxor; [assumption|]. destruct (Z.odd y); [apply word_lxor|]; try apply word_div; auto; try lia. unfold word; lia.
Qed.

Lemma land_u32 x c : 0 <= c < 2^32 -> Z.land (u32 x) c = Z.land x c.
Proof.
  intros H. unfold u32. rewrite <- Z.land_ones by lia. rewrite <- Z.land_assoc. f_equal. rewrite Z.land_comm, Z.land_ones by lia. apply Z.mod_small. lia.
Qed.
Lemma tempered_ok y : tempered y = temper y.
Proof.
  unfold tempered, temper. rewrite !Z.shiftr_div_pow2 by lia. rewrite !Z.shiftl_mul_pow2 by lia. rewrite !land_u32 by lia. reflexivity.
Qed.
Lemma temper_word y : word y -> word (temper y).
Proof.
  intros H. unfold temper. cbv zeta.
  assert (A : forall a p, word a -> 0 < p -> word (Z.lxor a (a / p))) by (intros; apply word_lxor; [|apply word_div]; auto).
  assert (B : forall a p c, word a -> 0 < p -> word c -> word (Z.lxor a (Z.land (a * p) c))).
  { intros a p c Ha Hp Hc. apply word_lxor; [assumption|]. apply word_land; [unfold word in Ha; nia|assumption]. }
  apply A; [|lia]. apply B; [|lia|unfold word; lia]. apply B; [|lia|unfold word; lia]. apply A; [assumption|lia].
Qed.

(** ** Refilling the state *)

Definition holds (x : Z -> Z) (b kk : Z) (mt : list Z) : Prop :=
  zlen mt = 624 /\ forall j, 0 <= j < 624 -> zn mt j = x (b + j + if j <? kk then 624 else 0).

Section Sequence.
Context (x : Z -> Z) (W : forall k, 0 <= k -> word (x k)) (Sq : mt_sequence x).

Lemma holds_step b kk mt : 0 <= b -> 0 <= kk < 624 -> holds x b kk mt ->
  holds x b (kk + 1) (upd mt kk (x (b + kk + 624))).
Proof.
  intros Hb Hk [L H]. split; [now rewrite zlen_upd|]. intros j Hj. rewrite zn_upd by lia.
  destruct (Z.eqb_spec j kk) as [->|N0]; [destruct (Z.ltb_spec kk (kk + 1)); [reflexivity|lia]|].
  rewrite H by lia. do 2 f_equal. destruct (Z.ltb_spec j kk), (Z.ltb_spec j (kk + 1)); lia.
Qed.

Lemma refill_ok b hi off : 0 <= b -> hi <= 623 -> forall fuel kk mt, 0 <= kk <= hi -> (Z.to_nat (hi - kk) < fuel)%nat ->
  (off = 397 /\ hi <= 227 \/ off = -227 /\ 227 <= kk) -> holds x b kk mt ->
  exists mt', refill fuel hi off kk mt = Ok (hi, mt') /\ holds x b hi mt'.
Proof.
  intros Hb Hh. induction fuel as [|fuel IH]; intros kk mt Hk F O H; [lia|]. cbn [refill].
  destruct (Z.ltb_spec kk hi) as [Lt|Ge]; [|assert (kk = hi) as -> by lia; eauto].
  pose proof H as [L Hz]. rewrite !(aget_ok 0) by lia. cbn [bind]. rewrite !Hz by lia.
  replace (kk <? kk) with false by lia. replace (kk + 1 <? kk) with false by lia. rewrite !Z.add_0_r.
  rewrite mixed_ok by (apply W; lia). cbn [bind]. rewrite aset_ok by lia. cbn [bind].
  replace (next_word _ _ _) with (x (b + kk + 624)).
  - apply IH; [lia|lia|lia|]. now apply holds_step; [|lia|].
  - rewrite Sq by lia. f_equal; [|f_equal; lia]. f_equal. destruct (Z.ltb_spec (kk + off) kk); lia.
Qed.

Lemma regenerate_ok b mt : 0 <= b -> holds x b 0 mt -> exists mt', regenerate mt = Ok mt' /\ holds x (b + 624) 0 mt'.
Proof.
  intros Hb H. unfold regenerate, N, M.
  destruct (refill_ok b 227 397 Hb ltac:(lia) (S (Z.to_nat 624)) 0 mt) as (m1 & E1 & H1); [lia|lia|lia|assumption|].
  change (624 - 397) with 227. rewrite E1. cbn [bind].
  destruct (refill_ok b 623 (-227) Hb ltac:(lia) (S (Z.to_nat 624)) 227 m1) as (m2 & E2 & H2); [lia|lia|lia|assumption|].
  change (624 - 1) with 623. change (397 - 624) with (-227). rewrite E2. cbn [bind].
  pose proof H2 as [L Hz]. rewrite !(aget_ok 0) by lia. cbn [bind]. rewrite !Hz by lia. change (623 <? 623) with false. change (0 <? 623) with true. change (397 - 1 <? 623) with true. cbv iota.
  rewrite mixed_ok by (apply W; lia). cbn [bind]. rewrite aset_ok by lia. eexists. split; [reflexivity|].
  replace (next_word _ _ _) with (x (b + 623 + 624)).
  - pose proof (holds_step b 623 m2 Hb ltac:(lia) H2) as [L3 H3]. split; [assumption|]. intros j Hj. rewrite H3 by lia. f_equal.
    destruct (Z.ltb_spec j (623 + 1)), (Z.ltb_spec j 0); lia.
  - rewrite Sq by lia. f_equal; f_equal; lia.
Qed.

(** The generator is about to give word [x (b + i)]. *)
Definition stands (b : Z) (g : gen) : Prop := 0 <= b /\ 0 <= index g <= 624 /\ holds x b 0 (state g).

Lemma genrand_ok b g : stands b g -> exists g' b', genrand_int32 g = Ok (temper (x (b + index g)), g') /\ stands b' g' /\ b' + index g' = b + index g + 1.
Proof.
  intros (Hb & Hi & H). unfold genrand_int32, N.
  assert (G : forall b g, 0 <= b -> 0 <= index g < 624 -> holds x b 0 (state g) ->
    exists g' b', (y <- aget (state g) (index g) ;; Ok (tempered y, {| index := u32 (index g + 1); state := state g |})) = Ok (temper (x (b + index g)), g') /\
      stands b' g' /\ b' + index g' = b + index g + 1).
  { clear. intros b g Hb Hi [L H]. rewrite (aget_ok 0) by lia. cbn [bind]. rewrite H by lia. replace (index g <? 0) with false by lia. rewrite Z.add_0_r, tempered_ok.
    eexists. exists b. split; [reflexivity|]. unfold stands. cbn [index state]. unfold u32. rewrite Z.mod_small by lia. split; [|lia]. split; [assumption|]. split; [lia|]. now split. }
  destruct (Z.leb_spec 624 (index g)) as [Ge|Lt].
  - destruct (regenerate_ok b (state g) Hb H) as (mt & -> & H'). cbn [bind].
    destruct (G (b + 624) {| index := 0; state := mt |}) as (g' & b' & E & S' & E'); cbn [index state] in *; [lia|lia|assumption|].
    exists g', b'. replace (b + index g) with (b + 624 + 0) by lia. split; [exact E|]. split; [assumption|lia].
  - cbn [bind]. destruct (G b g Hb ltac:(lia) H) as (g' & b' & E & S' & E'). eauto.
Qed.
End Sequence.

(** ** The sequence that starts with given words *)

Definition window (l : list Z) (k : nat) : list Z := Nat.iter k slide l.
Lemma slide_length l : length (slide l) = length l.
Proof. destruct l; cbn; [reflexivity|]. rewrite app_length. cbn. lia. Qed.
Lemma window_length l k : length (window l k) = length l.
Proof. induction k; cbn; [reflexivity|]. unfold window in *. cbn. now rewrite slide_length. Qed.
Lemma slide_nth l j : (S j < length l)%nat -> nth j (slide l) 0 = nth (S j) l 0.
Proof. destruct l; cbn [length]; [lia|]. intros H. cbn [slide]. rewrite app_nth1 by lia. reflexivity. Qed.
Lemma window_hd l j : forall k, (j < length l)%nat -> hd 0 (window l (k + j)) = nth j (window l k) 0.
Proof.
  induction j as [|j IH]; intros k H.
  - rewrite Nat.add_0_r. now destruct (window l k).
  - replace (k + S j)%nat with (S k + j)%nat by lia. rewrite IH by lia. change (window l (S k)) with (slide (window l k)). apply slide_nth. rewrite window_length. lia.
Qed.
Lemma slide_last l : length l = 624%nat -> nth 623 (slide l) 0 = next_word (nth 397 l 0) (nth 0 l 0) (nth 1 l 0).
Proof.
  destruct l as [|a l]; [discriminate|]. intros H. cbn [slide]. cbn [length] in H. rewrite app_nth2 by lia.
  replace (623 - length l)%nat with 0%nat by lia. reflexivity.
Qed.
Lemma mt_from_first l k : zlen l = 624 -> 0 <= k < 624 -> mt_from l k = zn l k.
Proof.
  intros L Hk. unfold mt_from, zlen in *. change (Nat.iter (Z.to_nat k) slide l) with (window l (0 + Z.to_nat k)). rewrite window_hd by lia. reflexivity.
Qed.
Lemma mt_from_sequence l : zlen l = 624 -> mt_sequence (mt_from l).
Proof.
  intros L k Hk. unfold mt_from, zlen in *. assert (L' : length l = 624%nat) by lia. fold (window l (Z.to_nat k)). fold (window l (Z.to_nat (k + 624))).
  fold (window l (Z.to_nat (k + 397))). fold (window l (Z.to_nat (k + 1))).
  replace (Z.to_nat (k + 624)) with (S (Z.to_nat k) + 623)%nat by lia. rewrite window_hd by lia. change (window l (S (Z.to_nat k))) with (slide (window l (Z.to_nat k))).
  rewrite slide_last by (now rewrite window_length).
  replace (Z.to_nat (k + 397)) with (Z.to_nat k + 397)%nat by lia. replace (Z.to_nat (k + 1)) with (Z.to_nat k + 1)%nat by lia. rewrite !window_hd by lia.
  f_equal. rewrite <- (window_hd l 0) by lia. now rewrite Nat.add_0_r.
Qed.
Lemma mt_from_word l : zlen l = 624 -> Forall word l -> forall k, 0 <= k -> word (mt_from l k).
Proof.
  intros L F. assert (L' : length l = 624%nat) by (unfold zlen in L; lia).
  assert (A : forall k, Forall word (window l k)).
  { induction k as [|k IH]; [exact F|]. change (window l (S k)) with (slide (window l k)). pose proof (window_length l k) as Lk. destruct (window l k) as [|a w]; [constructor|].
    cbn [slide]. apply Forall_app. assert (Nt : forall n, (n < 624)%nat -> word (nth n (a :: w) 0)).
    { intros n Hn. rewrite Forall_forall in IH. apply IH. apply nth_In. lia. }
    split; [now inversion IH|]. constructor; [|constructor]. apply next_word_word; [apply Nt; lia|]. now inversion IH. }
  intros k Hk. unfold mt_from. fold (window l (Z.to_nat k)). specialize (A (Z.to_nat k)). pose proof (window_length l (Z.to_nat k)) as Lk.
  destruct (window l (Z.to_nat k)); [cbn in Lk; lia|]. now inversion A.
Qed.

(** ** Seeding *)

Definition valid (mt : list Z) : Prop := zlen mt = 624 /\ Forall word mt.
Lemma valid_upd mt i w : valid mt -> word w -> 0 <= i < 624 -> valid (upd mt i w).
Proof.
  intros [L F] Hw Hi. split; [now rewrite zlen_upd|]. unfold upd. clear L Hi. revert mt F. generalize (Z.to_nat i) as n.
  induction n as [|n IH]; intros [|a mt] F; cbn; auto; inversion F; subst; constructor; auto.
Qed.
Lemma init_loop_ok fuel : forall i mt, 1 <= i <= 624 -> (Z.to_nat (624 - i) < fuel)%nat -> valid mt ->
  exists mt', init_loop fuel i mt = Ok mt' /\ valid mt' /\
  forall mt2, valid mt2 -> (forall j, 0 <= j < i -> zn mt2 j = zn mt j) -> init_loop fuel i mt2 = Ok mt'.
Proof.
  induction fuel as [|fuel IH]; intros i mt Hi F V; [lia|]. cbn [init_loop]. unfold N in *. destruct (Z.ltb_spec i 624) as [Lt|Ge].
  - pose proof V as [L _]. rewrite (aget_ok 0) by lia. cbn [bind]. rewrite aset_ok by lia. cbn [bind]. set (w := u32 _).
    destruct (IH (i + 1) (upd mt i w)) as (mt' & E & V' & U); [lia|lia|apply valid_upd; auto; [apply word_u32|lia]|].
    exists mt'. split; [assumption|]. split; [assumption|]. intros mt2 V2 Eq. pose proof V2 as [L2 _]. rewrite (aget_ok 0) by lia. cbn [bind]. rewrite Eq by lia. fold w.
    rewrite aset_ok by lia. cbn [bind]. apply U; [apply valid_upd; auto; [apply word_u32|lia]|]. intros j Hj. rewrite !zn_upd by lia. destruct (Z.eqb_spec j i); [reflexivity|]. apply Eq. lia.
  - exists mt. split; [reflexivity|]. split; [assumption|]. intros mt2 V2 Eq. f_equal. apply (list_eq_zn 0); destruct V as [L _], V2 as [L2 _]; [lia|]. intros j Hj. apply Eq. lia.
Qed.
Lemma init_u32_ok s : word s -> exists mt', valid mt' /\ forall mt, valid mt -> init_u32 mt s = Ok {| index := 624; state := mt' |}.
Proof.
  intros Hs. set (z := repeat 0 (Z.to_nat 624)).
  assert (Vz : valid z). { split; [unfold zlen, z; rewrite repeat_length; lia|]. apply Forall_forall. intros x I. apply repeat_spec in I. subst x. unfold word; lia. }
  destruct (init_loop_ok (S (Z.to_nat 624)) 1 (upd z 0 s)) as (mt' & E & V' & U); [lia|lia|apply valid_upd; auto; lia|].
  exists mt'. split; [assumption|]. intros mt V. unfold init_u32, N. pose proof V as [L _]. rewrite aset_ok by lia. cbn [bind].
  rewrite (U (upd mt 0 s)); [reflexivity|apply valid_upd; auto; lia|]. intros j Hj. assert (j = 0) as -> by lia. destruct Vz as [Lz _]. now rewrite !zn_upd_same by lia.
Qed.
Lemma key_loop_ok key k : Forall word key -> 0 < zlen key -> forall i j mt, 1 <= i < 624 -> 0 <= j < zlen key -> valid mt ->
  exists i' mt', key_loop k key i j mt = Ok (i', mt') /\ 1 <= i' < 624 /\ valid mt'.
Proof.
  intros Fk Lk. induction k as [|k IH]; intros i j mt Hi Hj V; cbn [key_loop]; [eauto|]. pose proof V as [L _].
  rewrite !(aget_ok 0) by lia. cbn [bind]. rewrite aset_ok by lia. cbn [bind]. set (w := u32 _).
  assert (Vw : valid (upd mt i w)) by (apply valid_upd; auto; [apply word_u32|lia]). pose proof Vw as [Lw Fw]. unfold N.
  assert (J : 0 <= (if zlen key <=? j + 1 then 0 else j + 1) < zlen key) by (destruct (Z.leb_spec (zlen key) (j + 1)); lia).
  destruct (Z.leb_spec 624 (i + 1)).
  - rewrite (aget_ok 0) by lia. cbn [bind]. rewrite aset_ok by lia. cbn [bind]. apply IH; [lia|assumption|]. apply valid_upd; auto; [|lia].
    rewrite Forall_forall in Fw. apply Fw. unfold zn, Arr.zn. apply nth_In. unfold zlen in Lw. lia.
  - cbn [bind]. apply IH; [lia|assumption|assumption].
Qed.
Lemma stir_loop_ok k : forall i mt, 1 <= i < 624 -> valid mt -> exists mt', stir_loop k i mt = Ok mt' /\ valid mt'.
Proof.
  induction k as [|k IH]; intros i mt Hi V; cbn [stir_loop]; [eauto|]. pose proof V as [L _].
  rewrite !(aget_ok 0) by lia. cbn [bind]. rewrite aset_ok by lia. cbn [bind]. set (w := u32 _).
  assert (Vw : valid (upd mt i w)) by (apply valid_upd; auto; [apply word_u32|lia]). pose proof Vw as [Lw Fw]. unfold N. destruct (Z.leb_spec 624 (i + 1)).
  - rewrite (aget_ok 0) by lia. cbn [bind]. rewrite aset_ok by lia. cbn [bind]. apply IH; [lia|]. apply valid_upd; auto; [|lia].
    rewrite Forall_forall in Fw. apply Fw. unfold zn, Arr.zn. apply nth_In. unfold zlen in Lw. lia.
  - cbn [bind]. apply IH; [lia|assumption].
Qed.
Lemma init_array_ok key : Forall word key -> 0 < zlen key -> exists mt', valid mt' /\ zn mt' 0 = 2^31 /\
  forall mt, valid mt -> init_array mt key = Ok {| index := 624; state := mt' |}.
Proof.
  intros Fk Lk. destruct (init_u32_ok 19650218) as (m0 & V0 & E0); [unfold word; lia|].
  destruct (key_loop_ok key (Z.to_nat (if zlen key <? N then N else zlen key)) Fk Lk 1 0 m0) as (i & m1 & E1 & Hi & V1); [lia|lia|assumption|].
  destruct (stir_loop_ok (Z.to_nat (N - 1)) i m1 Hi V1) as (m2 & E2 & V2). pose proof V2 as [L2 _].
  exists (upd m2 0 2147483648). split; [apply valid_upd; auto; [unfold word; lia|lia]|]. split; [rewrite zn_upd_same by lia; reflexivity|].
  intros mt V. unfold init_array. rewrite (E0 mt V). cbn [bind state index]. rewrite E1. cbn [bind]. rewrite E2. cbn [bind]. rewrite aset_ok by lia. reflexivity.
Qed.
Lemma seed_ok a : exists mt', valid mt' /\ zn mt' 0 = 2^31 /\ forall g, valid (state g) -> seed g a = Ok {| index := 624; state := mt' |}.
Proof.
  set (s := w64 (Z.abs a)). set (key := if u32 (Z.shiftr s 32) =? 0 then [u32 (Z.land s (2^32 - 1))] else [u32 (Z.land s (2^32 - 1)); u32 (Z.shiftr s 32)]).
  assert (Fk : Forall word key) by (unfold key; destruct (_ =? 0); repeat constructor; apply word_u32).
  assert (Lk : 0 < zlen key) by (unfold key; destruct (_ =? 0); unfold zlen; cbn [length]; lia).
  destruct (init_array_ok key Fk Lk) as (mt' & V & Z0 & E). exists mt'. split; [assumption|]. split; [assumption|]. intros g Vg. exact (E (state g) Vg).
Qed.
