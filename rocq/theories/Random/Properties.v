(** C74: random numbers. *)
From Coq Require Import List ZArith Lia Bool Permutation.
From Verif.Common Require Import Result Int64 Arr.
From Verif.Random Require Import Model Spec TwisterProofs Proofs.
Import ListNotations.
Local Open Scope Z_scope.
Local Open Scope res_scope.

(** ** The generator *)

Fixpoint draw_n (n : nat) (g : gen) : res (list Z * gen) :=
  match n with
  | O => Ok ([], g)
  | S n => '(w, g) <- genrand_int32 g ;; '(l, g) <- draw_n n g ;; Ok (w :: l, g)
  end.

(** The words drawn are the tempered words of the Mersenne twister sequence that starts with the
    state, from the position of the counter on, however many are drawn. *)
Theorem C74_twister : forall (l : list Z) (i : Z) (n : nat), zlen l = 624 -> Forall word l -> 0 <= i <= 624 ->
  mt_sequence (mt_from l) /\ (forall k, 0 <= k < 624 -> mt_from l k = nth (Z.to_nat k) l 0) /\
  exists g', draw_n n {| index := i; state := l |} = Ok (map (fun j => temper (mt_from l (i + Z.of_nat j))) (seq 0 n), g').
Proof.
  intros l i n Ll Fw Hi. pose proof (mt_from_sequence l Ll) as Sq. split; [exact Sq|]. split; [intros k Hk; now apply mt_from_first|].
  set (x := mt_from l) in *. assert (W : forall k, 0 <= k -> word (x k)) by (intros k Hk; now apply mt_from_word).
  assert (St : stands x 0 {| index := i; state := l |}).
  { split; [lia|]. cbn [index state]. split; [assumption|]. split; [assumption|]. intros j Hj. replace (j <? 0) with false by lia. replace (0 + j + 0) with j by lia. unfold x. now rewrite mt_from_first by lia. }
  assert (Gn : forall n b g, stands x b g -> exists g', draw_n n g = Ok (map (fun j => temper (x (b + index g + Z.of_nat j))) (seq 0 n), g')).
  { clear n St. induction n as [|n IH]; intros b g St; cbn [draw_n]; [now exists g|].
    destruct (genrand_ok x W Sq b g St) as (g1 & b1 & -> & St1 & E1). cbn [bind]. destruct (IH b1 g1 St1) as (g' & ->). cbn [bind]. exists g'. cbn [seq map]. rewrite <- seq_shift, map_map. replace (b + index g + Z.of_nat 0) with (b + index g) by lia.
    do 3 f_equal. apply map_ext. intros j. do 2 f_equal. lia. }
  destruct (Gn n 0 _ St) as (g' & E). exists g'. exact E.
Qed.

(** Seeding succeeds with every integer, does not depend on what was drawn before, and never
    gives the state of all zeros. *)
Theorem C74_seed : forall a, exists mt, zlen mt = 624 /\ Forall word mt /\ nth 0 mt 0 = 2^31 /\
  forall g, zlen (state g) = 624 -> Forall word (state g) -> seed g a = Ok {| index := 624; state := mt |}.
Proof.
  intros a. destruct (seed_ok a) as (mt & [L F] & H0 & H). exists mt. split; [exact L|]. split; [exact F|]. split; [exact H0|]. intros g Lg Fg. apply H. now split.
Qed.

Definition settled (g : gen) : Prop := zlen (state g) = 624 /\ Forall word (state g) /\ 0 <= index g <= 624.
Theorem C74_generator_is_source : source genrand_int32 settled.
Proof.
  intros g (L & F & Hi). destruct g as [i l]. cbn [state index] in *. set (x := mt_from l).
  assert (W : forall k, 0 <= k -> word (x k)) by (intros k Hk; now apply mt_from_word).
  assert (St : stands x 0 {| index := i; state := l |}).
  { split; [lia|]. cbn [index state]. split; [assumption|]. split; [assumption|]. intros j Hj. replace (j <? 0) with false by lia. replace (0 + j + 0) with j by lia. unfold x. now rewrite mt_from_first by lia. }
  destruct (genrand_ok x W (mt_from_sequence l L) 0 _ St) as (g1 & b1 & E & (B1 & I1 & L1 & H1) & _). eexists _, g1. split; [exact E|]. split; [apply temper_word, W; cbn [index]; lia|].
  split; [exact L1|]. split; [|exact I1]. apply Forall_forall. intros z Hz. apply (In_nth _ _ 0) in Hz. destruct Hz as (m & Hm & <-). unfold zlen in L1.
  specialize (H1 (Z.of_nat m) ltac:(lia)). unfold zn in H1. rewrite Nat2Z.id in H1. rewrite H1. apply W. destruct (_ <? _); lia.
Qed.

(** ** Bits *)

(** [getrandbits(k)]: a value below 2^k, each of which is given by the same number of words, or of
    pairs of words; anything but 0 to 64 bits is refused. *)
Theorem C74_getrandbits : forall G (draw : G -> res (Z * G)) I, source draw I -> forall g, I g ->
  (forall k, 0 <= k <= 63 -> exists r g', getrandbits draw k g = Ok (r, g') /\ 0 <= r < 2^k /\ I g') /\
  (forall k w g', 1 <= k <= 32 -> draw g = Ok (w, g') ->
     exists r, getrandbits draw k g = Ok (r, g') /\ forall v, r = v <-> v * 2^(32 - k) <= w < (v + 1) * 2^(32 - k)) /\
  (forall k lo g1 hi g2, 33 <= k <= 63 -> draw g = Ok (lo, g1) -> draw g1 = Ok (hi, g2) ->
     exists r, getrandbits draw k g = Ok (r, g2) /\
       forall v, r = v <-> lo = v mod 2^32 /\ v / 2^32 * 2^(64 - k) <= hi < (v / 2^32 + 1) * 2^(64 - k)) /\
  (forall lo g1 hi g2, draw g = Ok (lo, g1) -> draw g1 = Ok (hi, g2) -> getrandbits draw 64 g = Ok (w64 (hi * 2^32 + lo), g2)) /\
  (forall k, k < 0 \/ 64 < k -> getrandbits draw k g = Raise ValueError).
Proof.
  intros G draw I D g Hg. destruct (D g Hg) as (w0 & g0 & E0 & W0 & I0).
  assert (Dv : forall a b v, 0 < b -> (a / b = v <-> v * b <= a < (v + 1) * b)).
  { intros a b v Hb. pose proof (Z.div_mod a b ltac:(lia)). pose proof (Z.mod_pos_bound a b Hb). split; [intros <-; nia|]. intros Hv. symmetry. apply (Z.div_unique a b v (a - b * v)); [left|]; nia. }
  split; [intros k Hk; now apply (bits_ok draw I D)|]. split.
  { intros k w g' Hk E. exists (w / 2^(32 - k)). split; [now apply bits_low|]. intros v. apply Dv. apply Z.pow_pos_nonneg; lia. }
  split.
  { intros k lo g1 hi g2 Hk E1 E2. rewrite E0 in E1. injection E1 as -> ->. destruct (D g1 I0) as (w1 & g3 & E3 & W1 & I3). rewrite E2 in E3. injection E3 as <- <-.
    exists (hi / 2^(64 - k) * 2^32 + lo). pose proof (high_value k hi lo Hk W1 W0) as B. assert (2^k <= 2^63) by (apply Z.pow_le_mono_r; lia). split.
    - rewrite (bits_high draw k g lo g1 hi g2) by (auto; lia). rewrite w64_id by (unfold in64, min64, max64; lia). reflexivity.
    - intros v. rewrite <- Dv by (apply Z.pow_pos_nonneg; lia). unfold word in W0. split.
      + intros <-. split; [rewrite Z.add_comm, Z.mod_add, Z.mod_small; lia|]. rewrite Z.add_comm, Z.div_add, (Z.div_small lo) by lia. lia.
      + intros [-> ->]. rewrite (Z.mul_comm _ (2^32)). symmetry. apply Z.div_mod. lia. }
  split.
  { intros lo g1 hi g2 E1 E2. rewrite E0 in E1. injection E1 as -> ->. destruct (D g1 I0) as (w1 & g3 & E3 & W1 & I3). rewrite E2 in E3. injection E3 as <- <-.
    rewrite (bits_high draw 64 g lo g1 hi g2) by (auto; lia). change (2^(64 - 64)) with 1. now rewrite Z.div_1_r. }
  intros k Hk. unfold getrandbits. replace (k =? 0) with false by lia. destruct Hk as [Hk|Hk]; [now replace (k <? 0) with true by lia|].
  replace (k <? 0) with false by lia. now replace (64 <? k) with true by lia.
Qed.

(** [random()] is a multiple of 2^-53 in [0, 1). *)
Theorem C74_random : forall G (draw : G -> res (Z * G)) I, source draw I -> forall g, I g -> exists r g', random_num draw g = Ok (r, g') /\ 0 <= r < 2^53 /\ I g'.
Proof.
  intros G draw I D g Hg. unfold random_num. destruct (D g Hg) as (a & g1 & -> & Wa & I1). cbn [bind]. destruct (D g1 I1) as (b & g2 & -> & Wb & I2). cbn [bind].
  rewrite !Z.shiftr_div_pow2 by lia. unfold word in *. eexists _, g2. split; [reflexivity|]. split; [|assumption].
  pose proof (Z.div_pos a (2^5) ltac:(lia) ltac:(lia)). pose proof (Z.div_pos b (2^6) ltac:(lia) ltac:(lia)).
  assert (a / 2^5 < 2^27) by (apply Z.div_lt_upper_bound; lia). assert (b / 2^6 < 2^26) by (apply Z.div_lt_upper_bound; lia). lia.
Qed.

(** ** A number below n *)

(** The first of the successive draws of [k] bits that is below [n]. *)
Inductive first_below {G} (draw : G -> res (Z * G)) (n k : Z) : G -> Z -> G -> Prop :=
| fb_now g r g' : getrandbits draw k g = Ok (r, g') -> r < n -> first_below draw n k g r g'
| fb_later g r0 g1 r g' : getrandbits draw k g = Ok (r0, g1) -> n <= r0 -> first_below draw n k g1 r g' -> first_below draw n k g r g'.

Theorem C74_randbelow : forall G (draw : G -> res (Z * G)) I, source draw I -> forall n, 0 < n <= max64 ->
  exists k, 1 <= k <= 63 /\ 2^(k - 1) <= n < 2^k /\
  forall g, I g ->
    (forall fuel, may (randbelow draw fuel n g) (fun '(r, g') => 0 <= r < n /\ first_below draw n k g r g' /\ I g')) /\
    (forall r g', first_below draw n k g r g' -> exists fuel, forall more, randbelow draw (fuel + more) n g = Ok (r, g')).
Proof.
  intros G draw I D n Hn. destruct (bits_of n Hn) as (E & B & P). exists (Z.log2 n + 1). replace (Z.log2 n + 1 - 1) with (Z.log2 n) by lia. split; [exact B|]. split; [exact P|].
  intros g Hg. unfold randbelow. rewrite E. set (k := Z.log2 n + 1) in *. split.
  - intros fuel. revert g Hg. induction fuel as [|fuel IH]; intros g Hg; cbn [redraw]; [exact Logic.I|].
    destruct (bits_ok draw I D k g ltac:(lia) Hg) as (r & g1 & Er & Br & I1). rewrite Er. cbn [bind]. destruct (Z.leb_spec n r) as [L|L].
    + eapply may_conseq; [now apply IH|]. cbv beta. intros [r' g'] (R & F & I'). split; [exact R|]. split; [|exact I']. eapply fb_later; eassumption.
    + cbn. split; [lia|]. split; [now constructor|assumption].
  - clear Hg. induction 1 as [g r g' Er L|g r0 g1 r g' Er L _ [fuel IH]].
    + exists 1%nat. intros more. cbn [Nat.add redraw]. rewrite Er. cbn [bind]. now replace (n <=? r) with false by lia.
    + exists (S fuel). intros more. cbn [Nat.add redraw]. rewrite Er. cbn [bind]. replace (n <=? r0) with true by lia. apply IH.
Qed.

(** ** Ranges *)

(** [randrange(start, stop, step)] gives a value of the range and refuses an empty range, when the
    stop is not 0, the width fits in an [int] and the number of values in 53 bits.
    Missing (false, below): a stop of 0, wider ranges. *)
Theorem C74_randrange_partial : forall G (draw : G -> res (Z * G)) I, source draw I -> forall py fuel start stop step g, I g ->
  in64 start -> in64 stop -> in64 step -> stop <> 0 ->
  in64 (stop - start) -> in64 (stop - start + step) -> (step = 1 \/ Z.abs (stop - start) + Z.abs step <= 2^53 * Z.abs step) ->
  (step = 0 -> randrange draw py fuel start stop step g = Raise ValueError) /\
  (step <> 0 -> (exists v, in_range start stop step v) -> may (randrange draw py fuel start stop step g) (fun '(r, g') => in_range start stop step r /\ I g')) /\
  (step <> 0 -> empty_range start stop step -> randrange draw py fuel start stop step g = Raise ValueError).
Proof.
  intros G draw I D py fuel start stop step g Hg H1 H2 H3 Ns Hw Hws Hf. split; [|split].
  - intros ->. unfold randrange. replace (stop =? 0) with false by lia. reflexivity.
  - intros Nz (v & i & Hi & -> & A & B). pose proof (randrange_ok draw I D py fuel start stop step g H1 H2 H3 Hg Ns Hw Hws Hf Nz) as R.
    destruct (((0 <? step) && (start <? stop)) || ((step <? 0) && (stop <? start))) eqn:E; [exact R|exfalso].
    destruct (Z.lt_ge_cases 0 step) as [L|L]; [specialize (A L)|specialize (B ltac:(lia))]; assert (start < stop \/ stop < start) by nia; nia.
  - intros Nz Em. pose proof (randrange_ok draw I D py fuel start stop step g H1 H2 H3 Hg Ns Hw Hws Hf Nz) as R.
    destruct (((0 <? step) && (start <? stop)) || ((step <? 0) && (stop <? start))) eqn:E; [exfalso|exact R].
    apply (Em start). exists 0. split; [lia|]. split; [lia|]. lia.
Qed.

(** Without those conditions it is false. A range that ends at 0 is taken for [randrange(start)]:
    [randint(-5, -1)] always fails, and [randrange(5, 0)] gives a number from 0 to 4. *)
Theorem C74_randint_refuted : forall G (draw : G -> res (Z * G)) py fuel g, randint draw py fuel (-5) (-1) g = Raise ValueError /\ in_range (-5) 0 1 (-3).
Proof. intros. split; [reflexivity|]. exists 2. lia. Qed.
Theorem C74_randrange_empty_refuted : forall G (draw : G -> res (Z * G)) I, source draw I -> forall py fuel g, I g ->
  empty_range 5 0 1 /\ may (randrange draw py fuel 5 0 1 g) (fun '(r, _) => 0 <= r < 5).
Proof.
  intros G draw I D py fuel g Hg. split; [intros r (i & Hi & -> & A & _); specialize (A ltac:(lia)); lia|].
  change (may (randbelow draw fuel 5 g) (fun '(r, _) => 0 <= r < 5)). eapply may_conseq; [apply (below_ok draw I D); [unfold max64; lia|exact Hg]|]. cbv beta. now intros [r g'] [B _].
Qed.
(** A range wider than the largest [int] is refused. *)
Theorem C74_randrange_wide_refuted : forall G (draw : G -> res (Z * G)) py fuel g,
  randrange draw py fuel (- 2^62) (2^62) 1 g = Raise ValueError /\ in_range (- 2^62) (2^62) 1 0.
Proof. intros. split; [reflexivity|]. exists (2^62). lia. Qed.
(** The number of values is rounded to a float: with more than 2^53 of them the stop itself can be given. *)
Definition from_list (l : list Z) : res (Z * list Z) := match l with w :: l => Ok (w, l) | [] => NoFuel end.
Theorem C74_randrange_rounded_refuted : exists start stop step words,
  Forall word words /\ in64 start /\ in64 stop /\ in64 (stop - start + step) /\
  randrange from_list false 1 start stop step words = Ok (stop, []) /\ ~ in_range start stop step stop.
Proof.
  exists 1, (1 + 2 * (2^53 + 3)), 2, [3; 2^31]. split; [repeat constructor; unfold word; lia|]. unfold in64, min64, max64.
  split; [lia|]. split; [lia|]. split; [lia|]. split; [vm_compute; reflexivity|]. intros (i & Hi & E & A & _). specialize (A ltac:(lia)). lia.
Qed.

(** ** Sequences *)

Theorem C74_choice : forall G (draw : G -> res (Z * G)) I, source draw I -> forall A fuel (l : list A) g, I g -> zlen l <= max64 ->
  (l <> [] -> may (choice draw fuel l g) (fun '(x, g') => In x l /\ I g')) /\ (l = [] -> choice draw fuel l g = Raise IndexError).
Proof. intros G draw I D A fuel l g Hg L. split; [intros N0; now apply (choice_ok draw I D)|intros ->; reflexivity]. Qed.

(** A shuffle reorders the list, by exchanges at positions drawn below n, n - 1, ..., 2. *)
Theorem C74_shuffle : forall G (draw : G -> res (Z * G)) I, source draw I -> forall A fuel (x : list A) g, I g -> zlen x <= max64 ->
  may (shuffle draw fuel x g) (fun '(y, g') => Permutation y x /\ I g') /\
  shuffle draw fuel x g = ('(js, g') <- draw_below draw fuel (down (length x - 1)) g ;; y <- exchange js x ;; Ok (y, g')) /\
  may (draw_below draw fuel (down (length x - 1)) g) (fun '(js, _) => length js = (length x - 1)%nat /\ fitting js).
Proof.
  intros G draw I D A fuel x g Hg L. split; [now apply (shuffle_ok draw I D)|]. split.
  - unfold shuffle. destruct x as [|a x]; [reflexivity|]. unfold zlen in L. apply (shuffle_loop_draws draw I D); [cbn [length] in *; lia|cbn [length]; lia|assumption].
  - eapply may_conseq; [apply (draw_below_ok draw I D); [|exact Hg]|].
    + assert (Hd : forall i n, In n (down i) -> 0 < n <= Z.of_nat i + 1) by (induction i as [|i IH]; cbn [down]; [intros n []|intros n [<-|H]; [lia|apply IH in H; lia]]).
      intros n H. apply Hd in H. unfold zlen in L. destruct x; cbn [length] in *; [unfold max64; lia|lia].
    + cbv beta. intros [js g'] [F _]. now apply fits_down.
Qed.
(** Each order of distinct items comes from exactly one sequence of such positions. *)
Theorem C74_shuffle_orders : forall A (x y : list A), x <> [] -> Permutation x y ->
  (exists js, length js = (length x - 1)%nat /\ fitting js /\ exchange js x = Ok y) /\
  (NoDup x -> forall js js', length js = (length x - 1)%nat -> fitting js -> exchange js x = Ok y ->
     length js' = (length x - 1)%nat -> fitting js' -> exchange js' x = Ok y -> js = js').
Proof.
  intros A x y N0 P. assert (0 < length x)%nat by (destruct x; [contradiction|cbn; lia]). split.
  - apply exchange_surj; [assumption|lia|]. intros d k Hk. unfold zlen in Hk. lia.
  - intros Nd js js' L F E L' F' E'. apply (exchange_inj js js' x y); auto; lia.
Qed.

(** A sample is [k] items at different positions, with either of the two methods; asking for more
    items than there are, or fewer than 0, is refused. *)
Theorem C74_sample : forall G (draw : G -> res (Z * G)) I, source draw I -> forall A fuel small (pop : list A) k g, I g -> zlen pop <= max64 ->
  (0 <= k <= zlen pop -> may (sample draw fuel small pop k g) (fun '(r, g') => sample_of pop r k /\ I g')) /\
  (k < 0 \/ zlen pop < k -> sample draw fuel small pop k g = Raise ValueError).
Proof.
  intros G draw I D A fuel small pop k g Hg L. split.
  - intros Hk. destruct pop as [|d pop0].
    + assert (k = 0) as -> by (unfold zlen in Hk; cbn in Hk; lia). destruct small; cbn; (split; [|assumption]); (split; [reflexivity|]); exists []; reflexivity.
    + now apply (sample_ok draw I D d).
  - intros Hk. unfold sample. cbv zeta. now replace ((0 <=? k) && (k <=? zlen pop)) with false by lia.
Qed.

(** [choices] without weights gives [k] items of a population of up to 2^53. *)
Theorem C74_choices : forall G (draw : G -> res (Z * G)) I, source draw I -> forall A (pop : list A) k g, I g -> pop <> [] -> zlen pop <= 2^53 ->
  exists l g', choices draw pop k g = Ok (l, g') /\ length l = k /\ (forall x, In x l -> In x pop) /\ I g'.
Proof. intros G draw I D A pop k g Hg N0 L. destruct pop as [|d pop0]; [contradiction|]. now apply (choices_ok draw I D d). Qed.

(** ** Examples *)

(** The first words of the reference implementation with [init_genrand(5489)]. *)
Example C74_twister_example :
  (g <- init_u32 (repeat 0 624) 5489 ;; '(l, _) <- draw_n 3 g ;; Ok l) = Ok [3499211612; 581869302; 3890346734].
Proof. vm_compute. reflexivity. Qed.
(** After seeding with 1, as in CPython: [getrandbits(32)] twice, drawn through a refill. *)
Example C74_seed_example :
  (g <- seed {| index := 0; state := repeat 0 624 |} 1 ;; '(l, _) <- draw_n 2 g ;; Ok l) = Ok [577090037; 2444712010].
Proof. vm_compute. reflexivity. Qed.
Example C74_settled_example : settled {| index := 624; state := repeat 1 624 |}.
Proof. split; [reflexivity|]. split; [|cbn; lia]. apply Forall_forall. intros x H. apply repeat_spec in H. subst. unfold word. lia. Qed.
Example C74_consumers_example :
  let words := [4294967295; 2147483648; 0; 1073741824] in
  randbelow from_list 3 5 words = Ok (4, [0; 1073741824]) /\
  randrange from_list false 3 10 20 3 words = Ok (10, [1073741824]) /\
  randrange from_list false 3 20 10 (-3) words = Ok (20, [1073741824]) /\
  shuffle from_list 3 [1; 2; 3] words = Ok ([2; 1; 3], [1073741824]) /\
  sample from_list 3 true [1; 2; 3; 4] 2 words = Ok ([1; 2], []) /\
  sample from_list 3 false [1; 2; 3; 4] 2 words = Ok ([1; 3], []) /\
  choices from_list [1; 2; 3; 4] 2 words = Ok ([4; 1], []).
Proof. vm_compute. repeat split; reflexivity. Qed.
Example C74_shuffle_example : exchange [0; 1] [1; 2; 3] = Ok [3; 2; 1] /\ fitting [0; 1].
Proof. split; [reflexivity|]. cbn. lia. Qed.

Print Assumptions C74_twister.
Print Assumptions C74_seed.
Print Assumptions C74_generator_is_source.
Print Assumptions C74_getrandbits.
Print Assumptions C74_random.
Print Assumptions C74_randbelow.
Print Assumptions C74_randrange_partial.
Print Assumptions C74_randint_refuted.
Print Assumptions C74_randrange_empty_refuted.
Print Assumptions C74_randrange_wide_refuted.
Print Assumptions C74_randrange_rounded_refuted.
Print Assumptions C74_choice.
Print Assumptions C74_shuffle.
Print Assumptions C74_shuffle_orders.
Print Assumptions C74_sample.
Print Assumptions C74_choices.
