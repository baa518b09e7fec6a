(** Dates: day numbers, fields and calendar arithmetic. *)
From Coq Require Import List ZArith Lia Bool.
From Verif.Common Require Import Result Int64 Tac.
From Verif.Datetime Require Import Model.
From Verif.Datetime Require Spec.
Import ListNotations.
Local Open Scope Z_scope.
Local Open Scope res_scope.

Ltac Zify.zify_post_hook ::= Z.to_euclidean_division_equations.

(** Remove the wrapping of an expression known to fit. *)
Ltac nw := unfold add, sub, mul;
  repeat match goal with
  | |- context [w64 ?x] =>
      lazymatch x with context [w64 _] => fail | _ => rewrite (w64_id x) by (unfold in64, min64, max64; lia) end
  end.

(** ** Leap years and month tables *)
Lemma leap_eq y : 0 <= y -> is_leap y = Spec.leap y.
Proof.
  intros Hy. unfold is_leap, Spec.leap. rewrite !Z.rem_mod_nonneg by lia.
  destruct (y mod 4 =? 0) eqn:A, (y mod 100 =? 0) eqn:B, (y mod 400 =? 0) eqn:C; cbn; auto; lia.
Qed.

Definition lenm (lp : bool) (m : Z) : Z :=
  if m =? 2 then (if lp then 29 else 28)
  else if (m =? 4) || (m =? 6) || (m =? 9) || (m =? 11) then 30 else 31.
Lemma month_length_eq y m : Spec.month_length y m = lenm (Spec.leap y) m.
Proof. reflexivity. Qed.
Lemma lenm_bounds lp m : 28 <= lenm lp m <= 31.
Proof.
  unfold lenm. destruct (m =? 2); [destruct lp; lia|].
  destruct ((m =? 4) || (m =? 6) || (m =? 9) || (m =? 11)); lia.
Qed.

(** Days of the year before month [m]. *)
Definition cum (lp : bool) (m : Z) : Z :=
  nth (Z.to_nat m) [0; 0; 31; 59; 90; 120; 151; 181; 212; 243; 273; 304; 334] 0
  + (if (2 <? m) && lp then 1 else 0).

Lemma month_cases m : 1 <= m <= 12 ->
  m = 1 \/ m = 2 \/ m = 3 \/ m = 4 \/ m = 5 \/ m = 6 \/ m = 7 \/ m = 8 \/ m = 9 \/ m = 10 \/ m = 11 \/ m = 12.
Proof. lia. Qed.
Ltac months H :=
  apply month_cases in H;
  destruct H as [->| [->| [->| [->| [->| [->| [->| [->| [->| [->| [->| ->]]]]]]]]]]].

Lemma cum_step lp m : 1 <= m <= 11 -> cum lp (m + 1) = cum lp m + lenm lp m.
Proof.
  intros H. assert (H' : 1 <= m <= 12) by lia. months H'; destruct lp; try reflexivity; lia.
Qed.
Lemma cum_bounds lp m : 1 <= m <= 12 -> 0 <= cum lp m <= 335.
Proof. intros H. months H; destruct lp; vm_compute; split; discriminate. Qed.
Lemma cum_end lp m : 1 <= m <= 12 -> cum lp m + lenm lp m <= 365 + Z.b2z lp.
Proof. intros H. months H; destruct lp; vm_compute; discriminate. Qed.
Lemma cum_mono lp a b : 1 <= a -> a < b -> b <= 12 -> cum lp a + lenm lp a <= cum lp b.
Proof.
  intros Ha Hab Hb.
  assert (H : 1 <= a <= 12) by lia. assert (H' : 1 <= b <= 12) by lia.
  months H; months H'; try lia; destruct lp; vm_compute; discriminate.
Qed.

Lemma days_in_month_ok y m : 0 <= y -> 1 <= m <= 12 -> days_in_month y m = Ok (Spec.month_length y m).
Proof.
  intros Hy Hm. unfold days_in_month. rewrite leap_eq by lia. rewrite month_length_eq.
  destruct (Spec.leap y); months Hm; reflexivity.
Qed.
Lemma days_before_month_ok y m : 0 <= y -> 1 <= m <= 12 ->
  days_before_month y m = Ok (cum (Spec.leap y) m).
Proof.
  intros Hy Hm. unfold days_before_month. rewrite leap_eq by lia.
  destruct (Spec.leap y); months Hm; reflexivity.
Qed.

(** ** The day number of a date *)
Definition dby (y : Z) : Z := 365 * (y - 1) + (y - 1) / 4 - (y - 1) / 100 + (y - 1) / 400.
Definition ordz (x : Spec.ymd) : Z :=
  dby (Spec.year x) + cum (Spec.leap (Spec.year x)) (Spec.month x) + Spec.day x.
(** A date of any positive year. *)
Definition wfd (x : Spec.ymd) : Prop :=
  1 <= Spec.year x /\ 1 <= Spec.month x <= 12
  /\ 1 <= Spec.day x <= Spec.month_length (Spec.year x) (Spec.month x).

Lemma valid_wfd x : Spec.valid x <-> wfd x /\ Spec.year x <= 9999.
Proof. unfold Spec.valid, wfd. intuition lia. Qed.

Lemma dby_step y : dby (y + 1) = dby y + 365 + Z.b2z (Spec.leap y).
Proof.
  unfold dby, Spec.leap.
  destruct (y mod 4 =? 0) eqn:A, (y mod 100 =? 0) eqn:B, (y mod 400 =? 0) eqn:C; cbn [andb orb negb Z.b2z]; lia.
Qed.
Lemma dby_mono a b : a <= b -> dby a + 365 * (b - a) <= dby b.
Proof.
  intros H. replace b with (a + Z.of_nat (Z.to_nat (b - a))) by lia.
  induction (Z.to_nat (b - a)) as [|k IH]; [replace (a + Z.of_nat 0) with a by lia; lia|].
  rewrite Nat2Z.inj_succ. replace (a + Z.succ (Z.of_nat k)) with (a + Z.of_nat k + 1) by lia.
  rewrite dby_step. destruct (Spec.leap _); cbn [Z.b2z]; lia.
Qed.
Lemma dby_1 : dby 1 = 0.
Proof. reflexivity. Qed.

Definition big : Z := 10 ^ 17.
Lemma days_before_year_ok y : 1 <= y <= 10 ^ 16 -> days_before_year y = dby y.
Proof.
  intros H. unfold days_before_year, dby. nw.
  rewrite !Z.quot_div_nonneg by lia. lia.
Qed.

Lemma dby_big y : 1 <= y <= 10 ^ 15 -> 0 <= dby y <= 4 * 10 ^ 17.
Proof. unfold dby. intros H. lia. Qed.

Lemma ymd_to_ord_ok y m d : 1 <= y <= 10 ^ 15 -> 1 <= m <= 12 -> - 10 ^ 15 <= d <= 10 ^ 15 ->
  ymd_to_ord y m d = Ok (ordz (Spec.YMD y m d)).
Proof.
  intros Hy Hm Hd. unfold ymd_to_ord. rewrite days_before_month_ok by lia. cbn [bind].
  rewrite days_before_year_ok by lia. unfold ordz; cbn [Spec.year Spec.month Spec.day].
  pose proof (dby_big y Hy). pose proof (cum_bounds (Spec.leap y) m Hm). nw. reflexivity.
Qed.

(** ** Counting days *)
Lemma next_wfd x : wfd x -> wfd (Spec.next_day x).
Proof.
  destruct x as [y m d]. unfold wfd; cbn [Spec.next_day Spec.year Spec.month Spec.day].
  intros (Hy & Hm & Hd).
  destruct (d <? _) eqn:E; cbn [Spec.year Spec.month Spec.day].
  - lia.
  - pose proof (lenm_bounds (Spec.leap y) (m + 1)).
    pose proof (lenm_bounds (Spec.leap (y + 1)) 1).
    destruct (m <? 12) eqn:F; cbn [Spec.year Spec.month Spec.day]; rewrite month_length_eq; lia.
Qed.
Lemma next_ordz x : wfd x -> ordz (Spec.next_day x) = ordz x + 1.
Proof.
  destruct x as [y m d]. unfold wfd, ordz; cbn [Spec.next_day Spec.year Spec.month Spec.day].
  rewrite month_length_eq. intros (Hy & Hm & Hd).
  destruct (d <? _) eqn:E; cbn [Spec.year Spec.month Spec.day]; [lia|].
  destruct (m <? 12) eqn:F; cbn [Spec.year Spec.month Spec.day].
  - rewrite cum_step by lia. lia.
  - assert (m = 12) as -> by lia. rewrite dby_step.
    assert (d = 31) as -> by (unfold lenm in *; cbn in *; lia).
    assert (C12 : forall lp, cum lp 12 = 334 + Z.b2z lp) by (intros [|]; reflexivity).
    assert (C1 : forall lp, cum lp 1 = 0) by (intros [|]; reflexivity).
    rewrite C12, C1. lia.
Qed.

Lemma nth_day_ordz n x : Spec.nth_day n x -> wfd x /\ ordz x = n.
Proof.
  induction 1 as [|n x H [IH1 IH2]].
  - split; [|reflexivity]. unfold wfd; cbn. lia.
  - split; [now apply next_wfd|]. rewrite next_ordz by auto. lia.
Qed.
Lemma nth_day_pos n x : Spec.nth_day n x -> 1 <= n.
Proof. induction 1; lia. Qed.
Lemma nth_day_ex n : 1 <= n -> exists x, Spec.nth_day n x.
Proof.
  intros H. replace n with (1 + Z.of_nat (Z.to_nat (n - 1))) by lia.
  induction (Z.to_nat (n - 1)) as [|k [x IH]].
  - exists Spec.first. constructor.
  - exists (Spec.next_day x). rewrite Nat2Z.inj_succ.
    replace (1 + Z.succ (Z.of_nat k)) with (1 + Z.of_nat k + 1) by lia. now constructor.
Qed.

(** The order of day numbers is the order of dates. *)
Lemma earlier_ordz a b : wfd a -> wfd b -> Spec.earlier a b -> ordz a < ordz b.
Proof.
  destruct a as [y m d], b as [y' m' d']. unfold wfd, ordz, Spec.earlier; cbn [Spec.year Spec.month Spec.day].
  rewrite !month_length_eq. intros (Hy & Hm & Hd) (Hy' & Hm' & Hd') H.
  pose proof (cum_end (Spec.leap y) m Hm). pose proof (cum_bounds (Spec.leap y') m' Hm').
  destruct H as [H|[-> [H|[-> H]]]].
  - assert (dby y + 365 + Z.b2z (Spec.leap y) <= dby y').
    { rewrite <- dby_step. pose proof (dby_mono (y + 1) y'). lia. }
    lia.
  - pose proof (cum_mono (Spec.leap y') m m'). lia.
  - lia.
Qed.
Lemma earlier_total a b : a = b \/ Spec.earlier a b \/ Spec.earlier b a.
Proof.
  destruct a as [y m d], b as [y' m' d']. unfold Spec.earlier; cbn.
  destruct (Z.lt_trichotomy y y') as [|[->|]]; auto.
  destruct (Z.lt_trichotomy m m') as [|[->|]]; auto 6.
  destruct (Z.lt_trichotomy d d') as [|[->|]]; auto 8.
Qed.
Lemma ordz_inj a b : wfd a -> wfd b -> ordz a = ordz b -> a = b.
Proof.
  intros Ha Hb H. destruct (earlier_total a b) as [E|[E|E]]; auto.
  - pose proof (earlier_ordz a b Ha Hb E). lia.
  - pose proof (earlier_ordz b a Hb Ha E). lia.
Qed.
Lemma earlier_iff a b : wfd a -> wfd b -> (Spec.earlier a b <-> ordz a < ordz b).
Proof.
  intros Ha Hb. split; [now apply earlier_ordz|]. intros H.
  destruct (earlier_total a b) as [->|[E|E]]; auto; [lia|].
  pose proof (earlier_ordz b a Hb Ha E). lia.
Qed.
Lemma wfd_pos x : wfd x -> 1 <= ordz x.
Proof.
  destruct x as [y m d]. unfold wfd, ordz; cbn [Spec.year Spec.month Spec.day]. intros (Hy & Hm & Hd).
  pose proof (dby_mono 1 y). rewrite dby_1 in *. pose proof (cum_bounds (Spec.leap y) m Hm). lia.
Qed.
Lemma nth_day_iff n x : Spec.nth_day n x <-> wfd x /\ ordz x = n.
Proof.
  split; [apply nth_day_ordz|]. intros [Hw <-].
  destruct (nth_day_ex (ordz x) (wfd_pos x Hw)) as [x' H].
  destruct (nth_day_ordz _ _ H) as [Hw' E].
  assert (x = x') as -> by (apply ordz_inj; auto; congruence). exact H.
Qed.

Lemma ordz_max x : wfd x -> (Spec.year x <= 9999 <-> ordz x <= MAXORDINAL).
Proof.
  intros H. assert (L : wfd (Spec.YMD 9999 12 31)) by (unfold wfd; cbn; lia).
  change MAXORDINAL with (ordz (Spec.YMD 9999 12 31)).
  split; intros E.
  - destruct (Z_le_gt_dec (ordz x) (ordz (Spec.YMD 9999 12 31))) as [|G]; auto.
    apply Z.gt_lt, (earlier_iff _ _ L H) in G.
    destruct x as [y m d]; unfold wfd, Spec.earlier in *; cbn [Spec.year Spec.month Spec.day] in *.
    rewrite month_length_eq in H. pose proof (lenm_bounds (Spec.leap y) m). lia.
  - destruct (Z_le_gt_dec (Spec.year x) 9999) as [|G]; auto.
    assert (Spec.earlier (Spec.YMD 9999 12 31) x) by (left; cbn; lia).
    apply (earlier_iff _ _ L H) in H0. lia.
Qed.

(** ** From a day number to a date *)

(** The month and day of day [r] (from 0) of a year, as [_ord_to_ymd] finds them. *)
Definition month_ofb (leapyear : bool) (n : Z) : res (Z * Z) :=
  let month := Z.shiftr (add n 50) 5 in
  before <- days_before_monthx month ;;
  let preceding := add before (if (2 <? month) && leapyear then 1 else 0) in
  ' (month, preceding) <-
    (if n <? preceding then
       let month := sub month 1 in
       dim <- (if (month =? 2) && leapyear then Ok 29 else days_in_monthx month) ;;
       Ok (month, sub preceding dim)
     else Ok (month, preceding)) ;;
  let n := sub n preceding in
  Ok (month, add n 1).
Lemma month_of_b y lp n : is_leap y = lp -> month_of y lp n = month_ofb lp n.
Proof. intros <-. reflexivity. Qed.

Definition ok_day (lp : bool) (r : Z) : bool :=
  match month_ofb lp r with
  | Ok (m, d) => (1 <=? m) && (m <=? 12) && (1 <=? d) && (d <=? lenm lp m) && (cum lp m + d =? r + 1)
  | _ => false
  end.
Lemma all_days lp : forallb (ok_day lp) (map Z.of_nat (seq 0 365)) = true.
Proof. destruct lp; vm_compute; reflexivity. Qed.
Lemma month_of_ok y lp r : is_leap y = lp -> 0 <= r < 365 ->
  exists m d, month_of y lp r = Ok (m, d) /\ 1 <= m <= 12 /\ 1 <= d <= lenm lp m /\ cum lp m + d = r + 1.
Proof.
  intros L H. rewrite (month_of_b y lp r L). pose proof (all_days lp) as A. rewrite forallb_forall in A.
  specialize (A r). unfold ok_day in A.
  assert (I : In r (map Z.of_nat (seq 0 365))).
  { apply in_map_iff. exists (Z.to_nat r). split; [lia|]. apply in_seq. lia. }
  apply A in I. destruct (month_ofb lp r) as [[m d]| | |]; try discriminate.
  exists m, d. rewrite !andb_true_iff in I. destruct I as ((((I1 & I2) & I3) & I4) & I5).
  split; auto. lia.
Qed.

(** Day numbers before day 1: no valid date. *)
Definition bad_day (r : Z) : bool :=
  match month_ofb false r with Ok (m, d) => (m <? 1) || ((r =? 0) && (m =? 1)) | _ => false end.
Lemma all_bad : forallb bad_day (map (fun k => - Z.of_nat k) (seq 0 365)) = true.
Proof. vm_compute. reflexivity. Qed.
Lemma month_of_bad y r : -365 < r <= 0 ->
  exists m d, month_of y false r = Ok (m, d) /\ (m < 1 \/ r = 0).
Proof.
  intros H. pose proof all_bad as A. rewrite forallb_forall in A.
  specialize (A r). unfold bad_day in A.
  assert (I : In r (map (fun k => - Z.of_nat k) (seq 0 365))).
  { apply in_map_iff. exists (Z.to_nat (- r)). split; [lia|]. apply in_seq. lia. }
  apply A in I.
  assert (E : month_of y false r = month_ofb false r).
  { unfold month_of, month_ofb. destruct (days_before_monthx _) as [b| | |] eqn:B; auto. cbn [bind].
    rewrite !andb_false_r. destruct (r <? add b 0); auto. unfold days_in_month.
    replace (sub (Z.shiftr (add r 50) 5) 1 =? 2) with false; [reflexivity|].
    symmetry. apply Z.eqb_neq. rewrite Z.shiftr_div_pow2 by lia. nw. lia. }
  rewrite E. destruct (month_ofb false r) as [[m d]| | |]; try discriminate.
  exists m, d. split; auto. lia.
Qed.

Lemma ord_to_ymd_ok n : 1 <= n <= max64 ->
  exists x, ord_to_ymd n = Ok (Spec.year x, Spec.month x, Spec.day x) /\ wfd x /\ ordz x = n.
Proof.
  intros H. unfold ord_to_ymd. cbv zeta.
  assert (E : sub n 1 = n - 1) by (unfold max64 in H; nw; reflexivity). rewrite E. clear E.
  remember (n - 1) as o eqn:Eo. assert (Ho : 0 <= o < 2 ^ 63) by (unfold max64 in H; lia).
  unfold DI400Y, DI100Y, DI4Y.
  remember (Z.quot o 146097) as a eqn:Ea. remember (Z.rem o 146097) as o1 eqn:Eo1.
  assert (A : o = 146097 * a + o1 /\ 0 <= o1 < 146097 /\ 0 <= a) by lia. clear Ea Eo1.
  remember (Z.quot o1 36524) as b eqn:Eb. remember (Z.rem o1 36524) as o2 eqn:Eo2.
  assert (B : o1 = 36524 * b + o2 /\ 0 <= o2 < 36524 /\ 0 <= b) by lia. clear Eb Eo2.
  remember (Z.quot o2 1461) as c eqn:Ec. remember (Z.rem o2 1461) as o3 eqn:Eo3.
  assert (C : o2 = 1461 * c + o3 /\ 0 <= o3 < 1461 /\ 0 <= c) by lia. clear Ec Eo3.
  remember (Z.quot o3 365) as e eqn:Ee. remember (Z.rem o3 365) as r eqn:Er.
  assert (D : o3 = 365 * e + r /\ 0 <= r < 365 /\ 0 <= e) by lia. clear Ee Er.
  assert (Y : add (add (mul a 400) 1) (add (add (mul b 100) (mul c 4)) e) = 400 * a + 100 * b + 4 * c + e + 1)
    by (nw; lia).
  rewrite Y. clear Y.
  destruct ((e =? 4) || (b =? 4)) eqn:S.
  - exists (Spec.YMD (400 * a + 100 * b + 4 * c + e) 12 31).
    cbn [Spec.year Spec.month Spec.day].
    split; [unfold sub; rewrite w64_id by (unfold in64, min64, max64; lia); do 3 f_equal; lia|].
    split; [unfold wfd; cbn [Spec.year Spec.month Spec.day]; rewrite month_length_eq;
            change (lenm (Spec.leap (400 * a + 100 * b + 4 * c + e)) 12) with 31; lia|].
    unfold ordz; cbn [Spec.year Spec.month Spec.day]. unfold cum, dby, Spec.leap.
    change (nth (Z.to_nat 12) [0; 0; 31; 59; 90; 120; 151; 181; 212; 243; 273; 304; 334] 0) with 334.
    change (2 <? 12) with true. cbn [andb].
    destruct (b =? 4) eqn:B4.
    + assert (c = 0 /\ e = 0 /\ r = 0 /\ b = 4) as (-> & -> & -> & ->) by lia.
      replace (400 * a + 100 * 4 + 4 * 0 + 0) with (400 * (a + 1)) by lia.
      replace ((400 * (a + 1)) mod 4 =? 0) with true by lia.
      replace ((400 * (a + 1)) mod 400 =? 0) with true by lia. rewrite orb_true_r. lia.
    + assert (e = 4 /\ r = 0) as (-> & ->) by lia.
      assert (c <= 24 /\ (c < 24 \/ b = 3)) by lia.
      replace ((400 * a + 100 * b + 4 * c + 4) mod 4 =? 0) with true by lia. cbn [andb].
      replace ((negb ((400 * a + 100 * b + 4 * c + 4) mod 100 =? 0) || ((400 * a + 100 * b + 4 * c + 4) mod 400 =? 0))) with true
        by (symmetry; apply orb_true_iff; rewrite negb_true_iff; lia).
      lia.
  - assert (L : is_leap (400 * a + 100 * b + 4 * c + e + 1) = (e =? 3) && (negb (c =? 24) || (b =? 3))).
    { rewrite leap_eq by lia. unfold Spec.leap.
      assert (0 <= e <= 3 /\ 0 <= b <= 3 /\ 0 <= c <= 24) by lia.
      apply eq_true_iff_eq. rewrite orb_true_iff, !andb_true_iff, orb_true_iff, !negb_true_iff.
      rewrite !Z.eqb_eq, !Z.eqb_neq. clear - H0. lia. }
    destruct (month_of_ok _ _ r L ltac:(lia)) as (m & d & M & Hm & Hd & Hr).
    rewrite M. cbn [bind].
    exists (Spec.YMD (400 * a + 100 * b + 4 * c + e + 1) m d).
    rewrite leap_eq in L by lia. unfold wfd, ordz; cbn [Spec.year Spec.month Spec.day].
    rewrite month_length_eq, L. split; [reflexivity|]. split; [lia|].
    rewrite <- Z.add_assoc, Hr. unfold dby. clear - A B C D S Eo. lia.
Qed.

(** ** Building dates *)
Lemma check_date_ok y m d : 1 <= y <= 9999 -> 1 <= m <= 12 -> 1 <= d <= Spec.month_length y m ->
  check_date_args y m d = Ok tt.
Proof.
  intros Hy Hm Hd. unfold check_date_args, MINYEAR, MAXYEAR.
  replace ((1 <=? y) && (y <=? 9999)) with true by lia.
  replace ((1 <=? m) && (m <=? 12)) with true by lia. cbn [negb].
  rewrite days_in_month_ok by lia. cbn [bind].
  replace ((1 <=? d) && (d <=? Spec.month_length y m)) with true by lia. reflexivity.
Qed.
Lemma check_date_raises y m d : ~ Spec.valid (Spec.YMD y m d) -> check_date_args y m d = Raise ValueError.
Proof.
  unfold Spec.valid; cbn [Spec.year Spec.month Spec.day]. intros H.
  unfold check_date_args, MINYEAR, MAXYEAR.
  destruct ((1 <=? y) && (y <=? 9999)) eqn:A; [|reflexivity].
  destruct ((1 <=? m) && (m <=? 12)) eqn:B; [|reflexivity]. cbn [negb].
  rewrite days_in_month_ok by lia. cbn [bind].
  destruct ((1 <=? d) && (d <=? Spec.month_length y m)) eqn:C; [lia|]. reflexivity.
Qed.

(** Packing by or is addition. *)
Lemma lor_add a b k : 0 <= b < 2 ^ k -> 0 <= k -> Z.lor (Z.shiftl a k) b = a * 2 ^ k + b.
Proof.
  intros Hb Hk. rewrite Z.shiftl_mul_pow2 by lia.
  assert (L : Z.land (a * 2 ^ k) b = 0).
  { apply Z.bits_inj'; intros i Hi. rewrite Z.land_spec, Z.bits_0.
    destruct (Z_lt_le_dec i k).
    - rewrite Z.mul_pow2_bits_low by lia. reflexivity.
    - apply andb_false_iff. right. apply Z.testbit_false; [lia|].
      rewrite (Z.div_small b (2 ^ i)); [reflexivity|]. split; [lia|].
      eapply Z.lt_le_trans; [apply Hb|]. apply Z.pow_le_mono_r; lia. }
  rewrite <- Z.lxor_lor by auto. rewrite <- Z.add_nocarry_lxor by auto. reflexivity.
Qed.

Definition fields (x : date) : Spec.ymd := Spec.YMD (d_year x) (d_month x) (d_day x).
(** A date object: the constructor is the only way to make one. *)
Definition is_date (x : date) : Prop := exists y m d, date_new y m d = Ok x.

Definition pack (y m d : Z) : Z := y * 65536 + m * 256 + d.
Lemma pack_eq y m d : 0 <= y < 65536 -> 0 <= m < 256 -> 0 <= d < 256 ->
  Z.lor (Z.lor (w64 (Z.shiftl y 16)) (w64 (Z.shiftl m 8))) d mod 2 ^ 32 = pack y m d.
Proof.
  intros Hy Hm Hd.
  rewrite !w64_id by (rewrite Z.shiftl_mul_pow2 by lia; unfold in64, min64, max64; lia).
  rewrite lor_add; [|rewrite Z.shiftl_mul_pow2 by lia; lia|lia].
  rewrite Z.shiftl_mul_pow2 by lia.
  replace (y * 2 ^ 16 + m * 2 ^ 8) with (Z.shiftl (y * 256 + m) 8) by (rewrite Z.shiftl_mul_pow2 by lia; lia).
  rewrite lor_add by lia. rewrite Z.mod_small by lia. unfold pack. lia.
Qed.
Lemma land_255 v : Z.land v 255 = v mod 256.
Proof. change 255 with (Z.ones 8). rewrite Z.land_ones by lia. reflexivity. Qed.
Lemma pack_fields y m d : 0 <= y < 65536 -> 0 <= m < 256 -> 0 <= d < 256 ->
  fields (Date (pack y m d)) = Spec.YMD y m d.
Proof.
  intros. unfold fields, d_year, d_month, d_day, pack; cbn [d_value].
  rewrite !land_255, !Z.shiftr_div_pow2 by lia. f_equal; lia.
Qed.

Lemma date_new_ok y m d : Spec.valid (Spec.YMD y m d) -> date_new y m d = Ok (Date (pack y m d)).
Proof.
  intros (Hy & Hm & Hd); cbn [Spec.year Spec.month Spec.day] in *.
  unfold date_new. rewrite check_date_ok by lia. cbn [bind].
  rewrite month_length_eq in Hd. pose proof (lenm_bounds (Spec.leap y) m).
  rewrite pack_eq by lia. reflexivity.
Qed.
Lemma date_new_raises y m d : ~ Spec.valid (Spec.YMD y m d) -> date_new y m d = Raise ValueError.
Proof. intros H. unfold date_new. now rewrite check_date_raises. Qed.
Lemma valid_dec x : {Spec.valid x} + {~ Spec.valid x}.
Proof.
  unfold Spec.valid.
  destruct (Z_le_dec 1 (Spec.year x)), (Z_le_dec (Spec.year x) 9999),
    (Z_le_dec 1 (Spec.month x)), (Z_le_dec (Spec.month x) 12),
    (Z_le_dec 1 (Spec.day x)), (Z_le_dec (Spec.day x) (Spec.month_length (Spec.year x) (Spec.month x)));
    (left; lia) || (right; lia).
Qed.
Lemma date_new_fields y m d x : date_new y m d = Ok x ->
  Spec.valid (Spec.YMD y m d) /\ x = Date (pack y m d) /\ fields x = Spec.YMD y m d.
Proof.
  intros H. destruct (valid_dec (Spec.YMD y m d)) as [V|V].
  - rewrite (date_new_ok _ _ _ V) in H. injection H as <-. split; auto. split; auto.
    destruct V as (Hy & Hm & Hd); cbn [Spec.year Spec.month Spec.day] in *.
    rewrite month_length_eq in Hd. pose proof (lenm_bounds (Spec.leap y) m). apply pack_fields; lia.
  - now rewrite (date_new_raises _ _ _ V) in H.
Qed.
Lemma is_date_valid x : is_date x -> Spec.valid (fields x).
Proof. intros (y & m & d & H). apply date_new_fields in H. destruct H as (V & _ & ->). exact V. Qed.
Lemma is_date_pack x : is_date x -> d_value x = pack (d_year x) (d_month x) (d_day x).
Proof.
  intros (y & m & d & H). apply date_new_fields in H. destruct H as (V & -> & F).
  injection F as -> -> ->. reflexivity.
Qed.
Lemma date_ext x y : is_date x -> is_date y -> fields x = fields y -> x = y.
Proof.
  intros Hx Hy E. apply is_date_pack in Hx, Hy. injection E as E1 E2 E3.
  destruct x as [v], y as [v']. cbn [d_value] in *. f_equal. congruence.
Qed.
Lemma valid_is_date y m d : Spec.valid (Spec.YMD y m d) ->
  exists x, date_new y m d = Ok x /\ is_date x /\ fields x = Spec.YMD y m d.
Proof.
  intros V. exists (Date (pack y m d)). pose proof (date_new_ok _ _ _ V) as E.
  split; auto. split; [now exists y, m, d|]. now apply date_new_fields in E.
Qed.

(** ** Ordinals *)
Definition ord (x : date) : Z := ordz (fields x).
Lemma is_date_wfd x : is_date x -> wfd (fields x).
Proof. intros H. apply is_date_valid, valid_wfd in H. tauto. Qed.
Lemma ord_bounds x : is_date x -> 1 <= ord x <= MAXORDINAL.
Proof.
  intros H. pose proof (is_date_valid x H) as V. apply valid_wfd in V. destruct V as [W Y].
  split; [now apply wfd_pos|]. now apply ordz_max.
Qed.
Lemma ord_nth x n : is_date x -> (Spec.nth_day n (fields x) <-> ord x = n).
Proof. intros H. rewrite nth_day_iff. pose proof (is_date_wfd x H). unfold ord. tauto. Qed.
Lemma ord_inj x y : is_date x -> is_date y -> ord x = ord y -> x = y.
Proof.
  intros Hx Hy E. apply date_ext; auto. apply ordz_inj; auto using is_date_wfd.
Qed.

Lemma toordinal_ok x : is_date x -> date_toordinal x = Ok (ord x).
Proof.
  intros H. apply is_date_valid in H. destruct H as (Hy & Hm & Hd). unfold fields in *.
  cbn [Spec.year Spec.month Spec.day] in *. unfold date_toordinal.
  rewrite month_length_eq in Hd. pose proof (lenm_bounds (Spec.leap (d_year x)) (d_month x)).
  apply ymd_to_ord_ok; lia.
Qed.

Lemma date_of_wfd x : wfd x ->
  if Spec.year x <=? 9999 then exists r, date_of (Spec.year x, Spec.month x, Spec.day x) = Ok r /\ is_date r /\ fields r = x
  else date_of (Spec.year x, Spec.month x, Spec.day x) = Raise ValueError.
Proof.
  intros W. destruct x as [y m d]; cbn [Spec.year Spec.month Spec.day date_of] in *.
  destruct (y <=? 9999) eqn:E.
  - apply valid_is_date. apply valid_wfd. cbn. split; auto. lia.
  - apply date_new_raises. intros V. apply valid_wfd in V. cbn in V. lia.
Qed.

Lemma date_of_ord n : 1 <= n <= max64 ->
  if n <=? MAXORDINAL then exists r, (t <- ord_to_ymd n ;; date_of t) = Ok r /\ is_date r /\ ord r = n
  else (t <- ord_to_ymd n ;; date_of t) = Raise ValueError.
Proof.
  intros H. destruct (ord_to_ymd_ok n H) as (x & E & W & O). rewrite E. cbn [bind].
  pose proof (date_of_wfd x W) as D. pose proof (ordz_max x W) as M. rewrite O in M.
  destruct (n <=? MAXORDINAL) eqn:C.
  - replace (Spec.year x <=? 9999) with true in D by lia. destruct D as (r & D1 & D2 & D3).
    exists r. split; auto. split; auto. unfold ord. congruence.
  - replace (Spec.year x <=? 9999) with false in D by lia. exact D.
Qed.

Lemma fromordinal_in n : 1 <= n <= MAXORDINAL ->
  exists r, date_fromordinal n = Ok r /\ is_date r /\ ord r = n.
Proof.
  intros H. unfold MAXORDINAL in H. pose proof (date_of_ord n) as D. unfold max64 in D.
  replace (n <=? MAXORDINAL) with true in D by (unfold MAXORDINAL; lia). apply D. lia.
Qed.
Lemma fromordinal_out n : in64 n -> ~ 1 <= n <= MAXORDINAL -> date_fromordinal n = Raise ValueError.
Proof.
  unfold in64, min64, max64. intros R H.
  destruct (Z_lt_le_dec n 1) as [L|L].
  2: { pose proof (date_of_ord n) as D. unfold max64 in D.
       replace (n <=? MAXORDINAL) with false in D by lia. apply D. lia. }
  unfold date_fromordinal. unfold ord_to_ymd. cbv zeta.
  destruct (Z.eq_dec n (- 2 ^ 63)) as [->|NM].
  { vm_compute. reflexivity. }
  assert (E : sub n 1 = n - 1) by (nw; reflexivity). rewrite E. clear E.
  remember (n - 1) as o eqn:Eo. assert (Ho : - 2 ^ 63 <= o < 0) by lia.
  unfold DI400Y, DI100Y, DI4Y.
  remember (Z.quot o 146097) as a eqn:Ea. remember (Z.rem o 146097) as o1 eqn:Eo1.
  assert (A : o = 146097 * a + o1 /\ -146097 < o1 <= 0 /\ a <= 0) by lia. clear Ea Eo1.
  remember (Z.quot o1 36524) as b eqn:Eb. remember (Z.rem o1 36524) as o2 eqn:Eo2.
  assert (B : o1 = 36524 * b + o2 /\ -36524 < o2 <= 0 /\ b <= 0) by lia. clear Eb Eo2.
  remember (Z.quot o2 1461) as c eqn:Ec. remember (Z.rem o2 1461) as o3 eqn:Eo3.
  assert (C : o2 = 1461 * c + o3 /\ -1461 < o3 <= 0 /\ c <= 0) by lia. clear Ec Eo3.
  remember (Z.quot o3 365) as e eqn:Ee. remember (Z.rem o3 365) as r eqn:Er.
  assert (D : o3 = 365 * e + r /\ -365 < r <= 0 /\ e <= 0) by lia. clear Ee Er.
  assert (Y : add (add (mul a 400) 1) (add (add (mul b 100) (mul c 4)) e) = 400 * a + 100 * b + 4 * c + e + 1)
    by (nw; lia).
  rewrite Y. clear Y.
  replace ((e =? 4) || (b =? 4)) with false by lia.
  replace (e =? 3) with false by lia. cbn [andb].
  destruct (month_of_bad (400 * a + 100 * b + 4 * c + e + 1) r ltac:(lia)) as (m & d & M & Hm).
  rewrite M. cbn [bind date_of]. apply date_new_raises.
  unfold Spec.valid; cbn [Spec.year Spec.month Spec.day]. intros (V1 & V2 & V3). lia.
Qed.

(** ** Durations *)
Lemma divmod_ok x y : in64 x -> 1 < y <= 10 ^ 12 -> divmod x y = (x / y, x mod y).
Proof.
  unfold in64, min64, max64. intros Hx Hy. unfold divmod.
  pose proof (Z.quot_rem' x y) as Q.
  assert (R : Z.abs (Z.rem x y) < y).
  { pose proof (Z.rem_bound_abs x y). lia. }
  assert (S : 0 <= Z.sgn x * Z.rem x y).
  { pose proof (Z.rem_sign_mul x y). nia. }
  assert (Qb : - 2 ^ 63 <= Z.quot x y * y <= 2 ^ 63).
  { destruct (Z_lt_le_dec x 0).
    - assert (Z.rem x y <= 0) by nia. lia.
    - assert (0 <= Z.rem x y) by (destruct (Z.eq_dec x 0); [subst; rewrite Z.rem_0_l by lia; lia|nia]). lia. }
  assert (Qc : - 2 ^ 62 <= Z.quot x y <= 2 ^ 62) by nia.
  unfold sub, mul, add.
  rewrite (w64_id (Z.quot x y * y)).
  2: { unfold in64, min64, max64. split; [lia|].
       destruct (Z_lt_le_dec x 0).
       - nia.
       - assert (0 <= Z.rem x y) by (destruct (Z.eq_dec x 0); [subst; rewrite Z.rem_0_l by lia; lia|nia]). lia. }
  rewrite (w64_id (x - Z.quot x y * y)) by (unfold in64, min64, max64; lia).
  replace (x - Z.quot x y * y) with (Z.rem x y) by lia.
  destruct (Z.rem x y <? 0) eqn:E.
  - rewrite !w64_id by (unfold in64, min64, max64; lia).
    assert (x / y = Z.quot x y - 1) as <-. { symmetry. apply Z.div_unique with (r := Z.rem x y + y); lia. }
    assert (x mod y = Z.rem x y + y) as <-.
    { symmetry. apply Z.mod_unique with (q := Z.quot x y - 1); lia. }
    reflexivity.
  - assert (x / y = Z.quot x y) as <-. { symmetry. apply Z.div_unique with (r := Z.rem x y); lia. }
    assert (x mod y = Z.rem x y) as <-. { symmetry. apply Z.mod_unique with (q := Z.quot x y); lia. }
    reflexivity.
Qed.

Lemma normalize_pair_ok hi lo f : in64 lo -> 1 < f <= 10 ^ 12 -> in64 (hi + lo / f) ->
  normalize_pair hi lo f = (hi + lo / f, lo mod f).
Proof.
  intros Hl Hf Hh. unfold normalize_pair.
  destruct ((lo <? 0) || (f <=? lo)) eqn:E.
  - rewrite divmod_ok by auto. unfold add. now rewrite w64_id by auto.
  - rewrite Z.div_small, Z.mod_small by lia. f_equal; lia.
Qed.

Lemma normalize_dsu us : in64 us ->
  normalize_d_s_us 0 0 us = (us / Spec.day_micros, us mod Spec.day_micros / 1000000, us mod 1000000).
Proof.
  unfold in64, min64, max64. intros H. unfold normalize_d_s_us, Spec.day_micros.
  assert (P : (if (us <? 0) || (1000000 <=? us) then normalize_pair 0 us 1000000 else (0, us))
              = (us / 1000000, us mod 1000000)).
  { destruct ((us <? 0) || (1000000 <=? us)) eqn:E.
    - rewrite normalize_pair_ok; [f_equal; lia| | |]; unfold in64, min64, max64; lia.
    - rewrite Z.div_small, Z.mod_small by lia. reflexivity. }
  rewrite P. cbv iota zeta.
  assert (Q : (if (us / 1000000 <? 0) || (24 * 3600 <=? us / 1000000) then normalize_pair 0 (us / 1000000) (24 * 3600)
               else (0, us / 1000000)) = (us / 1000000 / 86400, (us / 1000000) mod 86400)).
  { destruct ((us / 1000000 <? 0) || (24 * 3600 <=? us / 1000000)) eqn:E.
    - change (24 * 3600) with 86400 in *. rewrite normalize_pair_ok; [f_equal; lia| | |]; unfold in64, min64, max64; lia.
    - rewrite (Z.div_small (us / 1000000) 86400), (Z.mod_small (us / 1000000) 86400) by lia. reflexivity. }
  rewrite Q. rewrite Z.div_div by lia. change (1000000 * 86400) with (24 * 60 * 60 * 1000000).
  replace ((us / 1000000) mod 86400) with (us mod (24 * 60 * 60 * 1000000) / 1000000) by lia. reflexivity.
Qed.
