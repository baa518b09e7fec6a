(** Calendar arithmetic, days of the week, ISO weeks, times of day and instants. *)
From Coq Require Import List ZArith Lia Bool Floats.SpecFloat.
From Verif.Common Require Import Result Int64 Tac.
From Verif.Ir Require Import Num FloatProofs.
From Verif.Datetime Require Import Model Proofs.
From Verif.Datetime Require Spec.
Import ListNotations.
Local Open Scope Z_scope.
Local Open Scope res_scope.

Ltac Zify.zify_post_hook ::= Z.to_euclidean_division_equations.

(** ** Whole numbers below 2^53 survive the conversion to float *)
Lemma shift_pos_val d p : Z.pos (shift_pos d p) = Z.pos p * 2 ^ Z.pos d.
Proof.
  unfold shift_pos. induction d as [|d IH] using Pos.peano_ind; [cbn; lia|].
  rewrite Pos.iter_succ. change (Z.pos (Pos.iter xO p d)~0) with (2 * Z.pos (Pos.iter xO p d)).
  rewrite IH. rewrite Pos2Z.inj_succ, Z.pow_succ_r by lia. lia.
Qed.
Lemma shift_pos_digits d p : Z.pos (digits2_pos (shift_pos d p)) = Z.pos (digits2_pos p) + Z.pos d.
Proof.
  unfold shift_pos. induction d as [|d IH] using Pos.peano_ind; [cbn; lia|].
  rewrite Pos.iter_succ. cbn [digits2_pos]. lia.
Qed.
Lemma round_53 s p : Z.pos p < 2 ^ 53 ->
  exists m e, binary_round prec emax s p 0 = S754_finite s m e /\ e <= 0 /\ Z.pos m = Z.pos p * 2 ^ (- e).
Proof.
  intros H. pose proof (digits_bound p) as D.
  assert (L : Z.pos (digits2_pos p) <= 53).
  { destruct (Z_le_gt_dec (Z.pos (digits2_pos p)) 53) as [|G]; auto.
    assert (2 ^ 53 <= 2 ^ (Z.pos (digits2_pos p) - 1)) by (apply Z.pow_le_mono_r; lia). lia. }
  remember (53 - Z.pos (digits2_pos p)) as k eqn:Ek.
  assert (A : shl_align p 0 (fexp prec emax (Z.pos (digits2_pos p) + 0))
              = (if k =? 0 then p else shift_pos (Z.to_pos k) p, - k)).
  { unfold shl_align, fexp, emin, prec, emax.
    replace (Z.max _ _ - 0) with (- k) by lia.
    destruct k as [|q|q]; [reflexivity| |lia]. cbn [Z.opp Z.eqb Z.to_pos]. f_equal. lia. }
  set (mz := if k =? 0 then p else shift_pos (Z.to_pos k) p) in *.
  assert (Dz : Z.pos (digits2_pos mz) = 53).
  { subst mz. destruct (Z.eqb_spec k 0); [lia|]. rewrite shift_pos_digits. lia. }
  assert (Vz : Z.pos mz = Z.pos p * 2 ^ k).
  { subst mz. destruct (Z.eqb_spec k 0) as [->|]; [lia|]. rewrite shift_pos_val. f_equal. f_equal. lia. }
  exists mz, (- k). unfold binary_round. rewrite A. unfold binary_round_aux.
  assert (S : shr_fexp prec emax (Z.pos mz) (- k) loc_Exact = (shr_record_of_loc (Z.pos mz) loc_Exact, - k)).
  { unfold shr_fexp, shr, Zdigits2. rewrite Dz. unfold fexp, emin, prec, emax.
    replace (Z.max _ _ - - k) with 0 by lia. reflexivity. }
  rewrite S. cbn [shr_record_of_loc shr_m loc_of_shr_record shr_r shr_s round_nearest_even].
  rewrite S. cbn [shr_record_of_loc shr_m].
  replace (- k <=? emax - prec) with true by (unfold emax, prec; lia).
  split; auto. split; [lia|]. now rewrite Z.opp_involutive.
Qed.
Lemma whole_float n : Z.abs n < 2 ^ 53 -> f2i (i2f n) = Ok n.
Proof.
  intros H. unfold i2f, binary_normalize.
  assert (R : forall s p, Z.pos p < 2 ^ 53 -> f2i (binary_round prec emax s p 0) = Ok (cond_Zopp s (Z.pos p))).
  { intros s p Hp. destruct (round_53 s p Hp) as (m & e & E & He & Hm). rewrite E.
    unfold f2i, ftrunc.
    assert (V : (if 0 <=? e then Z.pos m * 2 ^ e else Z.pos m / 2 ^ - e) = Z.pos p).
    { destruct (Z.leb_spec 0 e).
      - replace e with 0 in * by lia. lia.
      - rewrite Hm. apply Z.div_mul. apply Z.pow_nonzero; lia. }
    rewrite V. replace (in64b _) with true; [reflexivity|].
    symmetry. unfold in64b, min64, max64. destruct s; cbn [cond_Zopp]; lia. }
  destruct n as [|p|p]; [reflexivity| |]; rewrite R by lia; reflexivity.
Qed.

Lemma accum_ok s n f : Z.abs n < 2 ^ 53 -> in64 (n * f) -> in64 (s + n * f) -> accum s n f = Ok (s + n * f).
Proof. intros H1 H2 H3. unfold accum. rewrite whole_float by auto. cbn [bind]. unfold add, mul. now rewrite !w64_id by (rewrite ?w64_id by auto; auto). Qed.

Lemma td_new_ok d s us : Z.abs d < 2 ^ 53 -> Z.abs s < 2 ^ 53 -> Z.abs us < 2 ^ 53 ->
  in64 (d * Spec.day_micros) -> in64 (s * 1000000) -> in64 (d * Spec.day_micros + s * 1000000) ->
  in64 (d * Spec.day_micros + s * 1000000 + us) ->
  td_new d s us 0 0 0 0 = Ok (TD (d * Spec.day_micros + s * 1000000 + us)).
Proof.
  unfold Spec.day_micros. intros. unfold td_new.
  rewrite (accum_ok 0 d) by (auto; rewrite Z.add_0_l; auto). cbn [bind]. rewrite Z.add_0_l.
  rewrite (accum_ok _ s) by auto. cbn [bind].
  rewrite (accum_ok _ us) by (auto; rewrite Z.mul_1_r; auto; unfold in64, min64, max64; lia). cbn [bind].
  rewrite Z.mul_1_r.
  rewrite (accum_ok _ 0) by (rewrite ?Z.mul_0_l, ?Z.add_0_r; auto; unfold in64, min64, max64; lia). cbn [bind].
  rewrite Z.mul_0_l, Z.add_0_r.
  rewrite (accum_ok _ 0) by (rewrite ?Z.mul_0_l, ?Z.add_0_r; auto; unfold in64, min64, max64; lia). cbn [bind].
  rewrite Z.mul_0_l, Z.add_0_r.
  rewrite (accum_ok _ 0) by (rewrite ?Z.mul_0_l, ?Z.add_0_r; auto; unfold in64, min64, max64; lia). cbn [bind].
  rewrite Z.mul_0_l, Z.add_0_r.
  rewrite (accum_ok _ 0) by (rewrite ?Z.mul_0_l, ?Z.add_0_r; auto; unfold in64, min64, max64; lia). cbn [bind].
  now rewrite Z.mul_0_l, Z.add_0_r.
Qed.

Lemma cum_1 lp : cum lp 1 = 0.
Proof. destruct lp; reflexivity. Qed.

(** ** Moving a date by days *)
Lemma normalize_ymd_ok y m d : 1 <= y <= 9999 -> 1 <= m <= 12 -> - 10 ^ 12 <= d <= 10 ^ 12 ->
  let n := ordz (Spec.YMD y m d) in
  if (1 <=? n) && (n <=? MAXORDINAL)
  then exists x, normalize_y_m_d y m d = Ok (Spec.year x, Spec.month x, Spec.day x) /\ Spec.valid x /\ ordz x = n
  else normalize_y_m_d y m d = Raise OverflowError.
Proof.
  intros Hy Hm Hd n.
  assert (K : forall x, wfd x -> ordz x = n ->
            forall r, (if negb ((MINYEAR <=? Spec.year x) && (Spec.year x <=? MAXYEAR)) then Raise OverflowError
                       else Ok (Spec.year x, Spec.month x, Spec.day x)) = r ->
            if (1 <=? n) && (n <=? MAXORDINAL)
            then exists x, r = Ok (Spec.year x, Spec.month x, Spec.day x) /\ Spec.valid x /\ ordz x = n
            else r = Raise OverflowError).
  { intros x W O r <-. pose proof (ordz_max x W) as M. pose proof (wfd_pos x W) as P. rewrite O in *.
    assert (1 <= Spec.year x) by apply W. unfold MINYEAR, MAXYEAR in *.
    destruct (n <=? MAXORDINAL) eqn:C.
    - replace ((1 <=? n) && true) with true by lia.
      replace ((1 <=? Spec.year x) && (Spec.year x <=? 9999)) with true by lia.
      exists x. split; auto. split; auto. apply valid_wfd. split; auto. lia.
    - rewrite andb_false_r.
      replace ((1 <=? Spec.year x) && (Spec.year x <=? 9999)) with false by lia. reflexivity. }
  assert (On : n = dby y + cum (Spec.leap y) m + d) by reflexivity.
  unfold normalize_y_m_d. rewrite days_in_month_ok by lia. cbn [bind].
  rewrite month_length_eq. pose proof (lenm_bounds (Spec.leap y) m) as LB.
  assert (C12 : forall lp, cum lp 12 = 334 + Z.b2z lp) by (intros [|]; reflexivity).
  assert (C1 : forall lp, cum lp 1 = 0) by (intros [|]; reflexivity).
  assert (L12 : forall lp, lenm lp 12 = 31) by (intros [|]; reflexivity).
  destruct ((d <? 1) || (lenm (Spec.leap y) m <? d)) eqn:E.
  2: { apply (K (Spec.YMD y m d)); [|reflexivity|reflexivity].
       unfold wfd; cbn [Spec.year Spec.month Spec.day]. rewrite month_length_eq. lia. }
  destruct (d =? 0) eqn:E0.
  - assert (d = 0) as -> by lia. replace (sub m 1) with (m - 1) by (nw; reflexivity).
    destruct (0 <? m - 1) eqn:Em.
    + rewrite days_in_month_ok by lia. cbn [bind]. rewrite month_length_eq.
      apply (K (Spec.YMD y (m - 1) (lenm (Spec.leap y) (m - 1)))); [| |reflexivity].
      * unfold wfd; cbn [Spec.year Spec.month Spec.day]. rewrite month_length_eq.
        pose proof (lenm_bounds (Spec.leap y) (m - 1)). lia.
      * unfold ordz; cbn [Spec.year Spec.month Spec.day].
        pose proof (cum_step (Spec.leap y) (m - 1)) as CS. replace (m - 1 + 1) with m in CS by lia. lia.
    + assert (m = 1) as -> by lia. replace (sub y 1) with (y - 1) by (nw; reflexivity).
      rewrite C1 in On.
      destruct (Z.eq_dec y 1) as [->|Ny].
      * rewrite dby_1 in On. rewrite On. reflexivity.
      * apply (K (Spec.YMD (y - 1) 12 31)); [| |reflexivity].
        -- unfold wfd; cbn [Spec.year Spec.month Spec.day]. rewrite month_length_eq, L12. lia.
        -- unfold ordz; cbn [Spec.year Spec.month Spec.day]. rewrite C12.
           pose proof (dby_step (y - 1)) as DS. replace (y - 1 + 1) with y in DS by lia. lia.
  - replace (add (lenm (Spec.leap y) m) 1) with (lenm (Spec.leap y) m + 1) by (nw; reflexivity).
    destruct (d =? lenm (Spec.leap y) m + 1) eqn:E1.
    + replace (add m 1) with (m + 1) by (nw; reflexivity).
      destruct (12 <? m + 1) eqn:Em.
      * assert (m = 12) as -> by lia. rewrite L12, C12 in *.
        replace (add y 1) with (y + 1) by (nw; reflexivity).
        apply (K (Spec.YMD (y + 1) 1 1)); [| |reflexivity].
        -- unfold wfd; cbn [Spec.year Spec.month Spec.day]. rewrite month_length_eq.
           pose proof (lenm_bounds (Spec.leap (y + 1)) 1). lia.
        -- unfold ordz; cbn [Spec.year Spec.month Spec.day]. rewrite C1, dby_step. lia.
      * apply (K (Spec.YMD y (m + 1) 1)); [| |reflexivity].
        -- unfold wfd; cbn [Spec.year Spec.month Spec.day]. rewrite month_length_eq.
           pose proof (lenm_bounds (Spec.leap y) (m + 1)). lia.
        -- unfold ordz; cbn [Spec.year Spec.month Spec.day]. rewrite cum_step by lia. lia.
    + rewrite ymd_to_ord_ok by lia. cbn [bind].
      pose proof (dby_big y ltac:(lia)) as DB. pose proof (cum_bounds (Spec.leap y) m Hm) as CB.
      assert (EO : sub (add (ordz (Spec.YMD y m 1)) d) 1 = n).
      { rewrite On. unfold ordz; cbn [Spec.year Spec.month Spec.day]. nw. lia. }
      rewrite EO.
      destruct ((1 <=? n) && (n <=? MAXORDINAL)) eqn:R.
      * replace ((n <? 1) || (MAXORDINAL <? n)) with false by lia.
        destruct (ord_to_ymd_ok n) as (x & Ex & Wx & Ox); [unfold MAXORDINAL, max64 in *; lia|].
        exists x. split; auto. split; auto. apply valid_wfd. split; auto. apply ordz_max; auto. lia.
      * replace ((n <? 1) || (MAXORDINAL <? n)) with true by lia. reflexivity.
Qed.

Lemma td_days_bound us : in64 us -> - 10 ^ 9 <= us / Spec.day_micros <= 10 ^ 9.
Proof. unfold in64, min64, max64, Spec.day_micros. lia. Qed.

Lemma move_ok x k : is_date x -> - 10 ^ 9 <= k <= 10 ^ 9 ->
  let n := ord x + k in
  if (1 <=? n) && (n <=? MAXORDINAL)
  then exists r, normalize_y_m_d (d_year x) (d_month x) (d_day x + k) = Ok (d_year r, d_month r, d_day r)
       /\ is_date r /\ ord r = n
  else normalize_y_m_d (d_year x) (d_month x) (d_day x + k) = Raise OverflowError.
Proof.
  intros Hx Hk n. pose proof (is_date_valid x Hx) as (Hy & Hm & Hd). unfold fields in *.
  cbn [Spec.year Spec.month Spec.day] in *.
  rewrite month_length_eq in Hd. pose proof (lenm_bounds (Spec.leap (d_year x)) (d_month x)).
  pose proof (normalize_ymd_ok (d_year x) (d_month x) (d_day x + k) Hy Hm ltac:(lia)) as N.
  assert (On : ordz (Spec.YMD (d_year x) (d_month x) (d_day x + k)) = n).
  { subst n. unfold ord, fields, ordz; cbn [Spec.year Spec.month Spec.day]. lia. }
  cbv zeta in N. rewrite On in N.
  destruct ((1 <=? n) && (n <=? MAXORDINAL)); [|exact N].
  destruct N as (z & E & V & O). destruct z as [zy zm zd].
  destruct (valid_is_date zy zm zd V) as (r & Er & Ir & Fr). exists r.
  cbn [Spec.year Spec.month Spec.day] in E.
  assert (d_year r = zy /\ d_month r = zm /\ d_day r = zd) as (-> & -> & ->) by (unfold fields in Fr; injection Fr; auto).
  split; auto. split; auto. unfold ord. now rewrite Fr.
Qed.

Lemma remake x : is_date x -> date_new (d_year x) (d_month x) (d_day x) = Ok x.
Proof.
  intros (y & m & d & H). pose proof (date_new_fields _ _ _ _ H) as (V & E & F).
  injection F as -> -> ->. exact H.
Qed.

Lemma date_day_bound x : is_date x -> 1 <= d_day x <= 31.
Proof.
  intros Hx. pose proof (is_date_valid x Hx) as (Hy & Hm & Hd). unfold fields in *.
  cbn [Spec.year Spec.month Spec.day] in *.
  rewrite month_length_eq in Hd. pose proof (lenm_bounds (Spec.leap (d_year x)) (d_month x)). lia.
Qed.

Lemma date_add_ok x t : is_date x -> in64 (td_us t) ->
  let n := ord x + td_us t / Spec.day_micros in
  if (1 <=? n) && (n <=? MAXORDINAL)
  then exists r, date_add x t = Ok r /\ is_date r /\ ord r = n
  else date_add x t = Raise OverflowError.
Proof.
  intros Hx Ht n. unfold date_add. rewrite normalize_dsu by auto.
  pose proof (td_days_bound _ Ht) as B. pose proof (date_day_bound x Hx).
  replace (add (d_day x) (td_us t / Spec.day_micros)) with (d_day x + td_us t / Spec.day_micros)
    by (unfold add; rewrite w64_id; auto; unfold in64, min64, max64; lia).
  pose proof (move_ok x _ Hx B) as M. cbv zeta in M. fold n in M.
  destruct ((1 <=? n) && (n <=? MAXORDINAL)).
  - destruct M as (r & E & I & O). exists r. rewrite E. cbn [bind date_of]. rewrite remake by auto. auto.
  - now rewrite M.
Qed.
Lemma date_sub_ok x t : is_date x -> in64 (td_us t) ->
  let n := ord x - td_us t / Spec.day_micros in
  if (1 <=? n) && (n <=? MAXORDINAL)
  then exists r, date_sub x t = Ok r /\ is_date r /\ ord r = n
  else date_sub x t = Raise OverflowError.
Proof.
  intros Hx Ht n. unfold date_sub. rewrite normalize_dsu by auto.
  pose proof (td_days_bound _ Ht) as B. pose proof (date_day_bound x Hx).
  replace (sub (d_day x) (td_us t / Spec.day_micros)) with (d_day x + - (td_us t / Spec.day_micros))
    by (unfold sub; rewrite w64_id; [lia|unfold in64, min64, max64; lia]).
  pose proof (move_ok x (- (td_us t / Spec.day_micros)) Hx ltac:(lia)) as M. cbv zeta in M.
  change (ord x + - (td_us t / Spec.day_micros)) with n in M.
  destruct ((1 <=? n) && (n <=? MAXORDINAL)).
  - destruct M as (r & E & I & O). exists r. rewrite E. cbn [bind date_of]. rewrite remake by auto. auto.
  - now rewrite M.
Qed.

Lemma date_diff_ok x y : is_date x -> is_date y ->
  date_diff x y = Ok (TD ((ord x - ord y) * Spec.day_micros)).
Proof.
  intros Hx Hy. unfold date_diff. rewrite !toordinal_ok by auto. cbn [bind].
  pose proof (ord_bounds x Hx). pose proof (ord_bounds y Hy). unfold MAXORDINAL in *.
  replace (sub (ord x) (ord y)) with (ord x - ord y) by (nw; reflexivity).
  rewrite td_new_ok by (unfold Spec.day_micros, in64, min64, max64; lia).
  do 2 f_equal. lia.
Qed.

(** ** Days of the week and of the year *)
Lemma weekday_ok x : is_date x -> date_weekday x = Ok (Spec.week_day (ord x)).
Proof.
  intros Hx. unfold date_weekday, weekday_ymd. fold (date_toordinal x). rewrite toordinal_ok by auto. cbn [bind].
  pose proof (ord_bounds x Hx). unfold MAXORDINAL in *. unfold Spec.week_day. nw. f_equal. lia.
Qed.

Lemma yday_ok x : is_date x ->
  date_yday x = Ok (ord x - dby (d_year x)) .
Proof.
  intros Hx. unfold date_yday. rewrite toordinal_ok by auto. cbn [bind].
  pose proof (is_date_valid x Hx) as (Hy & _). unfold fields in Hy; cbn [Spec.year] in Hy.
  destruct (valid_is_date (d_year x) 1 1) as (j & Ej & Ij & Fj).
  { unfold Spec.valid; cbn [Spec.year Spec.month Spec.day]. rewrite month_length_eq.
    pose proof (lenm_bounds (Spec.leap (d_year x)) 1). lia. }
  rewrite Ej. cbn [bind]. rewrite toordinal_ok by auto. cbn [bind].
  assert (O : ord j = dby (d_year x) + 1).
  { unfold ord. rewrite Fj. unfold ordz; cbn [Spec.year Spec.month Spec.day].
    rewrite cum_1. lia. }
  rewrite O. pose proof (ord_bounds x Hx). pose proof (dby_big (d_year x) ltac:(lia)). unfold MAXORDINAL in *.
  nw. f_equal. lia.
Qed.

(** ** ISO weeks *)
Lemma wfd_jan1 y : 1 <= y -> wfd (Spec.YMD y 1 1) /\ ordz (Spec.YMD y 1 1) = dby y + 1.
Proof.
  intros H. split.
  - unfold wfd; cbn [Spec.year Spec.month Spec.day]. rewrite month_length_eq.
    pose proof (lenm_bounds (Spec.leap y) 1). lia.
  - unfold ordz; cbn [Spec.year Spec.month Spec.day]. rewrite cum_1. lia.
Qed.
Lemma wfd_year_range x : wfd x -> dby (Spec.year x) < ordz x <= dby (Spec.year x + 1).
Proof.
  intros (Hy & Hm & Hd). rewrite month_length_eq in Hd. rewrite dby_step. unfold ordz.
  pose proof (cum_bounds (Spec.leap (Spec.year x)) _ Hm). pose proof (cum_end (Spec.leap (Spec.year x)) _ Hm). lia.
Qed.
(** The year of day [n]. *)
Lemma year_unique y y' n : dby y < n <= dby (y + 1) -> dby y' < n <= dby (y' + 1) -> y = y'.
Proof.
  intros A B. destruct (Z.lt_trichotomy y y') as [L|[E|L]]; auto.
  - pose proof (dby_mono (y + 1) y'). lia.
  - pose proof (dby_mono (y' + 1) y). lia.
Qed.

Lemma iso_week_iff n y w d : 1 <= y -> 1 <= n ->
  (Spec.iso_week n y w d <->
   let th := n - Spec.week_day n + 3 in
   d = Spec.week_day n + 1 /\ dby y < th <= dby (y + 1) /\ w = (th - dby y - 1) / 7 + 1).
Proof.
  intros Hy Hn. cbv zeta. unfold Spec.iso_week. set (th := n - Spec.week_day n + 3). destruct (wfd_jan1 y Hy) as [W O]. split.
  - intros (D & thursday & t & yd & E & N & Yt & J & Ew). split; auto.
    apply nth_day_iff in N, J. destruct N as [Wt Ot], J as [_ Oj]. rewrite O in Oj.
    pose proof (wfd_year_range t Wt) as R. rewrite Yt, Ot in R. subst thursday.
    split; [lia|]. rewrite Ew. do 2 f_equal. lia.
  - intros (D & R & Ew). split; auto.
    assert (1 <= th). { pose proof (dby_mono 1 y Hy) as M. rewrite dby_1 in M. lia. }
    destruct (nth_day_ex th H) as [t Nt]. exists th, t, (th - dby y). split; auto. split; auto.
    pose proof (proj1 (nth_day_iff th t) Nt) as [Wt Ot].
    pose proof (wfd_year_range t Wt) as Rt. rewrite Ot in Rt. split; [eapply year_unique; eauto|].
    split; [apply nth_day_iff; split; auto; lia|]. auto.
Qed.

(** The first Monday of the ISO year. *)
Definition mon1 (y : Z) : Z :=
  let first := dby y + 1 in
  let fw := (first - 1) mod 7 in
  if 3 <? fw then first - fw + 7 else first - fw.
Lemma week1_ok y : 1 <= y <= 10 ^ 6 -> iso_week1_monday y = Ok (mon1 y).
Proof.
  intros Hy. unfold iso_week1_monday. rewrite ymd_to_ord_ok by lia. cbn [bind].
  destruct (wfd_jan1 y ltac:(lia)) as [_ ->]. pose proof (dby_big y ltac:(lia)) as D.
  assert (F : Z.rem (add (dby y + 1) 6) 7 = (dby y + 1 - 1) mod 7) by (nw; lia).
  rewrite F. unfold mon1. cbv zeta. f_equal.
  destruct (3 <? (dby y + 1 - 1) mod 7); nw; lia.
Qed.
Lemma mon1_prop y : exists k, mon1 y = dby y + 1 + k /\ -3 <= k <= 3 /\ (mon1 y - 1) mod 7 = 0.
Proof.
  exists (mon1 y - dby y - 1). unfold mon1. cbv zeta. destruct (3 <? (dby y + 1 - 1) mod 7) eqn:E; lia.
Qed.

Lemma isocalendar_ok x : is_date x ->
  exists y w d, date_isocalendar x = Ok (y, w, d) /\ 1 <= y <= 9999 /\
    mon1 y <= ord x < mon1 (y + 1) /\ w = (ord x - mon1 y) / 7 + 1 /\ d = Spec.week_day (ord x) + 1.
Proof.
  intros Hx. unfold date_isocalendar. fold (date_toordinal x).
  pose proof (is_date_valid x Hx) as (Hy & _). unfold fields in Hy; cbn [Spec.year] in Hy.
  set (y := d_year x) in *. rewrite week1_ok by lia. cbn [bind]. rewrite toordinal_ok by auto. cbn [bind].
  pose proof (ord_bounds x Hx) as OB. unfold MAXORDINAL in OB.
  pose proof (wfd_year_range _ (is_date_wfd x Hx)) as R. fold (ord x) in R. cbn [fields Spec.year] in R. fold y in R.
  destruct (mon1_prop y) as (k & K1 & K2 & K3).
  destruct (mon1_prop (y + 1)) as (k' & K1' & K2' & K3').
  destruct (mon1_prop (y - 1)) as (k'' & K1'' & K2'' & K3'').
  pose proof (dby_step y) as S. pose proof (dby_step (y - 1)) as S'. replace (y - 1 + 1) with y in S' by lia.
  pose proof (dby_big y ltac:(lia)) as DB.
  assert (LB : 0 <= Z.b2z (Spec.leap y) <= 1) by (destruct (Spec.leap y); cbn; lia).
  assert (LB' : 0 <= Z.b2z (Spec.leap (y - 1)) <= 1) by (destruct (Spec.leap (y - 1)); cbn; lia).
  assert (E : sub (ord x) (mon1 y) = ord x - mon1 y) by (nw; reflexivity). rewrite E. clear E.
  rewrite divmod_ok by (unfold in64, min64, max64; lia).
  assert (A1 : forall a, a < 10 ^ 9 -> -10^9 < a -> add a 1 = a + 1) by (intros; nw; reflexivity).
  unfold Spec.week_day in *.
  destruct ((ord x - mon1 y) / 7 <? 0) eqn:C1.
  - assert (y <> 1).
    { intros ->. change (mon1 1) with 1 in *. lia. }
    replace (sub y 1) with (y - 1) by (nw; reflexivity).
    rewrite week1_ok by lia. cbn [bind].
    assert (E : sub (ord x) (mon1 (y - 1)) = ord x - mon1 (y - 1)).
    { pose proof (dby_big (y - 1) ltac:(lia)). nw; reflexivity. }
    rewrite E. rewrite divmod_ok by (pose proof (dby_big (y - 1) ltac:(lia)); unfold in64, min64, max64; lia).
    pose proof (dby_big (y - 1) ltac:(lia)).
    exists (y - 1), ((ord x - mon1 (y - 1)) / 7 + 1), ((ord x - mon1 (y - 1)) mod 7 + 1).
    rewrite !A1 by lia. replace (y - 1 + 1) with y by lia. repeat (split; [lia || reflexivity|]). lia.
  - destruct (52 <=? (ord x - mon1 y) / 7) eqn:C2.
    + replace (add y 1) with (y + 1) by (nw; reflexivity). rewrite week1_ok by lia. cbn [bind].
      destruct (mon1 (y + 1) <=? ord x) eqn:C3.
      * exists (y + 1), 1, ((ord x - mon1 y) mod 7 + 1). rewrite !A1 by lia. split; [reflexivity|].
        destruct (mon1_prop (y + 1 + 1)) as (k3 & K31 & K32 & K33).
        pose proof (dby_step (y + 1)) as S3.
        assert (0 <= Z.b2z (Spec.leap (y + 1)) <= 1) by (destruct (Spec.leap (y + 1)); cbn; lia).
        assert (y <> 9999).
        { intros ->. change (dby (9999 + 1)) with 3652059 in *. change (mon1 (9999 + 1)) with 3652062 in *. lia. }
        split; [lia|]. split; [lia|]. split; lia.
      * exists y, ((ord x - mon1 y) / 7 + 1), ((ord x - mon1 y) mod 7 + 1). rewrite !A1 by lia.
        split; [reflexivity|]. split; [lia|]. split; [lia|]. split; lia.
    + exists y, ((ord x - mon1 y) / 7 + 1), ((ord x - mon1 y) mod 7 + 1). rewrite !A1 by lia.
      split; [reflexivity|]. split; [lia|]. split; [lia|]. split; lia.
Qed.

Lemma iso_mon n y w d : 1 <= y -> 1 <= n ->
  (Spec.iso_week n y w d <->
   mon1 y <= n < mon1 (y + 1) /\ w = (n - mon1 y) / 7 + 1 /\ d = Spec.week_day n + 1).
Proof.
  intros Hy Hn. rewrite iso_week_iff by auto. cbv zeta.
  destruct (mon1_prop y) as (k & K1 & K2 & K3). destruct (mon1_prop (y + 1)) as (k' & K1' & K2' & K3').
  unfold Spec.week_day. split.
  - intros (D & R & W). split; [lia|]. split; lia.
  - intros (R & W & D). split; [lia|]. split; lia.
Qed.

Lemma first_weekday_ok y : 1 <= y <= 9999 -> weekday_ymd y 1 1 = Ok (dby y mod 7).
Proof.
  intros H. unfold weekday_ymd. rewrite ymd_to_ord_ok by lia. cbn [bind].
  destruct (wfd_jan1 y ltac:(lia)) as [_ ->]. pose proof (dby_big y ltac:(lia)). nw. f_equal. lia.
Qed.

Lemma fromiso_ok y w d :
  match date_fromisocalendar y w d with
  | Ok x => is_date x /\ 1 <= y <= 9999 /\ Spec.iso_week (ord x) y w d
  | Raise ValueError => ~ (1 <= y <= 9999 /\ exists n, 1 <= n <= MAXORDINAL /\ Spec.iso_week n y w d)
  | _ => False
  end.
Proof.
  unfold date_fromisocalendar, MINYEAR, MAXYEAR.
  destruct ((y <? 1) || (9999 <? y)) eqn:Cy; [lia|].
  assert (Hy : 1 <= y <= 9999) by lia.
  destruct (mon1_prop y) as (k & K1 & K2 & K3).
  destruct (mon1_prop (y + 1)) as (k' & K1' & K2' & K3').
  pose proof (dby_step y) as S. pose proof (dby_big y ltac:(lia)) as DB.
  assert (LB : 0 <= Z.b2z (Spec.leap y) <= 1) by (destruct (Spec.leap y); cbn; lia).
  (* the week exists exactly when the checks pass *)
  assert (Wk : (if (w <=? 0) || (53 <=? w)
            then out_of_range <-
                 (if w =? 53 then first_weekday <- weekday_ymd y 1 1;;
                    Ok (negb ((first_weekday =? 3) || (first_weekday =? 2) && is_leap y)) else Ok true);;
                 (if out_of_range : bool then Raise ValueError else Ok tt)
            else Ok tt) = if (1 <=? w) && (mon1 y + (w - 1) * 7 <? mon1 (y + 1)) then Ok tt else Raise ValueError).
  { rewrite first_weekday_ok by lia. cbn [bind]. rewrite leap_eq by lia.
    destruct ((w <=? 0) || (53 <=? w)) eqn:Cw.
    - destruct (w =? 53) eqn:C53; cbn [bind].
      + assert (w = 53) as -> by lia.
        assert (X : (1 <=? 53) && (mon1 y + (53 - 1) * 7 <? mon1 (y + 1))
                    = ((dby y mod 7 =? 3) || (dby y mod 7 =? 2) && Spec.leap y)).
        { destruct (Spec.leap y); cbn [Z.b2z] in *; apply eq_true_iff_eq;
            rewrite orb_true_iff, !andb_true_iff; lia. }
        rewrite X. destruct ((dby y mod 7 =? 3) || (dby y mod 7 =? 2) && Spec.leap y); reflexivity.
      + replace ((1 <=? w) && (mon1 y + (w - 1) * 7 <? mon1 (y + 1))) with false by lia. reflexivity.
    - replace ((1 <=? w) && (mon1 y + (w - 1) * 7 <? mon1 (y + 1))) with true by lia. reflexivity. }
  rewrite Wk. clear Wk.
  destruct ((1 <=? w) && (mon1 y + (w - 1) * 7 <? mon1 (y + 1))) eqn:Cw; cbn [bind].
  2: { intros (_ & n & Hn & I). apply iso_mon in I; lia. }
  destruct ((d <=? 0) || (8 <=? d)) eqn:Cd.
  { intros (_ & n & Hn & I). apply iso_mon in I; [|lia|lia]. unfold Spec.week_day in I. lia. }
  rewrite week1_ok by lia. cbn [bind].
  assert (E : add (mon1 y) (sub (add (mul (sub w 1) 7) d) 1) = mon1 y + (w - 1) * 7 + d - 1) by (nw; lia).
  rewrite E. clear E. set (n := mon1 y + (w - 1) * 7 + d - 1).
  assert (M1 : 1 <= mon1 y).
  { destruct (Z.eq_dec y 1) as [->|]; [vm_compute; discriminate|].
    pose proof (dby_mono 2 y ltac:(lia)) as M. change (dby 2) with 365 in M. lia. }
  assert (I : Spec.iso_week n y w d).
  { apply iso_mon; [lia|lia|]. unfold Spec.week_day. subst n. lia. }
  assert (Hn : 1 <= n) by (subst n; lia).
  pose proof (date_of_ord n ltac:(subst n; unfold max64; lia)) as D.
  destruct (n <=? MAXORDINAL) eqn:Cn.
  - destruct D as (r & Er & Ir & Or). rewrite Er. split; auto. split; auto. now rewrite Or.
  - rewrite D. intros (_ & n' & Hn' & I'). apply iso_mon in I'; [|lia|lia]. unfold Spec.week_day in I'.
    assert (n' = n) by (subst n; lia). lia.
Qed.
