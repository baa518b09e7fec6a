(** Dates, instants, durations, ISO weeks and ISO texts. *)
From Coq Require Import List ZArith Lia Bool.
From Verif.Common Require Import Result Int64.
From Verif.Datetime Require Import Model Proofs Arith Instant Text.
From Verif.Datetime Require Import Spec.
Import ListNotations.
Local Open Scope Z_scope.

(** ** C38: dates are the days of the Gregorian calendar *)

(** The constructor accepts exactly the valid dates and the fields read back what was given. *)
Theorem C38_constructor : forall y m d,
  match date_new y m d with
  | Ok x => valid (YMD y m d) /\ fields x = YMD y m d
  | Raise e => e = ValueError /\ ~ valid (YMD y m d)
  | _ => False
  end.
Proof.
  intros y m d. destruct (valid_dec (YMD y m d)) as [V|V].
  - destruct (valid_is_date y m d V) as (x & -> & _ & F). auto.
  - rewrite date_new_raises by auto. auto.
Qed.

(** [fromordinal(n)] is the n-th day counted from 1 January of year 1; it raises ValueError
    when that day is not in the years 1 to 9999. *)
Theorem C38_fromordinal : forall n, in64 n ->
  match date_fromordinal n with
  | Ok x => is_date x /\ nth_day n (fields x)
  | Raise e => e = ValueError /\ forall z, nth_day n z -> ~ valid z
  | _ => False
  end.
Proof.
  intros n H.
  destruct (Z_le_dec 1 n), (Z_le_dec n MAXORDINAL).
  1: { destruct (fromordinal_in n ltac:(lia)) as (r & -> & I & O). split; auto. now apply ord_nth. }
  all: rewrite fromordinal_out by (auto; lia); split; auto; intros z N V;
    pose proof (nth_day_pos _ _ N); apply nth_day_ordz in N; destruct N as [W <-];
    apply valid_wfd in V; destruct V as [_ V]; apply ordz_max in V; auto; lia.
Qed.

(** [toordinal] is its inverse. *)
Theorem C38_toordinal : forall x, is_date x ->
  exists n, date_toordinal x = Ok n /\ nth_day n (fields x) /\ date_fromordinal n = Ok x.
Proof.
  intros x H. exists (ord x). split; [now apply toordinal_ok|]. split; [now apply ord_nth|].
  destruct (fromordinal_in (ord x) (ord_bounds x H)) as (r & E & I & O). rewrite E. f_equal. now apply ord_inj.
Qed.

(** Comparisons follow the calendar. *)
Theorem C38_comparisons : forall x y, is_date x -> is_date y ->
  (date_eq x y = true <-> fields x = fields y)
  /\ (date_lt x y = true <-> earlier (fields x) (fields y))
  /\ (date_le x y = true <-> earlier (fields x) (fields y) \/ fields x = fields y).
Proof.
  intros x y Hx Hy. destruct (date_cmp x y Hx Hy) as [C1 C2].
  assert (E : fields x = fields y <-> ord x = ord y).
  { split; [unfold ord; congruence|]. intros O. now rewrite (ord_inj x y Hx Hy O). }
  rewrite E, (earlier_iff _ _ (is_date_wfd x Hx) (is_date_wfd y Hy)). fold (ord x) (ord y).
  unfold date_eq, date_lt, date_le. rewrite Z.eqb_eq, Z.ltb_lt, Z.leb_le. lia.
Qed.

(** Days of the week cycle from a Monday on 1 January of year 1, days of the year count from
    1 January. *)
Theorem C38_weekday : forall x n, is_date x -> nth_day n (fields x) ->
  date_weekday x = Ok (week_day n) /\ date_isoweekday x = Ok (week_day n + 1)
  /\ exists k, date_yday x = Ok k /\ nth_day (n - k + 1) (YMD (d_year x) 1 1).
Proof.
  intros x n H N. apply (ord_nth x n H) in N. subst n.
  pose proof (weekday_ok x H) as W. split; auto. split.
  - unfold date_isoweekday. rewrite W. cbn [bind]. unfold week_day.
    pose proof (Z.mod_pos_bound (ord x - 1) 7 ltac:(lia)). unfold add. rewrite w64_id by (unfold in64, min64, max64; lia).
    reflexivity.
  - exists (ord x - dby (d_year x)). split; [now apply yday_ok|].
    pose proof (is_date_valid x H) as (Hy & _). destruct (wfd_jan1 (d_year x)) as [W1 O1]; [apply Hy|].
    apply nth_day_iff. split; auto. rewrite O1. lia.
Qed.

(** ** C39: adding and subtracting durations *)

(** A date moves by the whole days of the duration, rounded down; OverflowError when the
    result is not in the years 1 to 9999. *)
Theorem C39_date_plus_duration : forall x n t, is_date x -> nth_day n (fields x) -> in64 (td_us t) ->
  match date_add x t with
  | Ok r => is_date r /\ nth_day (n + td_us t / day_micros) (fields r)
  | Raise e => e = OverflowError /\ forall z, nth_day (n + td_us t / day_micros) z -> ~ valid z
  | _ => False
  end.
Proof.
  intros x n t H N T. apply (ord_nth x n H) in N. subst n. pose proof (date_add_ok x t H T) as A. cbv zeta in A.
  set (k := ord x + td_us t / day_micros) in *.
  destruct ((1 <=? k) && (k <=? MAXORDINAL)) eqn:C.
  - destruct A as (r & -> & I & O). split; auto. now apply ord_nth.
  - rewrite A. split; auto. intros z Nz V. pose proof (nth_day_pos _ _ Nz). apply nth_day_ordz in Nz. destruct Nz as [W O].
    apply valid_wfd in V. destruct V as [_ V]. apply ordz_max in V; auto. lia.
Qed.
Theorem C39_date_minus_duration : forall x n t, is_date x -> nth_day n (fields x) -> in64 (td_us t) ->
  match date_sub x t with
  | Ok r => is_date r /\ nth_day (n - td_us t / day_micros) (fields r)
  | Raise e => e = OverflowError /\ forall z, nth_day (n - td_us t / day_micros) z -> ~ valid z
  | _ => False
  end.
Proof.
  intros x n t H N T. apply (ord_nth x n H) in N. subst n. pose proof (date_sub_ok x t H T) as A. cbv zeta in A.
  set (k := ord x - td_us t / day_micros) in *.
  destruct ((1 <=? k) && (k <=? MAXORDINAL)) eqn:C.
  - destruct A as (r & -> & I & O). split; auto. now apply ord_nth.
  - rewrite A. split; auto. intros z Nz V. pose proof (nth_day_pos _ _ Nz). apply nth_day_ordz in Nz. destruct Nz as [W O].
    apply valid_wfd in V. destruct V as [_ V]. apply ordz_max in V; auto. lia.
Qed.
(** The difference of two dates counts the days between them, and moves one to the other. *)
Theorem C39_date_difference : forall x y n m, is_date x -> is_date y ->
  nth_day n (fields x) -> nth_day m (fields y) ->
  date_diff x y = Ok (TD ((n - m) * day_micros)) /\ date_add y (TD ((n - m) * day_micros)) = Ok x.
Proof.
  intros x y n m Hx Hy Nx Ny. apply (ord_nth x n Hx) in Nx. apply (ord_nth y m Hy) in Ny. subst.
  split; [now apply date_diff_ok|].
  pose proof (ord_bounds x Hx) as Bx. pose proof (ord_bounds y Hy) as By. unfold MAXORDINAL in *.
  pose proof (date_add_ok y (TD ((ord x - ord y) * day_micros)) Hy) as A.
  cbn [td_us] in A. specialize (A ltac:(unfold in64, min64, max64, day_micros; lia)). cbv zeta in A.
  rewrite Z.div_mul in A by (unfold day_micros; lia). replace (ord y + (ord x - ord y)) with (ord x) in A by lia.
  replace ((1 <=? ord x) && (ord x <=? MAXORDINAL)) with true in A by (unfold MAXORDINAL; lia).
  destruct A as (r & -> & I & O). f_equal. now apply ord_inj.
Qed.

(** The instant of a [datetime] in microseconds. *)
Definition at_instant (x : datetime) (n : Z) : Prop :=
  exists k, nth_day k (fields (dt_date x)) /\ n = k * day_micros + micros (tfields (dt_time x)).
Lemma at_inst x n : is_datetime x -> (at_instant x n <-> inst x = n).
Proof.
  intros H. apply is_datetime_parts in H. destruct H as [D T]. unfold at_instant, inst, tod. split.
  - intros (k & N & ->). apply (ord_nth _ _ D) in N. now subst.
  - intros <-. exists (ord (dt_date x)). split; auto. now apply ord_nth.
Qed.

Theorem C39_instant_constructor : forall y mo d h mi s us,
  match datetime_new y mo d h mi s us with
  | Ok x => fields (dt_date x) = YMD y mo d /\ tfields (dt_time x) = HMS h mi s us
            /\ valid (YMD y mo d) /\ valid_time (HMS h mi s us)
  | Raise e => e = ValueError /\ ~ (valid (YMD y mo d) /\ valid_time (HMS h mi s us))
  | _ => False
  end.
Proof.
  intros. unfold datetime_new.
  destruct (valid_time_dec (HMS h mi s us)) as [V|V].
  2: { rewrite time_new_raises by auto. cbn. tauto. }
  destruct (time_make _ V) as (t & E & It & Ft). cbn [hour minute second micro] in E. rewrite E. cbn [bind].
  pose proof (C38_constructor y mo d) as C. destruct (date_new y mo d); cbn [bind dt_date dt_time]; tauto.
Qed.

(** An instant moves by exactly the duration; OverflowError when no instant of the years 1 to
    9999 is there. *)
Theorem C39_instant_plus_duration : forall x n t, is_datetime x -> at_instant x n -> in64 (td_us t) ->
  match datetime_add x t with
  | Ok r => is_datetime r /\ at_instant r (n + td_us t)
  | Raise e => e = OverflowError /\ forall z, is_datetime z -> ~ at_instant z (n + td_us t)
  | _ => False
  end.
Proof.
  intros x n t H N T. apply (at_inst x n H) in N. subst n. pose proof (datetime_add_ok x t H T) as A. cbv zeta in A.
  set (k := inst x + td_us t) in *.
  destruct ((day_micros <=? k) && (k <? (MAXORDINAL + 1) * day_micros)) eqn:C.
  - destruct A as (r & -> & I & O). split; auto. now apply at_inst.
  - rewrite A. split; auto. intros z Iz Nz. apply (at_inst z k Iz) in Nz.
    apply is_datetime_parts in Iz. destruct Iz as [D Tm]. pose proof (ord_bounds _ D). pose proof (tod_bounds _ Tm).
    unfold inst, day_micros, MAXORDINAL in *. lia.
Qed.
Theorem C39_instant_minus_duration : forall x n t, is_datetime x -> at_instant x n -> in64 (td_us t) ->
  match datetime_sub x t with
  | Ok r => is_datetime r /\ at_instant r (n - td_us t)
  | Raise e => e = OverflowError /\ forall z, is_datetime z -> ~ at_instant z (n - td_us t)
  | _ => False
  end.
Proof.
  intros x n t H N T. apply (at_inst x n H) in N. subst n. pose proof (datetime_sub_ok x t H T) as A. cbv zeta in A.
  set (k := inst x - td_us t) in *.
  destruct ((day_micros <=? k) && (k <? (MAXORDINAL + 1) * day_micros)) eqn:C.
  - destruct A as (r & -> & I & O). split; auto. now apply at_inst.
  - rewrite A. split; auto. intros z Iz Nz. apply (at_inst z k Iz) in Nz.
    apply is_datetime_parts in Iz. destruct Iz as [D Tm]. pose proof (ord_bounds _ D). pose proof (tod_bounds _ Tm).
    unfold inst, day_micros, MAXORDINAL in *. lia.
Qed.
(** The difference of two instants is exact and moves one to the other; comparisons and
    equality are those of the instants. *)
Theorem C39_instant_difference : forall x y n m, is_datetime x -> is_datetime y ->
  at_instant x n -> at_instant y m ->
  datetime_diff x y = Ok (TD (n - m)) /\ datetime_add y (TD (n - m)) = Ok x.
Proof.
  intros x y n m Hx Hy Nx Ny. apply (at_inst x n Hx) in Nx. apply (at_inst y m Hy) in Ny. subst.
  split; [now apply datetime_diff_ok|].
  pose proof (datetime_add_ok y (TD (inst x - inst y)) Hy) as A. cbn [td_us] in A.
  pose proof Hx as Hx'. pose proof Hy as Hy'.
  apply is_datetime_parts in Hx', Hy'. destruct Hx' as [Dx Tx], Hy' as [Dy Ty].
  pose proof (ord_bounds _ Dx). pose proof (tod_bounds _ Tx). pose proof (ord_bounds _ Dy). pose proof (tod_bounds _ Ty).
  specialize (A ltac:(unfold in64, min64, max64, inst, day_micros, MAXORDINAL in *; lia)). cbv zeta in A.
  replace (inst y + (inst x - inst y)) with (inst x) in A by lia.
  replace ((day_micros <=? inst x) && (inst x <? (MAXORDINAL + 1) * day_micros)) with true in A
    by (unfold inst, day_micros, MAXORDINAL in *; lia).
  destruct A as (r & -> & I & O). f_equal. now apply inst_inj.
Qed.
Theorem C39_instant_comparisons : forall x y n m, is_datetime x -> is_datetime y ->
  at_instant x n -> at_instant y m ->
  (datetime_lt x y = true <-> n < m) /\ (datetime_le x y = true <-> n <= m)
  /\ (datetime_eq x y = true <-> n = m) /\ (n = m <-> x = y).
Proof.
  intros x y n m Hx Hy Nx Ny. apply (at_inst x n Hx) in Nx. apply (at_inst y m Hy) in Ny. subst.
  destruct (inst_cmp x y Hx Hy) as (C1 & C2 & C3). split; [exact C1|]. split; [exact C2|]. split; [exact C3|].
  split; [now apply inst_inj|congruence].
Qed.
Theorem C39_time_comparisons : forall x y, is_time x -> is_time y ->
  (time_lt x y = true <-> micros (tfields x) < micros (tfields y))
  /\ (time_le x y = true <-> micros (tfields x) <= micros (tfields y))
  /\ (time_eq x y = true <-> tfields x = tfields y).
Proof.
  intros x y Hx Hy. destruct (time_cmp x y Hx Hy) as [C1 C2]. unfold tod in *.
  unfold time_lt, time_le, time_eq. rewrite Z.ltb_lt, Z.leb_le, Z.eqb_eq. split; [lia|]. split; [lia|].
  split; [|intros E; apply C2; now rewrite E]. intros E. now rewrite (tod_inj x y Hx Hy (proj1 C2 E)).
Qed.

(** The fields of a duration: days of any sign, seconds and microseconds non-negative. *)
Theorem C39_duration_fields : forall t, in64 (td_us t) ->
  td_us t = td_days t * day_micros + td_seconds t * 1000000 + td_microseconds t
  /\ 0 <= td_seconds t < 86400 /\ 0 <= td_microseconds t < 1000000.
Proof. exact td_fields_ok. Qed.
(** A duration given in whole weeks, days, ..., microseconds is exact as long as each number
    is below 2^53 and the total fits.  Partial: Python takes any number of microseconds up to
    999999999 days exactly. *)
Theorem C39_duration_constructor_partial : forall days seconds microseconds milliseconds minutes hours weeks,
  let total := ((((weeks * 7 + days) * 24 + hours) * 60 + minutes) * 60 + seconds) * 1000000
               + milliseconds * 1000 + microseconds in
  Z.abs days < 2 ^ 53 -> Z.abs seconds < 2 ^ 53 -> Z.abs microseconds < 2 ^ 53 ->
  Z.abs milliseconds < 2 ^ 53 -> Z.abs minutes < 2 ^ 53 -> Z.abs hours < 2 ^ 53 -> Z.abs weeks < 2 ^ 53 ->
  in64 total ->
  td_new days seconds microseconds milliseconds minutes hours weeks = Ok (TD total).
Proof.
  intros d s us ms mi h w total Hd Hs Hus Hms Hmi Hh Hw H. unfold td_new, accum.
  rewrite !whole_float by auto. cbn [bind]. do 2 f_equal.
  unfold add, mul. rewrite <- (w64_id total H).
  repeat (rewrite w64_add_r || rewrite w64_add_l || rewrite <- Z.add_assoc). f_equal. unfold total. ring.
Qed.
(** Sums, differences, products with an int, opposites and absolute values of durations are
    exact when they fit. *)
Theorem C39_duration_operators : forall a b n,
  (in64 (td_us a + td_us b) -> td_us (td_add a b) = td_us a + td_us b)
  /\ (in64 (td_us a - td_us b) -> td_us (td_sub a b) = td_us a - td_us b)
  /\ (in64 (td_us a * n) -> td_us (td_mul a n) = td_us a * n)
  /\ (in64 (- td_us a) -> td_us (td_neg a) = - td_us a)
  /\ (in64 (Z.abs (td_us a)) -> td_us (td_abs a) = Z.abs (td_us a)).
Proof.
  intros a b n. unfold td_add, td_sub, td_mul, td_neg, td_abs, add, sub, mul; cbn [td_us].
  repeat split; apply w64_id.
Qed.
(** [replace] changes the given fields and keeps the others; ValueError when there is no such
    date or time.  A field given as -1 counts as not given. *)
Definition given (new old : Z) : Z := if new =? -1 then old else new.
Theorem C39_date_replace : forall x y m d, is_date x ->
  let z := YMD (given y (year (fields x))) (given m (month (fields x))) (given d (day (fields x))) in
  match date_replace x y m d with
  | Ok r => valid z /\ fields r = z
  | Raise e => e = ValueError /\ ~ valid z
  | _ => False
  end.
Proof. intros x y m d H z. exact (C38_constructor (year z) (month z) (day z)). Qed.
Theorem C39_time_replace : forall x h m s us, is_time x ->
  let z := HMS (given h (hour (tfields x))) (given m (minute (tfields x)))
               (given s (second (tfields x))) (given us (micro (tfields x))) in
  match time_replace x h m s us with
  | Ok r => valid_time z /\ tfields r = z
  | Raise e => e = ValueError /\ ~ valid_time z
  | _ => False
  end.
Proof.
  intros x h m s us H z. unfold time_replace.
  change (match time_new (hour z) (minute z) (second z) (micro z) with
          | Ok r => valid_time z /\ tfields r = z | Raise e => e = ValueError /\ ~ valid_time z | _ => False end).
  destruct (valid_time_dec z) as [V|V].
  - destruct (time_make _ V) as (t & -> & It & Ft). auto.
  - rewrite time_new_raises by auto. auto.
Qed.
(** [datetime.fromordinal(n)] is midnight of the n-th day. *)
Theorem C39_instant_fromordinal : forall n, in64 n ->
  match datetime_fromordinal n with
  | Ok x => is_datetime x /\ at_instant x (n * day_micros)
  | Raise e => e = ValueError /\ forall z, nth_day n z -> ~ valid z
  | _ => False
  end.
Proof.
  intros n H. pose proof (C38_fromordinal n H) as F. unfold datetime_fromordinal.
  destruct (date_fromordinal n) as [d|e| |]; cbn [bind]; try exact F.
  destruct F as [D N]. assert (V : valid_time (HMS 0 0 0 0)) by (unfold valid_time; cbn; lia).
  destruct (time_make _ V) as (t & E & It & Ft). cbn [hour minute second micro] in E. rewrite E. cbn [bind].
  split; [apply is_datetime_parts; auto|]. exists n. cbn [dt_date dt_time]. split; auto. rewrite Ft.
  unfold micros; cbn [hour minute second micro]. lia.
Qed.
(** The remainder of two durations has the sign of the divisor, as in Python.  Partial: not for
    divisors over 2^62 microseconds, the zero divisor, and the shortest duration modulo -1. *)
Theorem C39_duration_modulo_partial : forall a b, in64 (td_us a) -> td_us b <> 0 ->
  Z.abs (td_us b) <= 2 ^ 62 -> (td_us b <> -1 \/ td_us a <> min64) ->
  td_mod a b = Ok (TD (td_us a mod td_us b)).
Proof. exact td_mod_ok. Qed.

(** Where durations differ from Python's. *)
Theorem C39_constructor_loses_a_microsecond_refuted :
  td_new 0 0 (2 ^ 53 + 1) 0 0 0 0 = Ok (TD (2 ^ 53)).
Proof. vm_compute. reflexivity. Qed.
(** [a // b] and [a % b] do not give back [a]: the quotient is computed in floating point. *)
Theorem C39_divmod_refuted : exists a b q r, in64 (td_us a) /\ td_floordiv a b = Ok q /\ td_mod a b = Ok r
  /\ td_us a <> q * td_us b + td_us r.
Proof.
  exists (TD (2 ^ 53 + 1)), (TD 1), (2 ^ 53), (TD 0). split; [unfold in64, min64, max64; cbn; lia|].
  split; [vm_compute; reflexivity|]. split; [vm_compute; reflexivity|]. cbn. lia.
Qed.
Theorem C39_modulo_wraps_refuted : exists a b r, in64 (td_us a) /\ in64 (td_us b) /\ 0 <= td_us a < td_us b
  /\ td_mod a b = Ok r /\ td_us r <> td_us a.
Proof.
  exists (TD (2 ^ 63 - 2)), (TD (2 ^ 63 - 1)), (TD (-3)).
  split; [unfold in64, min64, max64; cbn; lia|]. split; [unfold in64, min64, max64; cbn; lia|].
  split; [cbn; lia|]. split; [vm_compute; reflexivity|]. cbn. lia.
Qed.
Theorem C39_modulo_zero_refuted : forall a, td_mod a (TD 0) = Undef.
Proof. reflexivity. Qed.
(** [timedelta // int] rounds towards zero. *)
Theorem C39_floor_division_refuted : td_floordiv_int (TD (-1)) 2 = Ok (TD 0).
Proof. reflexivity. Qed.
Theorem C39_sum_wraps_refuted : td_us (td_add (TD max64) (TD 1)) = min64.
Proof. reflexivity. Qed.

(** ** C40: ISO weeks *)
Theorem C40_isocalendar : forall x n, is_date x -> nth_day n (fields x) ->
  exists y w d, date_isocalendar x = Ok (y, w, d) /\ iso_week n y w d
    /\ date_fromisocalendar y w d = Ok x.
Proof.
  intros x n H N. apply (ord_nth x n H) in N. subst n.
  destruct (isocalendar_ok x H) as (y & w & d & E & Y & R & W & D). exists y, w, d. split; auto.
  pose proof (ord_bounds x H) as B.
  assert (I : iso_week (ord x) y w d) by (apply iso_mon; [lia|lia|auto]). split; auto.
  pose proof (fromiso_ok y w d) as F. destruct (date_fromisocalendar y w d) as [r|e| |]; try contradiction.
  - destruct F as (Ir & _ & Iw). f_equal. apply ord_inj; auto.
    pose proof (ord_bounds r Ir). apply iso_mon in I, Iw; try lia. unfold week_day in *.
    destruct (mon1_prop y) as (k & K1 & K2 & K3). 
    Z.div_mod_to_equations. lia.
  - destruct e; try contradiction. exfalso. apply F. split; auto. exists (ord x). auto.
Qed.
(** [fromisocalendar] finds the day with this ISO year, week and day, or raises ValueError when
    no day of the years 1 to 9999 has them. *)
Theorem C40_fromisocalendar : forall y w d,
  match date_fromisocalendar y w d with
  | Ok x => is_date x /\ exists n, nth_day n (fields x) /\ iso_week n y w d
  | Raise e => e = ValueError /\ forall n z, 1 <= y <= 9999 -> nth_day n z -> valid z -> ~ iso_week n y w d
  | _ => False
  end.
Proof.
  intros y w d. pose proof (fromiso_ok y w d) as F. destruct (date_fromisocalendar y w d) as [x|e| |]; try contradiction.
  - destruct F as (I & _ & W). split; auto. exists (ord x). split; auto. now apply ord_nth.
  - destruct e; try contradiction. split; auto. intros n z Hy N V I. apply F. split; auto. exists n. split; auto.
    pose proof (nth_day_pos _ _ N). apply nth_day_ordz in N. destruct N as [Wf <-].
    apply valid_wfd in V. destruct V as [_ V]. apply ordz_max in V; auto.
Qed.

(** ** C41: ISO texts *)

(** [date.fromisoformat] reads exactly the texts [isoformat] writes. *)
Theorem C41_date_text : forall s,
  match date_fromisoformat s with
  | Ok x => is_date x /\ s = date_isoformat x
  | Raise e => e = ValueError /\ forall x, is_date x -> s <> date_isoformat x
  | _ => False
  end.
Proof.
  intros s. pose proof (date_iso_inv s) as I. destruct (date_fromisoformat s) eqn:E; auto. split; auto.
  intros x Hx ->. rewrite date_iso_ok in E by auto. discriminate.
Qed.
Theorem C41_date_text_fields : forall x, is_date x -> date_isoformat x =
  decimal 4 (d_year x) ++ [45] ++ decimal 2 (d_month x) ++ [45] ++ decimal 2 (d_day x).
Proof. exact isoformat_eq. Qed.
(** Writing a time or an instant at some precision and reading it back keeps the fields down to
    that precision. *)
Theorem C41_time_text : forall x ts, is_time x ->
  exists y, time_fromisoformat (time_isoformat x ts) = Ok y /\ is_time y /\ tfields y = cut ts (tfields x).
Proof. exact time_iso_ok. Qed.
Theorem C41_instant_text : forall x sep ts, is_datetime x ->
  exists y, datetime_fromisoformat (datetime_isoformat x [sep] ts) = Ok y /\ is_datetime y
    /\ dt_date y = dt_date x /\ tfields (dt_time y) = cut ts (tfields (dt_time x)).
Proof. exact datetime_iso_ok. Qed.
Theorem C41_instant_text_exact : forall x sep, is_datetime x ->
  datetime_fromisoformat (datetime_isoformat x [sep] Auto) = Ok x.
Proof.
  intros x sep H. destruct (datetime_iso_ok x sep Auto H) as (y & E & I & D & T). rewrite E. f_equal.
  apply inst_inj; auto. unfold inst, tod. rewrite D, T. f_equal.
Qed.
(** Two texts outside the documented format HH[:MM[:SS[.fff[fff]]]] are read as times: a colon
    before the fraction ("12:34:56:123456"), and a fraction of an hour taken for
    microseconds ("12.345"). *)
Theorem C41_wrong_texts_refuted :
  (exists t, time_fromisoformat [49; 50; 58; 51; 52; 58; 53; 54; 58; 49; 50; 51; 52; 53; 54] = Ok t
             /\ tfields t = HMS 12 34 56 123456)
  /\ (exists t, time_fromisoformat [49; 50; 46; 51; 52; 53] = Ok t /\ tfields t = HMS 12 0 0 345000).
Proof. split; eexists; (split; [vm_compute; reflexivity|vm_compute; reflexivity]). Qed.

(** ** Cases *)
Example dates_exist :
  exists x, date_new 2024 2 29 = Ok x /\ is_date x /\ date_toordinal x = Ok 738945
    /\ date_weekday x = Ok 3 /\ date_isocalendar x = Ok (2024, 9, 4)
    /\ date_fromordinal 738945 = Ok x /\ date_new 2023 2 29 = Raise ValueError
    /\ date_isoformat x = [50; 48; 50; 52; 45; 48; 50; 45; 50; 57].
Proof.
  eexists. split; [vm_compute; reflexivity|]. split; [now exists 2024, 2, 29|]. repeat (apply conj; [vm_compute; reflexivity|]). vm_compute; reflexivity.
Qed.
Example instants_exist :
  exists x y t, datetime_new 1999 12 31 23 59 59 999999 = Ok x /\ is_datetime x
    /\ td_new 0 0 1 0 0 0 0 = Ok t /\ datetime_add x t = Ok y /\ datetime_new 2000 1 1 0 0 0 0 = Ok y.
Proof.
  do 3 eexists. split; [vm_compute; reflexivity|]. split; [now exists 1999, 12, 31, 23, 59, 59, 999999|].
  repeat (apply conj; [vm_compute; reflexivity|]). vm_compute; reflexivity.
Qed.
Example overflow_exists :
  exists x, date_new 9999 12 31 = Ok x /\ date_add x (TD day_micros) = Raise OverflowError
    /\ date_fromisocalendar 9999 52 6 = Raise ValueError /\ date_fromordinal 0 = Raise ValueError.
Proof. eexists. repeat (apply conj; [vm_compute; reflexivity|]). vm_compute; reflexivity. Qed.

Print Assumptions C38_constructor.
Print Assumptions C38_fromordinal.
Print Assumptions C38_toordinal.
Print Assumptions C38_comparisons.
Print Assumptions C38_weekday.
Print Assumptions C39_date_plus_duration.
Print Assumptions C39_date_minus_duration.
Print Assumptions C39_date_difference.
Print Assumptions C39_instant_constructor.
Print Assumptions C39_instant_plus_duration.
Print Assumptions C39_instant_minus_duration.
Print Assumptions C39_instant_difference.
Print Assumptions C39_instant_comparisons.
Print Assumptions C39_time_comparisons.
Print Assumptions C39_duration_fields.
Print Assumptions C39_duration_constructor_partial.
Print Assumptions C39_duration_modulo_partial.
Print Assumptions C39_duration_operators.
Print Assumptions C39_date_replace.
Print Assumptions C39_time_replace.
Print Assumptions C39_instant_fromordinal.
Print Assumptions C40_isocalendar.
Print Assumptions C40_fromisocalendar.
Print Assumptions C41_date_text.
Print Assumptions C41_time_text.
Print Assumptions C41_instant_text.
Print Assumptions C41_instant_text_exact.
