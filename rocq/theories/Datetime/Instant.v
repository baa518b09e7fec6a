(** Times of day, instants and their comparisons; the operators of [timedelta]. *)
From Coq Require Import List ZArith Lia Bool.
From Verif.Common Require Import Result Int64 Tac.
From Verif.Datetime Require Import Model Proofs Arith.
From Verif.Datetime Require Spec.
Import ListNotations.
Local Open Scope Z_scope.
Local Open Scope res_scope.

Ltac Zify.zify_post_hook ::= Z.to_euclidean_division_equations.

(** ** Comparing dates *)
Lemma date_cmp x y : is_date x -> is_date y ->
  (d_value x < d_value y <-> ord x < ord y) /\ (d_value x = d_value y <-> ord x = ord y).
Proof.
  intros Hx Hy.
  assert (V : d_value x = d_value y <-> ord x = ord y).
  { split; intros E.
    - destruct x, y; cbn in E; subst; reflexivity.
    - now rewrite (ord_inj x y). }
  split; auto.
  pose proof (earlier_iff _ _ (is_date_wfd x Hx) (is_date_wfd y Hy)) as EI.
  fold (ord x) (ord y) in EI. rewrite <- EI.
  rewrite (is_date_pack x Hx), (is_date_pack y Hy). unfold pack, Spec.earlier, fields.
  cbn [Spec.year Spec.month Spec.day].
  pose proof (date_day_bound x Hx). pose proof (date_day_bound y Hy).
  destruct (is_date_valid x Hx) as (_ & Mx & _), (is_date_valid y Hy) as (_ & My & _).
  unfold fields in *; cbn [Spec.month] in *. lia.
Qed.

(** ** Times of day *)
Definition tfields (x : time) : Spec.hms := Spec.HMS (t_hour x) (t_minute x) (t_second x) (t_microsecond x).
Definition is_time (x : time) : Prop := exists h m s us, time_new h m s us = Ok x.

Definition tpack (h m s us : Z) : Z := h * 2 ^ 40 + m * 2 ^ 32 + s * 2 ^ 24 + us.
Lemma tpack_eq h m s us : 0 <= h < 256 -> 0 <= m < 256 -> 0 <= s < 256 -> 0 <= us < 2 ^ 24 ->
  Z.lor (Z.lor (Z.lor (w64 (Z.shiftl h 40)) (w64 (Z.shiftl m 32))) (w64 (Z.shiftl s 24))) us = tpack h m s us.
Proof.
  intros Hh Hm Hs Hu.
  rewrite !w64_id by (rewrite Z.shiftl_mul_pow2 by lia; unfold in64, min64, max64; lia).
  rewrite (lor_add h); [|rewrite Z.shiftl_mul_pow2 by lia; lia|lia].
  rewrite (Z.shiftl_mul_pow2 m) by lia.
  replace (h * 2 ^ 40 + m * 2 ^ 32) with (Z.shiftl (h * 256 + m) 32) by (rewrite Z.shiftl_mul_pow2 by lia; lia).
  rewrite lor_add; [|rewrite Z.shiftl_mul_pow2 by lia; lia|lia].
  rewrite Z.shiftl_mul_pow2 by lia.
  replace ((h * 256 + m) * 2 ^ 32 + s * 2 ^ 24) with (Z.shiftl ((h * 256 + m) * 256 + s) 24) by (rewrite Z.shiftl_mul_pow2 by lia; lia).
  rewrite lor_add by lia. unfold tpack. lia.
Qed.
Lemma land_24 v : Z.land v 16777215 = v mod 2 ^ 24.
Proof. change 16777215 with (Z.ones 24). apply Z.land_ones. lia. Qed.
Lemma tpack_fields h m s us : 0 <= h < 256 -> 0 <= m < 256 -> 0 <= s < 256 -> 0 <= us < 2 ^ 24 ->
  tfields (Time (tpack h m s us)) = Spec.HMS h m s us.
Proof.
  intros. unfold tfields, t_hour, t_minute, t_second, t_microsecond; cbn [t_value].
  rewrite !land_255, land_24, !Z.shiftr_div_pow2 by lia. unfold tpack. f_equal; lia.
Qed.
Lemma valid_time_dec t : {Spec.valid_time t} + {~ Spec.valid_time t}.
Proof.
  unfold Spec.valid_time.
  destruct (Z_le_dec 0 (Spec.hour t)), (Z_le_dec (Spec.hour t) 23),
    (Z_le_dec 0 (Spec.minute t)), (Z_le_dec (Spec.minute t) 59),
    (Z_le_dec 0 (Spec.second t)), (Z_le_dec (Spec.second t) 59),
    (Z_le_dec 0 (Spec.micro t)), (Z_le_dec (Spec.micro t) 999999);
    (left; lia) || (right; lia).
Qed.
Lemma time_new_ok h m s us : Spec.valid_time (Spec.HMS h m s us) -> time_new h m s us = Ok (Time (tpack h m s us)).
Proof.
  unfold Spec.valid_time; cbn [Spec.hour Spec.minute Spec.second Spec.micro]. intros H.
  unfold time_new, check_time_args.
  replace ((0 <=? h) && (h <=? 23)) with true by lia.
  replace ((0 <=? m) && (m <=? 59)) with true by lia.
  replace ((0 <=? s) && (s <=? 59)) with true by lia.
  replace ((0 <=? us) && (us <=? 999999)) with true by lia. cbn [negb bind].
  now rewrite tpack_eq by lia.
Qed.
Lemma time_new_raises h m s us : ~ Spec.valid_time (Spec.HMS h m s us) -> time_new h m s us = Raise ValueError.
Proof.
  unfold Spec.valid_time; cbn [Spec.hour Spec.minute Spec.second Spec.micro]. intros H.
  unfold time_new, check_time_args.
  destruct ((0 <=? h) && (h <=? 23)) eqn:A; [|reflexivity].
  destruct ((0 <=? m) && (m <=? 59)) eqn:B; [|reflexivity].
  destruct ((0 <=? s) && (s <=? 59)) eqn:C; [|reflexivity].
  destruct ((0 <=? us) && (us <=? 999999)) eqn:D; [lia|reflexivity].
Qed.
Lemma time_new_fields h m s us x : time_new h m s us = Ok x ->
  Spec.valid_time (Spec.HMS h m s us) /\ x = Time (tpack h m s us) /\ tfields x = Spec.HMS h m s us.
Proof.
  intros H. destruct (valid_time_dec (Spec.HMS h m s us)) as [V|V].
  - rewrite (time_new_ok _ _ _ _ V) in H. injection H as <-. split; auto. split; auto.
    unfold Spec.valid_time in V; cbn [Spec.hour Spec.minute Spec.second Spec.micro] in V. apply tpack_fields; lia.
  - now rewrite (time_new_raises _ _ _ _ V) in H.
Qed.
Lemma is_time_valid x : is_time x -> Spec.valid_time (tfields x).
Proof. intros (h & m & s & us & H). apply time_new_fields in H. destruct H as (V & _ & ->). exact V. Qed.
Lemma is_time_pack x : is_time x -> t_value x = tpack (t_hour x) (t_minute x) (t_second x) (t_microsecond x).
Proof.
  intros (h & m & s & us & H). apply time_new_fields in H. destruct H as (V & -> & F).
  injection F as -> -> -> ->. reflexivity.
Qed.
Definition tod (x : time) : Z := Spec.micros (tfields x).
Lemma time_cmp x y : is_time x -> is_time y ->
  (t_value x < t_value y <-> tod x < tod y) /\ (t_value x = t_value y <-> tod x = tod y).
Proof.
  intros Hx Hy. rewrite (is_time_pack x Hx), (is_time_pack y Hy).
  pose proof (is_time_valid x Hx) as Vx. pose proof (is_time_valid y Hy) as Vy.
  unfold Spec.valid_time, tod, Spec.micros, tfields, tpack in *.
  cbn [Spec.hour Spec.minute Spec.second Spec.micro] in *. lia.
Qed.
Lemma tod_inj x y : is_time x -> is_time y -> tod x = tod y -> x = y.
Proof.
  intros Hx Hy E. apply (proj2 (time_cmp x y Hx Hy)) in E. destruct x, y; cbn in E. congruence.
Qed.
Lemma tod_bounds x : is_time x -> 0 <= tod x < Spec.day_micros.
Proof.
  intros Hx. apply is_time_valid in Hx. unfold Spec.valid_time, tod, Spec.micros, Spec.day_micros in *. lia.
Qed.

(** ** Instants *)
Definition is_datetime (x : datetime) : Prop := exists y mo d h mi s us, datetime_new y mo d h mi s us = Ok x.
Lemma is_datetime_parts x : is_datetime x <-> is_date (dt_date x) /\ is_time (dt_time x).
Proof.
  split.
  - intros (y & mo & d & h & mi & s & us & H). unfold datetime_new in H.
    destruct (time_new h mi s us) as [t| | |] eqn:T; try discriminate. cbn [bind] in H.
    destruct (date_new y mo d) as [dd| | |] eqn:D; try discriminate. cbn [bind] in H. injection H as <-.
    cbn [dt_date dt_time]. split; [now exists y, mo, d|now exists h, mi, s, us].
  - intros ((y & mo & d & D) & (h & mi & s & us & T)). exists y, mo, d, h, mi, s, us.
    unfold datetime_new. rewrite T, D. destruct x; reflexivity.
Qed.
(** Microseconds since the midnight before day 0. *)
Definition inst (x : datetime) : Z := ord (dt_date x) * Spec.day_micros + tod (dt_time x).
Lemma inst_inj x y : is_datetime x -> is_datetime y -> inst x = inst y -> x = y.
Proof.
  intros Hx Hy E. apply is_datetime_parts in Hx, Hy. destruct Hx as [Dx Tx], Hy as [Dy Ty].
  pose proof (tod_bounds _ Tx). pose proof (tod_bounds _ Ty). unfold inst, Spec.day_micros in *.
  assert (ord (dt_date x) = ord (dt_date y)) by lia.
  assert (tod (dt_time x) = tod (dt_time y)) by lia.
  apply (ord_inj _ _ Dx Dy) in H1. apply (tod_inj _ _ Tx Ty) in H2. destruct x, y; cbn in *. congruence.
Qed.
Lemma inst_cmp x y : is_datetime x -> is_datetime y ->
  (datetime_lt x y = true <-> inst x < inst y) /\ (datetime_le x y = true <-> inst x <= inst y)
  /\ (datetime_eq x y = true <-> inst x = inst y).
Proof.
  intros Hx Hy. apply is_datetime_parts in Hx, Hy. destruct Hx as [Dx Tx], Hy as [Dy Ty].
  pose proof (tod_bounds _ Tx). pose proof (tod_bounds _ Ty).
  destruct (date_cmp _ _ Dx Dy) as [D1 D2], (time_cmp _ _ Tx Ty) as [T1 T2].
  unfold datetime_lt, datetime_le, datetime_eq, date_eq, date_lt, date_le, time_lt, time_le, time_eq, inst, Spec.day_micros in *.
  destruct (Z.eqb_spec (d_value (dt_date x)) (d_value (dt_date y))) as [E|E]; cbn [andb].
  - assert (ord (dt_date x) = ord (dt_date y)) by tauto. rewrite Z.ltb_lt, Z.leb_le, Z.eqb_eq. lia.
  - assert (ord (dt_date x) <> ord (dt_date y)) by tauto.
    rewrite Z.ltb_lt, Z.leb_le. split; [|split; [|split; [discriminate|]]]; lia.
Qed.

Lemma normalize_dt y m d h mi s us : 0 <= h <= 23 -> 0 <= mi <= 59 -> - 10 ^ 6 <= s <= 10 ^ 6 ->
  - 10 ^ 7 <= us <= 10 ^ 7 -> - 10 ^ 10 <= d <= 10 ^ 10 ->
  exists h' mi' s' us', Spec.valid_time (Spec.HMS h' mi' s' us') /\
    let t := ((h * 60 + mi) * 60 + s) * 1000000 + us in
    Spec.micros (Spec.HMS h' mi' s' us') = t mod Spec.day_micros /\
    normalize_datetime y m d h mi s us
    = (ymd <- normalize_y_m_d y m (d + t / Spec.day_micros) ;; Ok (ymd, (h', mi', s', us'))).
Proof.
  intros Hh Hmi Hs Hu Hd.
  remember (us mod 1000000) as us' eqn:Eu. remember (us / 1000000) as c1 eqn:E1.
  assert (U : us = 1000000 * c1 + us' /\ 0 <= us' < 1000000) by lia.
  remember ((s + c1) mod 60) as s' eqn:Es. remember ((s + c1) / 60) as c2 eqn:E2.
  assert (S : s + c1 = 60 * c2 + s' /\ 0 <= s' < 60) by lia.
  remember ((mi + c2) mod 60) as mi' eqn:Em. remember ((mi + c2) / 60) as c3 eqn:E3.
  assert (M : mi + c2 = 60 * c3 + mi' /\ 0 <= mi' < 60) by lia.
  remember ((h + c3) mod 24) as h' eqn:Eh. remember ((h + c3) / 24) as c4 eqn:E4.
  assert (H : h + c3 = 24 * c4 + h' /\ 0 <= h' < 24) by lia.
  exists h', mi', s', us'.
  split; [unfold Spec.valid_time; cbn [Spec.hour Spec.minute Spec.second Spec.micro]; lia|].
  cbv zeta. unfold Spec.day_micros, Spec.micros; cbn [Spec.hour Spec.minute Spec.second Spec.micro].
  assert (T : ((h * 60 + mi) * 60 + s) * 1000000 + us
              = 86400000000 * c4 + (((h' * 60 + mi') * 60 + s') * 1000000 + us')) by lia.
  change (24 * 60 * 60 * 1000000) with 86400000000.
  split; [rewrite T; lia|].
  replace ((((h * 60 + mi) * 60 + s) * 1000000 + us) / 86400000000) with c4 by (rewrite T; lia).
  unfold normalize_datetime.
  rewrite normalize_pair_ok by (unfold in64, min64, max64; lia). rewrite <- E1, <- Eu.
  rewrite normalize_pair_ok by (unfold in64, min64, max64; lia). rewrite <- E2, <- Es.
  rewrite normalize_pair_ok by (unfold in64, min64, max64; lia). rewrite <- E3, <- Em.
  rewrite normalize_pair_ok by (unfold in64, min64, max64; lia). rewrite <- E4, <- Eh.
  reflexivity.
Qed.

Lemma move_instant x dd ds du : is_datetime x -> - 10 ^ 8 * 2 <= dd <= 10 ^ 8 * 2 -> - 86400 < ds < 86400 ->
  - 1000000 < du < 1000000 ->
  let n := inst x + dd * Spec.day_micros + ds * 1000000 + du in
  let r := r <- normalize_datetime (d_year (dt_date x)) (d_month (dt_date x)) (d_day (dt_date x) + dd)
                  (t_hour (dt_time x)) (t_minute (dt_time x)) (t_second (dt_time x) + ds)
                  (t_microsecond (dt_time x) + du) ;;
           datetime_of r in
  if (Spec.day_micros <=? n) && (n <? (MAXORDINAL + 1) * Spec.day_micros)
  then exists y, r = Ok y /\ is_datetime y /\ inst y = n
  else r = Raise OverflowError.
Proof.
  intros Hx Hdd Hds Hdu n r. pose proof Hx as Hx'. apply is_datetime_parts in Hx. destruct Hx as [Dx Tx].
  pose proof (is_time_valid _ Tx) as V. unfold Spec.valid_time, tfields in V.
  cbn [Spec.hour Spec.minute Spec.second Spec.micro] in V.
  pose proof (date_day_bound _ Dx) as DB.
  destruct (normalize_dt (d_year (dt_date x)) (d_month (dt_date x)) (d_day (dt_date x) + dd)
              (t_hour (dt_time x)) (t_minute (dt_time x)) (t_second (dt_time x) + ds)
              (t_microsecond (dt_time x) + du)) as (h' & mi' & s' & us' & V' & T & E); try lia.
  cbv zeta in T, E. subst r. rewrite E. clear E.
  set (t := ((t_hour (dt_time x) * 60 + t_minute (dt_time x)) * 60 + (t_second (dt_time x) + ds)) * 1000000
            + (t_microsecond (dt_time x) + du)) in *.
  assert (Et : t = tod (dt_time x) + ds * 1000000 + du).
  { subst t. unfold tod, Spec.micros, tfields. cbn [Spec.hour Spec.minute Spec.second Spec.micro]. lia. }
  pose proof (tod_bounds _ Tx) as TB.
  assert (En : n = (ord (dt_date x) + (dd + t / Spec.day_micros)) * Spec.day_micros + t mod Spec.day_micros).
  { subst n. unfold inst. unfold Spec.day_micros in *. lia. }
  rewrite <- (Z.add_assoc (d_day (dt_date x))).
  pose proof (move_ok (dt_date x) (dd + t / Spec.day_micros) Dx) as M. cbv zeta in M.
  specialize (M ltac:(unfold Spec.day_micros in *; lia)).
  set (k := ord (dt_date x) + (dd + t / Spec.day_micros)) in *.
  assert (C : (Spec.day_micros <=? n) && (n <? (MAXORDINAL + 1) * Spec.day_micros) = (1 <=? k) && (k <=? MAXORDINAL)).
  { rewrite En. unfold Spec.day_micros, MAXORDINAL. clearbody k t. apply eq_true_iff_eq. rewrite !andb_true_iff. lia. }
  rewrite C. destruct ((1 <=? k) && (k <=? MAXORDINAL)).
  - destruct M as (rd & Er & Ir & Or). rewrite Er. cbn [bind datetime_of].
    unfold datetime_new. rewrite time_new_ok by auto. rewrite remake by auto. cbn [bind].
    exists (DT (Time (tpack h' mi' s' us')) rd).
    assert (It : is_time (Time (tpack h' mi' s' us'))).
    { exists h', mi', s', us'. now apply time_new_ok. }
    split; auto. split; [apply is_datetime_parts; auto|].
    unfold inst; cbn [dt_date dt_time]. rewrite Or, En. f_equal. unfold tod.
    assert (tfields (Time (tpack h' mi' s' us')) = Spec.HMS h' mi' s' us') as ->; [|exact T].
    unfold Spec.valid_time in V'; cbn [Spec.hour Spec.minute Spec.second Spec.micro] in V'. apply tpack_fields; lia.
  - rewrite M. reflexivity.
Qed.

Lemma datetime_add_ok x t : is_datetime x -> in64 (td_us t) ->
  let n := inst x + td_us t in
  if (Spec.day_micros <=? n) && (n <? (MAXORDINAL + 1) * Spec.day_micros)
  then exists y, datetime_add x t = Ok y /\ is_datetime y /\ inst y = n
  else datetime_add x t = Raise OverflowError.
Proof.
  intros Hx Ht n. unfold datetime_add. rewrite normalize_dsu by auto.
  pose proof Hx as Hx'. apply is_datetime_parts in Hx'. destruct Hx' as [Dx Tx].
  pose proof (is_time_valid _ Tx) as V. unfold Spec.valid_time, tfields in V.
  cbn [Spec.hour Spec.minute Spec.second Spec.micro] in V.
  pose proof (date_day_bound _ Dx) as DB.
  set (us := td_us t) in *. unfold in64, min64, max64 in Ht.
  remember (us / Spec.day_micros) as dd eqn:Ed. remember (us mod Spec.day_micros / 1000000) as ds eqn:Es.
  remember (us mod 1000000) as du eqn:Eu.
  assert (E : us = dd * Spec.day_micros + ds * 1000000 + du /\ 0 <= ds < 86400 /\ 0 <= du < 1000000
              /\ - 10 ^ 8 * 2 <= dd <= 10 ^ 8 * 2) by (unfold Spec.day_micros in *; lia).
  clear Ed Es Eu.
  unfold add. rewrite !w64_id by (unfold in64, min64, max64; lia).
  pose proof (move_instant x dd ds du Hx ltac:(lia) ltac:(lia) ltac:(lia)) as M. cbv zeta in M.
  replace (inst x + dd * Spec.day_micros + ds * 1000000 + du) with n in M by (subst n; lia). exact M.
Qed.
Lemma datetime_sub_ok x t : is_datetime x -> in64 (td_us t) ->
  let n := inst x - td_us t in
  if (Spec.day_micros <=? n) && (n <? (MAXORDINAL + 1) * Spec.day_micros)
  then exists y, datetime_sub x t = Ok y /\ is_datetime y /\ inst y = n
  else datetime_sub x t = Raise OverflowError.
Proof.
  intros Hx Ht n. unfold datetime_sub. rewrite normalize_dsu by auto.
  pose proof Hx as Hx'. apply is_datetime_parts in Hx'. destruct Hx' as [Dx Tx].
  pose proof (is_time_valid _ Tx) as V. unfold Spec.valid_time, tfields in V.
  cbn [Spec.hour Spec.minute Spec.second Spec.micro] in V.
  pose proof (date_day_bound _ Dx) as DB.
  set (us := td_us t) in *. unfold in64, min64, max64 in Ht.
  remember (us / Spec.day_micros) as dd eqn:Ed. remember (us mod Spec.day_micros / 1000000) as ds eqn:Es.
  remember (us mod 1000000) as du eqn:Eu.
  assert (E : us = dd * Spec.day_micros + ds * 1000000 + du /\ 0 <= ds < 86400 /\ 0 <= du < 1000000
              /\ - 10 ^ 8 * 2 <= dd <= 10 ^ 8 * 2) by (unfold Spec.day_micros in *; lia).
  clear Ed Es Eu.
  unfold sub. rewrite !w64_id by (unfold in64, min64, max64; lia).
  pose proof (move_instant x (- dd) (- ds) (- du) Hx ltac:(lia) ltac:(lia) ltac:(lia)) as M. cbv zeta in M.
  replace (inst x + - dd * Spec.day_micros + - ds * 1000000 + - du) with n in M by (subst n; lia).
  rewrite !Z.add_opp_r in M. exact M.
Qed.

Lemma datetime_diff_ok x y : is_datetime x -> is_datetime y -> datetime_diff x y = Ok (TD (inst x - inst y)).
Proof.
  intros Hx Hy. apply is_datetime_parts in Hx, Hy. destruct Hx as [Dx Tx], Hy as [Dy Ty].
  unfold datetime_diff. rewrite !toordinal_ok by auto. cbn [bind].
  pose proof (ord_bounds _ Dx). pose proof (ord_bounds _ Dy). unfold MAXORDINAL in *.
  pose proof (is_time_valid _ Tx) as Vx. pose proof (is_time_valid _ Ty) as Vy.
  unfold inst, tod, Spec.micros, Spec.valid_time, tfields in *.
  cbn [Spec.hour Spec.minute Spec.second Spec.micro] in *. nw.
  rewrite td_new_ok by (unfold Spec.day_micros, in64, min64, max64; lia). do 2 f_equal. lia.
Qed.

(** ** Operators of [timedelta] *)
Lemma td_fields_ok t : in64 (td_us t) ->
  td_us t = td_days t * Spec.day_micros + td_seconds t * 1000000 + td_microseconds t
  /\ 0 <= td_seconds t < 86400 /\ 0 <= td_microseconds t < 1000000.
Proof.
  intros H. unfold td_days, td_seconds, td_microseconds. rewrite normalize_dsu by auto. unfold Spec.day_micros. lia.
Qed.
Lemma td_mod_ok a b : in64 (td_us a) -> td_us b <> 0 -> Z.abs (td_us b) <= 2 ^ 62 -> (td_us b <> -1 \/ td_us a <> min64) ->
  td_mod a b = Ok (TD (td_us a mod td_us b)).
Proof.
  intros Ha Hb Hb2 Hb1. unfold td_mod, Int64.srem.
  replace ((td_us b =? 0) || ((td_us a =? min64) && (td_us b =? -1))) with false by lia. cbn [bind].
  set (n := td_us a) in *. set (M := td_us b) in *.
  pose proof (Z.quot_rem' n M) as Q. pose proof (Z.rem_bound_abs n M Hb) as R.
  set (r := Z.rem n M) in *.
  assert (A : add r M = r + M) by (unfold add; rewrite w64_id; auto; unfold in64, min64, max64; lia).
  rewrite A.
  replace ((M =? 0) || ((r + M =? min64) && (M =? -1))) with false by (unfold min64 in *; lia). cbn [bind].
  do 2 f_equal.
  pose proof (Z.quot_rem' (r + M) M) as Q2. pose proof (Z.rem_bound_abs (r + M) M Hb) as R2.
  pose proof (Z.rem_sign_nz (r + M) M Hb) as Sg.
  set (r2 := Z.rem (r + M) M) in *. set (q2 := Z.quot (r + M) M) in *. set (q := Z.quot n M) in *.
  apply Z.mod_unique with (q := q + q2 - 1).
  - destruct (Z_lt_le_dec M 0).
    + right. assert (r + M <= 0) by lia.
      split; [lia|]. destruct (Z.eq_dec r2 0); [lia|]. specialize (Sg n0). lia.
    + left. assert (0 <= r + M) by lia.
      split; [|lia]. destruct (Z.eq_dec r2 0); [lia|]. specialize (Sg n0). lia.
  - rewrite Z.mul_sub_distr_l, Z.mul_add_distr_l. clearbody r2 q2 r q. lia.
Qed.
