(** Texts of dates and times, and reading them back. *)
From Coq Require Import List ZArith Lia Bool.
From Verif.Common Require Import Result Int64 Tac.
From Verif.Datetime Require Import Model Proofs Arith Instant.
From Verif.Datetime Require Spec.
Import ListNotations.
Local Open Scope Z_scope.
Local Open Scope res_scope.

Ltac Zify.zify_post_hook ::= Z.to_euclidean_division_equations.

Ltac rng := cbn [Z.of_nat Pos.of_succ_nat Pos.succ]; lia.

(** ** Writing numbers *)
Lemma digits_acc f : forall n acc, digits f n acc = digits f n [] ++ acc.
Proof.
  induction f as [|f IH]; intros n acc; cbn [digits]; auto.
  destruct (n <? 10); auto. rewrite (IH _ (_ :: acc)), (IH _ [_]). now rewrite <- app_assoc.
Qed.
Lemma decimal_0 k : Spec.decimal k 0 = repeat 48 k.
Proof.
  induction k as [|k IH]; cbn [Spec.decimal repeat]; auto. change (0 / 10) with 0. change (48 + 0 mod 10) with 48.
  rewrite IH. clear IH. induction k; cbn; auto. now f_equal.
Qed.
Lemma decimal_length k : forall n, length (Spec.decimal k n) = k.
Proof. induction k as [|k IH]; intros n; cbn [Spec.decimal]; auto. rewrite app_length, IH. cbn; lia. Qed.
Lemma zfill_digits f : forall k n, (1 <= k)%nat -> (k <= f)%nat -> 0 <= n < 10 ^ Z.of_nat k ->
  zfill (digits f n []) k = Spec.decimal k n.
Proof.
  induction f as [|f IH]; intros k n Hk Hf Hn; [lia|].
  destruct k as [|k]; [lia|]. cbn [digits Spec.decimal].
  destruct (n <? 10) eqn:E.
  - unfold zfill. cbn [length]. replace (n / 10) with 0 by lia. rewrite decimal_0.
    replace (S k - 1)%nat with k by lia. reflexivity.
  - rewrite digits_acc. destruct k as [|k]; [cbn in Hn; lia|].
    rewrite <- (IH (S k) (n / 10)); [|lia|lia|].
    + unfold zfill. rewrite app_length. cbn [length].
      replace (S (S k) - (length (digits f (n / 10) []) + 1))%nat with (S k - length (digits f (n / 10) []))%nat by lia.
      now rewrite app_assoc.
    + rewrite (Nat2Z.inj_succ (S k)), Z.pow_succ_r in Hn by lia. lia.
Qed.
Lemma zfill_ok k n : (1 <= k <= 20)%nat -> 0 <= n < 10 ^ Z.of_nat k -> zfill (str_of n) k = Spec.decimal k n.
Proof. intros Hk Hn. apply zfill_digits; auto; lia. Qed.

(** ** Reading numbers *)
Definition is_digit (c : Z) : Prop := 48 <= c <= 57.
Definition value (l : list Z) (v : Z) : Z := fold_left (fun v c => v * 10 + (c - 48)) l v.
Lemma decimal_digits k : forall n, Forall is_digit (Spec.decimal k n).
Proof.
  induction k as [|k IH]; intros n; cbn [Spec.decimal]; [constructor|].
  apply Forall_app. split; auto. constructor; [|constructor]. unfold is_digit. lia.
Qed.
Lemma decimal_value k : forall n, 0 <= n < 10 ^ Z.of_nat k -> value (Spec.decimal k n) 0 = n.
Proof.
  induction k as [|k IH]; intros n H; cbn [Spec.decimal].
  - cbn in *. lia.
  - rewrite Nat2Z.inj_succ, Z.pow_succ_r in H by lia. unfold value. rewrite fold_left_app. cbn [fold_left].
    fold (value (Spec.decimal k (n / 10)) 0). rewrite IH by lia. lia.
Qed.
Lemma parse_loop_digits l rest : Forall is_digit l -> forall v,
  parse_loop (length l) (l ++ rest) v = (rest, value l v).
Proof.
  induction 1 as [|c l Hc Hl IH]; intros v; cbn [length app parse_loop]; auto.
  unfold is_digit in Hc. replace (negb ((0 <=? c - 48) && (c - 48 <=? 9))) with false by lia.
  rewrite IH. reflexivity.
Qed.
Lemma parse_decimal k n rest : 0 <= n < 10 ^ Z.of_nat k -> parse_digits (Spec.decimal k n ++ rest) k = (rest, n).
Proof.
  intros H. unfold parse_digits. rewrite app_length, decimal_length.
  replace (k + length rest <? k)%nat with false by (symmetry; apply Nat.ltb_ge; lia).
  pose proof (parse_loop_digits (Spec.decimal k n) rest (decimal_digits k n) 0) as P.
  rewrite decimal_length in P. rewrite P. now rewrite decimal_value.
Qed.
(** What was read. *)
Lemma value_bound l : Forall is_digit l -> 0 <= value l 0 < 10 ^ Z.of_nat (length l).
Proof.
  induction l as [|c l IH] using rev_ind; intros H; [cbn; lia|].
  apply Forall_app in H. destruct H as [H1 H2]. inversion H2 as [|? ? Hc _]; subst. unfold is_digit in Hc.
  specialize (IH H1). unfold value in *. rewrite fold_left_app, app_length. cbn [fold_left length].
  replace (Z.of_nat (length l + 1)) with (Z.succ (Z.of_nat (length l))) by lia. rewrite Z.pow_succ_r by lia. lia.
Qed.
Lemma decimal_of_value l : Forall is_digit l -> Spec.decimal (length l) (value l 0) = l.
Proof.
  induction l as [|c l IH] using rev_ind; intros H; [reflexivity|].
  apply Forall_app in H. destruct H as [H1 H2]. inversion H2 as [|? ? Hc _]; subst. unfold is_digit in Hc.
  specialize (IH H1). rewrite app_length. cbn [length]. rewrite Nat.add_1_r. cbn [Spec.decimal].
  unfold value. rewrite fold_left_app. cbn [fold_left]. fold (value l 0).
  replace ((value l 0 * 10 + (c - 48)) / 10) with (value l 0) by lia. rewrite IH. do 2 f_equal. lia.
Qed.
Lemma parse_loop_inv k : forall p v rest r, 0 <= v -> parse_loop k p v = (rest, r) -> 0 <= r ->
  exists l, p = l ++ rest /\ length l = k /\ Forall is_digit l /\ r = value l v.
Proof.
  induction k as [|k IH]; intros p v rest r Hv H Hr; cbn [parse_loop] in H.
  - injection H as -> ->. exists []. repeat (split; auto).
  - destruct p as [|c p]; [injection H as <- <-; lia|].
    destruct (negb ((0 <=? c - 48) && (c - 48 <=? 9))) eqn:E; [injection H as <- <-; lia|].
    destruct (IH p (v * 10 + (c - 48)) rest r ltac:(lia) H Hr) as (l & -> & L & F & ->).
    exists (c :: l). split; auto. split; [cbn; lia|]. split; auto. constructor; auto. unfold is_digit. lia.
Qed.
Lemma parse_digits_inv s k rest r : parse_digits s k = (rest, r) -> 0 <= r ->
  s = Spec.decimal k r ++ rest /\ 0 <= r < 10 ^ Z.of_nat k.
Proof.
  unfold parse_digits. destruct (length s <? k)%nat; [intros [= <- <-]; lia|].
  intros H Hr. destruct (parse_loop_inv k s 0 rest r ltac:(lia) H Hr) as (l & -> & L & F & ->).
  rewrite <- L. split; [now rewrite decimal_of_value|]. now apply value_bound.
Qed.

(** ** Dates *)
Lemma isoformat_eq x : is_date x -> date_isoformat x =
  Spec.decimal 4 (d_year x) ++ c_dash :: Spec.decimal 2 (d_month x) ++ c_dash :: Spec.decimal 2 (d_day x).
Proof.
  intros H. pose proof (is_date_valid x H) as (Hy & Hm & _). pose proof (date_day_bound x H).
  unfold fields in *; cbn [Spec.year Spec.month] in *. unfold date_isoformat.
  rewrite !zfill_ok by rng. reflexivity.
Qed.
Lemma expect_cons c p : expect c (c :: p) = Ok p.
Proof. unfold expect. now rewrite Z.eqb_refl. Qed.
Lemma expect_inv c s p : expect c s = Ok p -> s = c :: p.
Proof. destruct s as [|x s]; cbn; try discriminate. destruct (Z.eqb_spec x c); try discriminate. congruence. Qed.

Lemma parse_date_ok y m d : 0 <= y < 10000 -> 0 <= m < 100 -> 0 <= d < 100 ->
  parse_isoformat_date (Spec.decimal 4 y ++ c_dash :: Spec.decimal 2 m ++ c_dash :: Spec.decimal 2 d) = Ok (y, m, d).
Proof.
  intros Hy Hm Hd. unfold parse_isoformat_date. rewrite (parse_decimal 4) by rng.
  replace (y <? 0) with false by lia. rewrite expect_cons. cbn [bind].
  rewrite (parse_decimal 2) by rng. replace (m <? 0) with false by lia. rewrite expect_cons. cbn [bind].
  rewrite <- (app_nil_r (Spec.decimal 2 d)), (parse_decimal 2) by rng. replace (d <? 0) with false by lia.
  reflexivity.
Qed.
Lemma parse_date_inv s : match parse_isoformat_date s with
  | Ok (y, m, d) => s = Spec.decimal 4 y ++ c_dash :: Spec.decimal 2 m ++ c_dash :: Spec.decimal 2 d
                    /\ 0 <= y < 10000 /\ 0 <= m < 100 /\ 0 <= d < 100
  | Raise e => e = ValueError
  | _ => False
  end.
Proof.
  unfold parse_isoformat_date.
  destruct (parse_digits s 4) as [p1 y] eqn:E1. destruct (y <? 0) eqn:C1; auto.
  destruct (expect c_dash p1) as [p2|e| |] eqn:E2; cbn [bind];
    try (destruct p1 as [|x p1]; cbn in E2; [|destruct (x =? c_dash)]; congruence).
  destruct (parse_digits p2 2) as [p3 m] eqn:E3. destruct (m <? 0) eqn:C3; auto.
  destruct (expect c_dash p3) as [p4|e| |] eqn:E4; cbn [bind];
    try (destruct p3 as [|x p3]; cbn in E4; [|destruct (x =? c_dash)]; congruence).
  destruct (parse_digits p4 2) as [p5 d] eqn:E5.
  destruct ((d <? 0) || negb (length p5 =? 0)%nat) eqn:C5; auto.
  apply orb_false_iff in C5. destruct C5 as [C5 L]. destruct p5; [|discriminate].
  apply parse_digits_inv in E1, E3, E5; try lia. apply expect_inv in E2, E4. subst.
  destruct E1 as [-> B1], E3 as [-> B3], E5 as [-> B5]. rewrite app_nil_r. cbn in *. auto.
Qed.

Lemma date_iso_ok x : is_date x -> date_fromisoformat (date_isoformat x) = Ok x.
Proof.
  intros H. pose proof (is_date_valid x H) as (Hy & Hm & _). pose proof (date_day_bound x H).
  unfold fields in *; cbn [Spec.year Spec.month] in *.
  unfold date_fromisoformat. rewrite isoformat_eq by auto. rewrite parse_date_ok by lia.
  cbn [bind date_of]. now apply remake.
Qed.
Lemma date_iso_inv s :
  match date_fromisoformat s with
  | Ok x => is_date x /\ s = date_isoformat x
  | Raise e => e = ValueError
  | _ => False
  end.
Proof.
  unfold date_fromisoformat. pose proof (parse_date_inv s) as P.
  destruct (parse_isoformat_date s) as [[[y m] d]|e| |]; cbn [bind date_of]; auto.
  destruct P as (E & By & Bm & Bd).
  destruct (valid_dec (Spec.YMD y m d)) as [V|V].
  - destruct (valid_is_date y m d V) as (x & Ex & Ix & Fx). rewrite Ex. split; auto.
    rewrite isoformat_eq by auto. unfold fields in Fx. injection Fx as -> -> ->. exact E.
  - now rewrite date_new_raises by auto.
Qed.

(** ** Times *)
(** The time with the fields below the precision cleared. *)
Definition cut (ts : timespec) (t : Spec.hms) : Spec.hms :=
  let '(Spec.HMS h m s us) := t in
  match ts with
  | Hours => Spec.HMS h 0 0 0
  | Minutes => Spec.HMS h m 0 0
  | Seconds => Spec.HMS h m s 0
  | Milliseconds => Spec.HMS h m s (us - us mod 1000)
  | Auto | Microseconds => Spec.HMS h m s us
  end.

Definition quad (t : Spec.hms) : Z * Z * Z * Z := (Spec.hour t, Spec.minute t, Spec.second t, Spec.micro t).

Lemma parse_time_ok x ts : is_time x ->
  parse_hh_mm_ss_ff (time_isoformat x ts) = Ok (quad (cut ts (tfields x))).
Proof.
  intros H. pose proof (is_time_valid x H) as V. unfold Spec.valid_time, tfields in *.
  cbn [Spec.hour Spec.minute Spec.second Spec.micro] in V.
  unfold time_isoformat. rewrite Z.quot_div_nonneg by lia.
  rewrite !zfill_ok by rng.
  set (h := t_hour x) in *. set (m := t_minute x) in *. set (s := t_second x) in *. set (us := t_microsecond x) in *.
  assert (P0 : forall k i r acc, 0 <= i < 100 -> forall j, parse_hms (S k) j (Spec.decimal 2 i ++ r) acc =
            match r with
            | [] => Ok (set3 j i acc, 0)
            | c :: p => if c =? c_colon then parse_hms k (S j) p (set3 j i acc)
                        else if c =? c_dot then parse_ff (set3 j i acc) p else Raise ValueError
            end).
  { intros k i r acc Hi j. cbn [parse_hms]. rewrite (parse_decimal 2) by rng.
    replace (i <? 0) with false by lia. reflexivity. }
  assert (PF : forall acc, parse_ff acc (Spec.decimal 6 us) = Ok (acc, us)).
  { intros acc. unfold parse_ff. rewrite decimal_length. cbn [Nat.eqb negb orb].
    rewrite <- (app_nil_r (Spec.decimal 6 us)), (parse_decimal 6) by rng. replace (us <? 0) with false by lia. reflexivity. }
  assert (PM : forall acc, parse_ff acc (Spec.decimal 3 (us / 1000)) = Ok (acc, us - us mod 1000)).
  { intros acc. unfold parse_ff. rewrite decimal_length. cbn [Nat.eqb negb orb].
    rewrite <- (app_nil_r (Spec.decimal 3 (us / 1000))), (parse_decimal 3) by rng.
    replace (us / 1000 <? 0) with false by lia. do 2 f_equal. lia. }
  unfold parse_hh_mm_ss_ff.
  assert (HMS0 : parse_hms 3 0 (Spec.decimal 2 h ++ c_colon :: Spec.decimal 2 m ++ c_colon :: Spec.decimal 2 s) (0, 0, 0)
                = Ok (h, m, s, 0)).
  { rewrite P0 by lia. cbn [Z.eqb Pos.eqb c_colon set3]. rewrite P0 by lia. cbn [Z.eqb Pos.eqb c_colon set3].
    rewrite <- (app_nil_r (Spec.decimal 2 s)), P0 by lia. reflexivity. }
  assert (HMSU : forall u v, (forall acc, parse_ff acc u = Ok (acc, v)) ->
    parse_hms 3 0 (Spec.decimal 2 h ++ c_colon :: Spec.decimal 2 m ++ c_colon :: Spec.decimal 2 s ++ c_dot :: u) (0, 0, 0)
                = Ok (h, m, s, v)).
  { intros u v Hu. rewrite P0 by lia. cbn [Z.eqb Pos.eqb c_colon set3]. rewrite P0 by lia. cbn [Z.eqb Pos.eqb c_colon set3].
    rewrite P0 by lia. cbn [Z.eqb Pos.eqb c_colon c_dot set3]. apply Hu. }
  destruct ts; cbn [cut quad Spec.hour Spec.minute Spec.second Spec.micro].
  - destruct (us =? 0) eqn:E; cbn [negb].
    + rewrite HMS0. unfold quad. cbn. repeat f_equal. lia.
    + now apply HMSU.
  - rewrite <- (app_nil_r (Spec.decimal 2 h)), P0 by lia. reflexivity.
  - rewrite P0 by lia. cbn [Z.eqb Pos.eqb c_colon set3].
    rewrite <- (app_nil_r (Spec.decimal 2 m)), P0 by lia. reflexivity.
  - apply HMS0.
  - now apply HMSU.
  - now apply HMSU.
Qed.

Lemma find_sign_none s : Forall (fun c => c <> c_plus /\ c <> c_dash) s -> find_sign s = length s.
Proof.
  induction 1 as [|c s [H1 H2] _ IH]; cbn [find_sign length]; auto.
  apply Z.eqb_neq in H1, H2. rewrite H1, H2. cbn [orb]. now rewrite IH.
Qed.
Lemma decimal_nosign k n : Forall (fun c => c <> c_plus /\ c <> c_dash) (Spec.decimal k n).
Proof.
  eapply Forall_impl; [|apply decimal_digits]. unfold is_digit, c_plus, c_dash. intros; lia.
Qed.
Lemma time_nosign x ts : is_time x -> Forall (fun c => c <> c_plus /\ c <> c_dash) (time_isoformat x ts).
Proof.
  intros H. pose proof (is_time_valid x H) as V. unfold Spec.valid_time, tfields in *.
  cbn [Spec.hour Spec.minute Spec.second Spec.micro] in V.
  unfold time_isoformat. rewrite Z.quot_div_nonneg by lia. rewrite !zfill_ok by rng.
  assert (C : c_colon <> c_plus /\ c_colon <> c_dash) by (unfold c_colon, c_plus, c_dash; lia).
  assert (D : c_dot <> c_plus /\ c_dot <> c_dash) by (unfold c_dot, c_plus, c_dash; lia).
  destruct ts; try destruct (negb _);
    repeat (apply Forall_app; split; [apply decimal_nosign|] || (constructor; [assumption|]) || apply decimal_nosign).
Qed.

Lemma cut_valid ts t : Spec.valid_time t -> Spec.valid_time (cut ts t).
Proof.
  destruct t as [h m s us]. unfold Spec.valid_time; cbn [Spec.hour Spec.minute Spec.second Spec.micro].
  intros H. destruct ts; cbn [cut Spec.hour Spec.minute Spec.second Spec.micro]; lia.
Qed.
Lemma time_make t : Spec.valid_time t ->
  exists y, time_new (Spec.hour t) (Spec.minute t) (Spec.second t) (Spec.micro t) = Ok y /\ is_time y /\ tfields y = t.
Proof.
  destruct t as [h m s us]. cbn [Spec.hour Spec.minute Spec.second Spec.micro]. intros V.
  pose proof (time_new_ok h m s us V) as E. exists (Time (tpack h m s us)). split; auto.
  split; [now exists h, m, s, us|]. now apply time_new_fields in E.
Qed.
Lemma time_iso_ok x ts : is_time x ->
  exists y, time_fromisoformat (time_isoformat x ts) = Ok y /\ is_time y /\ tfields y = cut ts (tfields x).
Proof.
  intros H. unfold time_fromisoformat, parse_isoformat_time.
  rewrite find_sign_none by (now apply time_nosign). rewrite firstn_all, parse_time_ok by auto. cbn [bind].
  rewrite Nat.eqb_refl. unfold quad. cbn [bind]. apply time_make, cut_valid, is_time_valid, H.
Qed.

(** ** Instants *)
Lemma isoformat_length x : is_date x -> length (date_isoformat x) = 10%nat.
Proof.
  intros H. rewrite isoformat_eq by auto. rewrite !app_length. cbn [length]. rewrite !app_length. cbn [length].
  rewrite !decimal_length. reflexivity.
Qed.
Lemma timeformat_length x ts : is_time x -> (1 <= length (time_isoformat x ts))%nat.
Proof.
  intros H. pose proof (is_time_valid x H) as V. unfold Spec.valid_time, tfields in *.
  cbn [Spec.hour Spec.minute Spec.second Spec.micro] in V.
  unfold time_isoformat. rewrite Z.quot_div_nonneg by lia. rewrite !zfill_ok by rng.
  destruct ts; try destruct (negb _); rewrite ?app_length, decimal_length; lia.
Qed.
Lemma datetime_iso_ok x c ts : is_datetime x ->
  exists y, datetime_fromisoformat (datetime_isoformat x [c] ts) = Ok y /\ is_datetime y
    /\ dt_date y = dt_date x /\ tfields (dt_time y) = cut ts (tfields (dt_time x)).
Proof.
  intros H. apply is_datetime_parts in H. destruct H as [Dx Tx].
  unfold datetime_fromisoformat, datetime_isoformat.
  pose proof (isoformat_length _ Dx) as L. pose proof (timeformat_length _ ts Tx) as LT.
  rewrite !app_length, L. cbn [length].
  replace (10 + (1 + length (time_isoformat (dt_time x) ts)) <? 10)%nat with false by (symmetry; apply Nat.ltb_ge; lia).
  replace (10 + (1 + length (time_isoformat (dt_time x) ts)) =? 10)%nat with false by (symmetry; apply Nat.eqb_neq; lia).
  replace (10 + (1 + length (time_isoformat (dt_time x) ts)) <? 12)%nat with false by (symmetry; apply Nat.ltb_ge; lia).
  rewrite firstn_app, L, Nat.sub_diag, firstn_O, app_nil_r, firstn_all2 by lia.
  rewrite skipn_app, L, skipn_all2 by lia. change (11 - 10)%nat with 1%nat. cbn [skipn app].
  pose proof (is_date_valid _ Dx) as (Hy & Hm & _). pose proof (date_day_bound _ Dx).
  unfold fields in *; cbn [Spec.year Spec.month] in *.
  rewrite isoformat_eq by auto. rewrite parse_date_ok by lia. cbn [bind].
  rewrite parse_time_ok by auto. unfold quad. cbn [bind]. unfold datetime_new.
  destruct (time_make (cut ts (tfields (dt_time x)))) as (t & Et & It & Ft).
  { apply cut_valid, is_time_valid, Tx. }
  rewrite Et. cbn [bind]. rewrite remake by auto. cbn [bind].
  exists (DT t (dt_date x)). split; auto. split; [apply is_datetime_parts; auto|]. auto.
Qed.
