(** Dates, times and durations: /repo/stdlib/datetime.codon.

    Every [int] operation is the 64-bit operation: [add], [sub], [mul] wrap, [//] and [%]
    are LLVM [sdiv] and [srem] (the default numerics mode), that is [Z.quot] and [Z.rem]
    (in this file the divisors are constants other than 0 and -1, except in the operators of
    [timedelta], which go through [Int64.sdiv] and [Int64.srem]).  Texts are lists of bytes.

    Not modelled: the clock ([today], [now], [fromtimestamp]), [struct_time], [repr], [ctime],
    the operators of [timedelta] that round a float ([*] and [/] with a float), and float
    arguments of the constructor of [timedelta]. *)
From Coq Require Import List ZArith Bool Floats.SpecFloat.
From Verif.Common Require Import Result Int64.
From Verif.Ir Require Import Num.
Import ListNotations.
Local Open Scope Z_scope.
Local Open Scope res_scope.

Definition add (a b : Z) : Z := w64 (a + b).
Definition sub (a b : Z) : Z := w64 (a - b).
Definition mul (a b : Z) : Z := w64 (a * b).

(** ** Utilities *)

(** datetime.codon:57-64 *)
Definition MINYEAR : Z := 1.
Definition MAXYEAR : Z := 9999.
Definition MAXORDINAL : Z := 3652059.
Definition DI4Y : Z := 1461.
Definition DI100Y : Z := 36524.
Definition DI400Y : Z := 146097.

(** datetime.codon:78-86 [_divmod] *)
Definition divmod (x y : Z) : Z * Z :=
  let quo := Z.quot x y in
  let r := sub x (mul quo y) in
  if r <? 0 then (sub quo 1, add r y) else (quo, r).

(** types/tuple.codon:7-25 [Tuple._fix_index], [Tuple._getitem]: a tuple of equal types
    indexed at run time *)
Definition tuple_get (t : list Z) (idx : Z) : res Z :=
  let n := Z.of_nat (length t) in
  let idx := if idx <? 0 then add idx n else idx in
  if (idx <? 0) || (n <=? idx) then Raise IndexError else Ok (nth (Z.to_nat idx) t 0).

(** datetime.codon:91-95 [_days_in_monthx], [_days_before_monthx] *)
Definition days_in_monthx (i : Z) : res Z :=
  tuple_get [0; 31; 28; 31; 30; 31; 30; 31; 31; 30; 31; 30; 31] i.
Definition days_before_monthx (i : Z) : res Z :=
  tuple_get [0; 0; 31; 59; 90; 120; 151; 181; 212; 243; 273; 304; 334] i.

(** datetime.codon:97-98 [_is_leap] *)
Definition is_leap (year : Z) : bool :=
  (Z.rem year 4 =? 0) && (negb (Z.rem year 100 =? 0) || (Z.rem year 400 =? 0)).

(** datetime.codon:100-105 [_days_in_month] *)
Definition days_in_month (year month : Z) : res Z :=
  if (month =? 2) && is_leap year then Ok 29 else days_in_monthx month.

(** datetime.codon:107-112 [_days_before_month] *)
Definition days_before_month (year month : Z) : res Z :=
  days <- days_before_monthx month ;;
  Ok (if (2 <? month) && is_leap year then add days 1 else days).

(** datetime.codon:114-117 [_days_before_year] *)
Definition days_before_year (year : Z) : Z :=
  let y := sub year 1 in
  add (sub (add (mul y 365) (Z.quot y 4)) (Z.quot y 100)) (Z.quot y 400).

(** datetime.codon:142-150, the end of [_ord_to_ymd]: month and day of day [n] (from 0) of a
    year *)
Definition month_of (year : Z) (leapyear : bool) (n : Z) : res (Z * Z) :=
  let month := Z.shiftr (add n 50) 5 in
  before <- days_before_monthx month ;;
  let preceding := add before (if (2 <? month) && leapyear then 1 else 0) in
  ' (month, preceding) <-
    (if n <? preceding then
       let month := sub month 1 in
       dim <- days_in_month year month ;;
       Ok (month, sub preceding dim)
     else Ok (month, preceding)) ;;
  let n := sub n preceding in
  Ok (month, add n 1).

(** datetime.codon:119-151 [_ord_to_ymd] *)
Definition ord_to_ymd (ordinal : Z) : res (Z * Z * Z) :=
  let ordinal := sub ordinal 1 in
  let n400 := Z.quot ordinal DI400Y in
  let n := Z.rem ordinal DI400Y in
  let year := add (mul n400 400) 1 in
  let n100 := Z.quot n DI100Y in
  let n := Z.rem n DI100Y in
  let n4 := Z.quot n DI4Y in
  let n := Z.rem n DI4Y in
  let n1 := Z.quot n 365 in
  let n := Z.rem n 365 in
  let year := add year (add (add (mul n100 100) (mul n4 4)) n1) in
  if (n1 =? 4) || (n100 =? 4) then Ok (sub year 1, 12, 31)
  else
    let leapyear := (n1 =? 3) && (negb (n4 =? 24) || (n100 =? 3)) in
    ' (month, day) <- month_of year leapyear n ;;
    Ok (year, month, day).

(** datetime.codon:153-154 [_ymd_to_ord] *)
Definition ymd_to_ord (year month day : Z) : res Z :=
  b <- days_before_month year month ;;
  Ok (add (add (days_before_year year) b) day).

(** datetime.codon:156-157 [_weekday] *)
Definition weekday_ymd (year month day : Z) : res Z :=
  o <- ymd_to_ord year month day ;;
  Ok (Z.rem (add o 6) 7).

(** datetime.codon:159-165 [_iso_week1_monday] *)
Definition iso_week1_monday (year : Z) : res Z :=
  first_day <- ymd_to_ord year 1 1 ;;
  let first_weekday := Z.rem (add first_day 6) 7 in
  let week1_monday := sub first_day first_weekday in
  Ok (if 3 <? first_weekday then add week1_monday 7 else week1_monday).

(** datetime.codon:171-177 [_check_date_args] *)
Definition check_date_args (year month day : Z) : res unit :=
  if negb ((MINYEAR <=? year) && (year <=? MAXYEAR)) then Raise ValueError
  else if negb ((1 <=? month) && (month <=? 12)) then Raise ValueError
  else dim <- days_in_month year month ;;
       if negb ((1 <=? day) && (day <=? dim)) then Raise ValueError else Ok tt.

(** datetime.codon:179-187 [_check_time_args] *)
Definition check_time_args (hour minute second microsecond : Z) : res unit :=
  if negb ((0 <=? hour) && (hour <=? 23)) then Raise ValueError
  else if negb ((0 <=? minute) && (minute <=? 59)) then Raise ValueError
  else if negb ((0 <=? second) && (second <=? 59)) then Raise ValueError
  else if negb ((0 <=? microsecond) && (microsecond <=? 999999)) then Raise ValueError
  else Ok tt.

(** datetime.codon:189-197 [_normalize_pair] *)
Definition normalize_pair (hi lo factor : Z) : Z * Z :=
  if (lo <? 0) || (factor <=? lo) then
    let '(num_hi, lo) := divmod lo factor in (add hi num_hi, lo)
  else (hi, lo).

(** datetime.codon:199-206 [_normalize_d_s_us] *)
Definition normalize_d_s_us (d s us : Z) : Z * Z * Z :=
  let '(s, us) := if (us <? 0) || (1000000 <=? us) then normalize_pair s us 1000000 else (s, us) in
  let '(d, s) := if (s <? 0) || (24 * 3600 <=? s) then normalize_pair d s (24 * 3600) else (d, s) in
  (d, s, us).

(** datetime.codon:208-239 [_normalize_y_m_d] *)
Definition normalize_y_m_d (y m d : Z) : res (Z * Z * Z) :=
  let check y m d :=
    if negb ((MINYEAR <=? y) && (y <=? MAXYEAR)) then Raise OverflowError else Ok (y, m, d) in
  dim <- days_in_month y m ;;
  if (d <? 1) || (dim <? d) then
    if d =? 0 then
      let m := sub m 1 in
      if 0 <? m then d <- days_in_month y m ;; check y m d
      else check (sub y 1) 12 31
    else if d =? add dim 1 then
      let m := add m 1 in
      if 12 <? m then check (add y 1) 1 1 else check y m 1
    else
      o <- ymd_to_ord y m 1 ;;
      let ordinal := sub (add o d) 1 in
      if (ordinal <? 1) || (MAXORDINAL <? ordinal) then Raise OverflowError else ord_to_ymd ordinal
  else check y m d.

(** datetime.codon:244-258 [_normalize_datetime] *)
Definition normalize_datetime (year month day hour minute second microsecond : Z)
  : res (Z * Z * Z * (Z * Z * Z * Z)) :=
  let '(second, microsecond) := normalize_pair second microsecond 1000000 in
  let '(minute, second) := normalize_pair minute second 60 in
  let '(hour, minute) := normalize_pair hour minute 60 in
  let '(day, hour) := normalize_pair day hour 24 in
  ymd <- normalize_y_m_d year month day ;;
  Ok (ymd, (hour, minute, second, microsecond)).

(** ** [timedelta]: a number of microseconds *)
Record timedelta := TD { td_us : Z }.

(** datetime.codon:428-443 [timedelta._accum] for an int argument, which is converted to a
    float [num]: [modf] of a whole number is (0.0, num) *)
Definition accum (sofar num factor : Z) : res Z :=
  n <- f2i (i2f num) ;; Ok (add sofar (mul n factor)).

(** datetime.codon:445-474, 477-478 [timedelta.__new__] with int arguments: [leftover] stays
    0.0 *)
Definition td_new (days seconds microseconds milliseconds minutes hours weeks : Z) : res timedelta :=
  us <- accum 0 days (24 * 60 * 60 * 1000000) ;;
  us <- accum us seconds 1000000 ;;
  us <- accum us microseconds 1 ;;
  us <- accum us milliseconds 1000 ;;
  us <- accum us minutes (60 * 1000000) ;;
  us <- accum us hours (60 * 60 * 1000000) ;;
  us <- accum us weeks (7 * 24 * 60 * 60 * 1000000) ;;
  Ok (TD us).

(** datetime.codon:480-493 the properties [days], [seconds], [microseconds] *)
Definition td_days (t : timedelta) : Z := let '(d, _, _) := normalize_d_s_us 0 0 (td_us t) in d.
Definition td_seconds (t : timedelta) : Z := let '(_, s, _) := normalize_d_s_us 0 0 (td_us t) in s.
Definition td_microseconds (t : timedelta) : Z := let '(_, _, u) := normalize_d_s_us 0 0 (td_us t) in u.

(** datetime.codon:524-534, 566-573 [+], [-], [* int], unary [-], [abs] (int.codon: [abs] of
    the smallest int wraps) *)
Definition td_add (a b : timedelta) := TD (add (td_us a) (td_us b)).
Definition td_sub (a b : timedelta) := TD (sub (td_us a) (td_us b)).
Definition td_mul (a : timedelta) (n : Z) := TD (mul (td_us a) n).
Definition td_neg (a : timedelta) := TD (w64 (- td_us a)).
Definition td_abs (a : timedelta) := TD (w64 (Z.abs (td_us a))).

(** datetime.codon:551-552 [timedelta // timedelta]: a float quotient rounded down *)
Definition ffloor (f : spec_float) : option Z :=
  match f with
  | S754_zero _ => Some 0
  | S754_finite s m e =>
      Some (if 0 <=? e then cond_Zopp s (Z.pos m * 2 ^ e) else cond_Zopp s (Z.pos m) / 2 ^ (- e))
  | _ => None
  end.
Definition td_floordiv (a b : timedelta) : res Z :=
  match ffloor (fdiv (i2f (td_us a)) (i2f (td_us b))) with
  | Some z => if in64b z then Ok z else Undef
  | None => Undef
  end.
(** datetime.codon:554-555 [timedelta // int] *)
Definition td_floordiv_int (a : timedelta) (n : Z) : res timedelta :=
  q <- Int64.sdiv (td_us a) n ;; Ok (TD q).
(** datetime.codon:557-561 [timedelta % timedelta] *)
Definition td_mod (a b : timedelta) : res timedelta :=
  let n := td_us a in
  let M := td_us b in
  r <- Int64.srem n M ;;
  r <- Int64.srem (add r M) M ;;
  Ok (TD r).

(** ** [date]: year, month and day packed in 32 bits *)
Record date := Date { d_value : Z }.

(** datetime.codon:621-624 [date.__new__]; [UInt[32](v)] truncates *)
Definition date_new (year month day : Z) : res date :=
  _ <- check_date_args year month day ;;
  Ok (Date (Z.lor (Z.lor (w64 (Z.shiftl year 16)) (w64 (Z.shiftl month 8))) day mod 2 ^ 32)).

(** datetime.codon:626-639 *)
Definition d_year (x : date) : Z := Z.shiftr (d_value x) 16.
Definition d_month (x : date) : Z := Z.land (Z.shiftr (d_value x) 8) 255.
Definition d_day (x : date) : Z := Z.land (d_value x) 255.

(** [date( *t)] *)
Definition date_of (t : Z * Z * Z) : res date := let '(y, m, d) := t in date_new y m d.

(** datetime.codon:654-655 [date.fromordinal], 733-734 [toordinal], 736-740 [weekday],
    [isoweekday] *)
Definition date_fromordinal (ordinal : Z) : res date := t <- ord_to_ymd ordinal ;; date_of t.
Definition date_toordinal (x : date) : res Z := ymd_to_ord (d_year x) (d_month x) (d_day x).
Definition date_weekday (x : date) : res Z := weekday_ymd (d_year x) (d_month x) (d_day x).
Definition date_isoweekday (x : date) : res Z := w <- date_weekday x ;; Ok (add w 1).

(** datetime.codon:727-731, 1077-1089 [timetuple().tm_yday] *)
Definition date_yday (x : date) : res Z :=
  a <- date_toordinal x ;;
  j <- date_new (d_year x) 1 1 ;;
  b <- date_toordinal j ;;
  Ok (add (sub a b) 1).

(** datetime.codon:660-680 [date.fromisocalendar] *)
Definition date_fromisocalendar (year week day : Z) : res date :=
  if (year <? MINYEAR) || (MAXYEAR <? year) then Raise ValueError
  else
    _ <- (if (week <=? 0) || (53 <=? week) then
            out_of_range <-
              (if week =? 53 then
                 first_weekday <- weekday_ymd year 1 1 ;;
                 Ok (negb ((first_weekday =? 3) || ((first_weekday =? 2) && is_leap year)))
               else Ok true) ;;
            if (out_of_range : bool) then Raise ValueError else Ok tt
          else Ok tt) ;;
    if (day <=? 0) || (8 <=? day) then Raise ValueError
    else
      day_1 <- iso_week1_monday year ;;
      let day_offset := sub (add (mul (sub week 1) 7) day) 1 in
      t <- ord_to_ymd (add day_1 day_offset) ;;
      date_of t.

(** datetime.codon:742-754 [date.isocalendar] *)
Definition date_isocalendar (x : date) : res (Z * Z * Z) :=
  let year := d_year x in
  week1_monday <- iso_week1_monday year ;;
  today <- ymd_to_ord year (d_month x) (d_day x) ;;
  let '(week, day) := divmod (sub today week1_monday) 7 in
  if week <? 0 then
    let year := sub year 1 in
    week1_monday <- iso_week1_monday year ;;
    let '(week, day) := divmod (sub today week1_monday) 7 in
    Ok (year, add week 1, add day 1)
  else if 52 <=? week then
    next <- iso_week1_monday (add year 1) ;;
    if next <=? today then Ok (add year 1, 1, add day 1)
    else Ok (year, add week 1, add day 1)
  else Ok (year, add week 1, add day 1).

(** datetime.codon:682-695 [date + timedelta], [date - timedelta], [date - date] *)
Definition date_add (x : date) (t : timedelta) : res date :=
  let '(days, _, _) := normalize_d_s_us 0 0 (td_us t) in
  t <- normalize_y_m_d (d_year x) (d_month x) (add (d_day x) days) ;; date_of t.
Definition date_sub (x : date) (t : timedelta) : res date :=
  let '(days, _, _) := normalize_d_s_us 0 0 (td_us t) in
  t <- normalize_y_m_d (d_year x) (d_month x) (sub (d_day x) days) ;; date_of t.
Definition date_diff (x y : date) : res timedelta :=
  left_ord <- date_toordinal x ;;
  right_ord <- date_toordinal y ;;
  td_new (sub left_ord right_ord) 0 0 0 0 0 0.

(** datetime.codon:697-713 [==], [<], [<=] on dates ([UInt[32]] comparisons) *)
Definition date_eq (x y : date) : bool := d_value x =? d_value y.
Definition date_lt (x y : date) : bool := d_value x <? d_value y.
Definition date_le (x y : date) : bool := d_value x <=? d_value y.

(** datetime.codon:718-725 [date.replace] (-1 keeps the field) *)
Definition date_replace (x : date) (year month day : Z) : res date :=
  date_new (if year =? -1 then d_year x else year)
           (if month =? -1 then d_month x else month)
           (if day =? -1 then d_day x else day).

(** ** [time]: hour, minute, second and microsecond packed in an int *)
Record time := Time { t_value : Z }.

(** datetime.codon:780-785 [time.__new__] *)
Definition time_new (hour minute second microsecond : Z) : res time :=
  _ <- check_time_args hour minute second microsecond ;;
  Ok (Time (Z.lor (Z.lor (Z.lor (w64 (Z.shiftl hour 40)) (w64 (Z.shiftl minute 32)))
                         (w64 (Z.shiftl second 24))) microsecond)).

(** datetime.codon:787-805 *)
Definition t_hour (x : time) : Z := Z.shiftr (t_value x) 40.
Definition t_minute (x : time) : Z := Z.land (Z.shiftr (t_value x) 32) 255.
Definition t_second (x : time) : Z := Z.land (Z.shiftr (t_value x) 24) 255.
Definition t_microsecond (x : time) : Z := Z.land (t_value x) 16777215.

(** The comparisons of a one-field tuple class: those of the field (internal.codon:83-155) *)
Definition time_eq (x y : time) : bool := t_value x =? t_value y.
Definition time_lt (x y : time) : bool := t_value x <? t_value y.
Definition time_le (x y : time) : bool := t_value x <=? t_value y.

(** datetime.codon:836-847 [time.replace] *)
Definition time_replace (x : time) (hour minute second microsecond : Z) : res time :=
  time_new (if hour =? -1 then t_hour x else hour)
           (if minute =? -1 then t_minute x else minute)
           (if second =? -1 then t_second x else second)
           (if microsecond =? -1 then t_microsecond x else microsecond).

(** ** [datetime] *)
Record datetime := DT { dt_time : time; dt_date : date }.

(** datetime.codon:888-897 [datetime.__new__] *)
Definition datetime_new (year month day hour minute second microsecond : Z) : res datetime :=
  t <- time_new hour minute second microsecond ;;
  d <- date_new year month day ;;
  Ok (DT t d).

(** datetime.codon:972-977 [datetime.fromordinal], [datetime.combine] *)
Definition datetime_fromordinal (ordinal : Z) : res datetime :=
  d <- date_fromordinal ordinal ;; t <- time_new 0 0 0 0 ;; Ok (DT t d).

(** [datetime( *t)] *)
Definition datetime_of (t : Z * Z * Z * (Z * Z * Z * Z)) : res datetime :=
  let '((y, m, d), (hh, mm, ss, us)) := t in datetime_new y m d hh mm ss us.

(** datetime.codon:999-1027 [datetime + timedelta], [datetime - timedelta] *)
Definition datetime_add (x : datetime) (t : timedelta) : res datetime :=
  let '(tdd, tds, tdu) := normalize_d_s_us 0 0 (td_us t) in
  r <- normalize_datetime (d_year (dt_date x)) (d_month (dt_date x)) (add (d_day (dt_date x)) tdd)
         (t_hour (dt_time x)) (t_minute (dt_time x)) (add (t_second (dt_time x)) tds)
         (add (t_microsecond (dt_time x)) tdu) ;;
  datetime_of r.
Definition datetime_sub (x : datetime) (t : timedelta) : res datetime :=
  let '(tdd, tds, tdu) := normalize_d_s_us 0 0 (td_us t) in
  r <- normalize_datetime (d_year (dt_date x)) (d_month (dt_date x)) (sub (d_day (dt_date x)) tdd)
         (t_hour (dt_time x)) (t_minute (dt_time x)) (sub (t_second (dt_time x)) tds)
         (sub (t_microsecond (dt_time x)) tdu) ;;
  datetime_of r.

(** datetime.codon:1029-1039 [datetime - datetime] *)
Definition datetime_diff (x y : datetime) : res timedelta :=
  a <- date_toordinal (dt_date x) ;;
  b <- date_toordinal (dt_date y) ;;
  let delta_d := sub a b in
  let delta_s :=
    add (add (mul (sub (t_hour (dt_time x)) (t_hour (dt_time y))) 3600)
             (mul (sub (t_minute (dt_time x)) (t_minute (dt_time y))) 60))
        (sub (t_second (dt_time x)) (t_second (dt_time y))) in
  let delta_us := sub (t_microsecond (dt_time x)) (t_microsecond (dt_time y)) in
  td_new delta_d delta_s delta_us 0 0 0 0.

(** datetime.codon:1041-1057: comparisons of (date, time) pairs; a tuple comparison
    (internal.codon:83-155) goes on to the next field when the first ones are equal *)
Definition datetime_eq (x y : datetime) : bool :=
  date_eq (dt_date x) (dt_date y) && time_eq (dt_time x) (dt_time y).
Definition datetime_lt (x y : datetime) : bool :=
  if date_eq (dt_date x) (dt_date y) then time_lt (dt_time x) (dt_time y)
  else date_lt (dt_date x) (dt_date y).
Definition datetime_le (x y : datetime) : bool :=
  if date_eq (dt_date x) (dt_date y) then time_le (dt_time x) (dt_time y)
  else date_le (dt_date x) (dt_date y).

(** ** Texts *)

(** [str(n)] of a non-negative int: the decimal digits; 20 digits hold any int *)
Fixpoint digits (fuel : nat) (n : Z) (acc : list Z) : list Z :=
  match fuel with
  | O => acc
  | S f => let acc := 48 + n mod 10 :: acc in if n <? 10 then acc else digits f (n / 10) acc
  end.
Definition str_of (n : Z) : list Z := digits 20 n [].
(** internal/str.codon:455-471 [zfill] of a text of digits *)
Definition zfill (s : list Z) (width : nat) : list Z := repeat 48 (width - length s) ++ s.

Definition c_dash := 45. Definition c_colon := 58. Definition c_dot := 46. Definition c_plus := 43.

(** datetime.codon:756-757 [date.isoformat] *)
Definition date_isoformat (x : date) : list Z :=
  zfill (str_of (d_year x)) 4 ++ c_dash :: zfill (str_of (d_month x)) 2
    ++ c_dash :: zfill (str_of (d_day x)) 2.

Inductive timespec := Auto | Hours | Minutes | Seconds | Milliseconds | Microseconds.

(** datetime.codon:849-874 [time.isoformat] *)
Definition time_isoformat (x : time) (ts : timespec) : list Z :=
  let hh := zfill (str_of (t_hour x)) 2 in
  let mm := zfill (str_of (t_minute x)) 2 in
  let ss := zfill (str_of (t_second x)) 2 in
  let us := zfill (str_of (t_microsecond x)) 6 in
  let ms := zfill (str_of (Z.quot (t_microsecond x) 1000)) 3 in
  match ts with
  | Auto => if negb (t_microsecond x =? 0) then hh ++ c_colon :: mm ++ c_colon :: ss ++ c_dot :: us
            else hh ++ c_colon :: mm ++ c_colon :: ss
  | Hours => hh
  | Minutes => hh ++ c_colon :: mm
  | Seconds => hh ++ c_colon :: mm ++ c_colon :: ss
  | Milliseconds => hh ++ c_colon :: mm ++ c_colon :: ss ++ c_dot :: ms
  | Microseconds => hh ++ c_colon :: mm ++ c_colon :: ss ++ c_dot :: us
  end.

(** datetime.codon:1109-1112 [datetime.isoformat] *)
Definition datetime_isoformat (x : datetime) (sep : list Z) (ts : timespec) : list Z :=
  date_isoformat (dt_date x) ++ sep ++ time_isoformat (dt_time x) ts.

(** datetime.codon:261-273 [_parse_digits]: the rest of the text and the number, or -1 *)
Fixpoint parse_loop (k : nat) (p : list Z) (var : Z) : list Z * Z :=
  match k with
  | O => (p, var)
  | S k =>
      match p with
      | [] => ([], -1)
      | c :: p =>
          let tmp := c - 48 in
          if negb ((0 <=? tmp) && (tmp <=? 9)) then ([], -1) else parse_loop k p (var * 10 + tmp)
      end
  end.
Definition parse_digits (s : list Z) (num_digits : nat) : list Z * Z :=
  if (length s <? num_digits)%nat then ([], -1) else parse_loop num_digits s 0.

(** datetime.codon:284-286: [p] starts with the byte [c] *)
Definition expect (c : Z) (p : list Z) : res (list Z) :=
  match p with x :: p => if x =? c then Ok p else Raise ValueError | [] => Raise ValueError end.

(** datetime.codon:278-300 [_parse_isoformat_date] *)
Definition parse_isoformat_date (dtstr : list Z) : res (Z * Z * Z) :=
  let '(p, year) := parse_digits dtstr 4 in
  if year <? 0 then Raise ValueError else
  p <- expect c_dash p ;;
  let '(p, month) := parse_digits p 2 in
  if month <? 0 then Raise ValueError else
  p <- expect c_dash p ;;
  let '(p, day) := parse_digits p 2 in
  if (day <? 0) || negb (length p =? 0)%nat then Raise ValueError else
  Ok (year, month, day).

(** datetime.codon:302-340 [_parse_hh_mm_ss_ff]: the fields read so far are in [acc] (hour,
    minute, second), [i] is the loop counter *)
Definition set3 (i : nat) (v : Z) (acc : Z * Z * Z) : Z * Z * Z :=
  let '(h, m, s) := acc in
  match i with O => (v, m, s) | 1%nat => (h, v, s) | _ => (h, m, v) end.
Definition parse_ff (acc : Z * Z * Z) (p : list Z) : res (Z * Z * Z * Z) :=
  let len_remains := length p in
  if negb ((len_remains =? 6)%nat || (len_remains =? 3)%nat) then Raise ValueError else
  let '(_, microsecond) := parse_digits p len_remains in
  if microsecond <? 0 then Raise ValueError else
  Ok (acc, if (len_remains =? 3)%nat then microsecond * 1000 else microsecond).
Fixpoint parse_hms (k i : nat) (p : list Z) (acc : Z * Z * Z) : res (Z * Z * Z * Z) :=
  match k with
  | O => parse_ff acc p
  | S k =>
      let '(p, val) := parse_digits p 2 in
      if val <? 0 then Raise ValueError else
      let acc := set3 i val acc in
      match p with
      | [] => Ok (acc, 0)
      | c :: p =>
          if c =? c_colon then parse_hms k (S i) p acc
          else if c =? c_dot then parse_ff acc p
          else Raise ValueError
      end
  end.
Definition parse_hh_mm_ss_ff (tstr : list Z) : res (Z * Z * Z * Z) := parse_hms 3 0 tstr (0, 0, 0).

(** datetime.codon:343-354: position of the first sign *)
Fixpoint find_sign (s : list Z) : nat :=
  match s with
  | [] => O
  | c :: s => if (c =? c_plus) || (c =? c_dash) then O else S (find_sign s)
  end.

(** datetime.codon:342-369 [_parse_isoformat_time]; the time zone offset is not used by the
    callers, so only its effect on acceptance is kept *)
Definition parse_isoformat_time (dtstr : list Z) : res (Z * Z * Z * Z) :=
  let n := length dtstr in
  let pos := find_sign dtstr in
  r <- parse_hh_mm_ss_ff (firstn pos dtstr) ;;
  if (pos =? n)%nat then Ok r else
  let tzlen := (n - pos)%nat in
  if negb ((tzlen =? 6)%nat || (tzlen =? 9)%nat || (tzlen =? 16)%nat) then Raise ValueError else
  _ <- parse_hh_mm_ss_ff (skipn (pos + 1) dtstr) ;;
  Ok r.

(** datetime.codon:657-658, 824-834, 979-994 [fromisoformat] *)
Definition date_fromisoformat (s : list Z) : res date := t <- parse_isoformat_date s ;; date_of t.
Definition time_fromisoformat (s : list Z) : res time :=
  ' (h, m, s, us) <- parse_isoformat_time s ;; time_new h m s us.
Definition datetime_fromisoformat (s : list Z) : res datetime :=
  ' (y, m, d) <- parse_isoformat_date (if (length s <? 10)%nat then [] else firstn 10 s) ;;
  if (length s =? 10)%nat then datetime_new y m d 0 0 0 0 else
  ' (hh, mm, ss, us) <- parse_hh_mm_ss_ff (if (length s <? 12)%nat then [] else skipn 11 s) ;;
  datetime_new y m d hh mm ss us.
