(** The Gregorian calendar, independently of the code: days are counted one at a time. *)
From Coq Require Import List ZArith Bool.
Import ListNotations.
Local Open Scope Z_scope.

Record ymd := YMD { year : Z; month : Z; day : Z }.

(** A year is a leap year when 4 divides it, unless 100 does and 400 does not. *)
Definition leap (y : Z) : bool := ((y mod 4 =? 0) && negb (y mod 100 =? 0)) || (y mod 400 =? 0).

Definition month_length (y m : Z) : Z :=
  if m =? 2 then (if leap y then 29 else 28)
  else if (m =? 4) || (m =? 6) || (m =? 9) || (m =? 11) then 30 else 31.

Definition valid (x : ymd) : Prop :=
  1 <= year x <= 9999 /\ 1 <= month x <= 12 /\ 1 <= day x <= month_length (year x) (month x).

(** The day after. *)
Definition next_day (x : ymd) : ymd :=
  let '(YMD y m d) := x in
  if d <? month_length y m then YMD y m (d + 1)
  else if m <? 12 then YMD y (m + 1) 1
  else YMD (y + 1) 1 1.

Definition first : ymd := YMD 1 1 1.

(** [nth_day n x]: [x] is day number [n], day 1 being 1 January of year 1, a Monday. *)
Inductive nth_day : Z -> ymd -> Prop :=
| nth_first : nth_day 1 first
| nth_next n x : nth_day n x -> nth_day (n + 1) (next_day x).

(** Days of the week from 0 (Monday); day 1 is a Monday. *)
Definition week_day (n : Z) : Z := (n - 1) mod 7.

(** ISO 8601: a week belongs to the year that contains its Thursday, and is numbered by
    the Thursdays of that year. *)
Definition iso_week (n : Z) (y w d : Z) : Prop :=
  d = week_day n + 1 /\
  exists thursday t yday, thursday = n - week_day n + 3 /\ nth_day thursday t /\ year t = y /\
    nth_day (thursday - yday + 1) (YMD y 1 1) /\ w = (yday - 1) / 7 + 1.

(** Earlier than, by year, then month, then day. *)
Definition earlier (a b : ymd) : Prop :=
  year a < year b \/ (year a = year b /\ (month a < month b \/ (month a = month b /\ day a < day b))).

(** Time of day. *)
Record hms := HMS { hour : Z; minute : Z; second : Z; micro : Z }.
Definition valid_time (t : hms) : Prop :=
  0 <= hour t <= 23 /\ 0 <= minute t <= 59 /\ 0 <= second t <= 59 /\ 0 <= micro t <= 999999.
(** Microseconds since midnight. *)
Definition micros (t : hms) : Z := ((hour t * 60 + minute t) * 60 + second t) * 1000000 + micro t.
Definition day_micros : Z := 24 * 60 * 60 * 1000000.

(** Decimal texts of a given width. *)
Fixpoint decimal (width : nat) (n : Z) : list Z :=
  match width with O => [] | S k => decimal k (n / 10) ++ [48 + n mod 10] end.
