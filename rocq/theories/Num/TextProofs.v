(** Proofs about integers as texts. *)
From Coq Require Import List ZArith Lia Bool.
From Verif.Common Require Import Result Int64 Arr.
From Verif.Ir Require Import Num NumProofs.
From Verif.Str Require Import Model Spec Basic WordProofs.
From Verif.Num Require Import ArithModel ArithProofs TextModel TextSpec.
Import ListNotations.
Local Open Scope Z_scope.
Local Open Scope res_scope.

(** ** Writing *)

Lemma aset_mid (pre post : list (option Z)) x y q : q = zlen pre -> aset (pre ++ x :: post) q y = Ok (pre ++ y :: post).
Proof.
  intros ->. rewrite aset_ok.
  - unfold upd, zlen. rewrite Nat2Z.id. rewrite upd_nat_split by (rewrite app_length; cbn [length]; lia).
    f_equal. rewrite firstn_app, Nat.sub_diag, firstn_all, firstn_O, app_nil_r. f_equal. f_equal.
    rewrite skipn_app. rewrite skipn_all2 by lia. replace (S (length pre) - length pre)%nat with 1%nat by lia. reflexivity.
  - unfold zlen. rewrite app_length. cbn [length]. lia.
Qed.
Lemma written_some s : written (map Some s) = Ok s.
Proof. induction s as [|c s IH]; [reflexivity|]. cbn. now rewrite IH. Qed.
Lemma copy_ok l : forall pre post q, q = zlen pre ->
  copy (pre ++ repeat None (length l) ++ post) q l = Ok (pre ++ map Some l ++ post).
Proof.
  induction l as [|c l IH]; intros pre post q Q; [reflexivity|]. cbn [length repeat copy map app].
  rewrite aset_mid by assumption. cbn [bind].
  change (pre ++ Some c :: repeat None (length l) ++ post) with (pre ++ [Some c] ++ (repeat None (length l) ++ post)).
  rewrite app_assoc. rewrite IH; [now rewrite <- app_assoc|]. unfold zlen in *. rewrite app_length. cbn [length]. lia.
Qed.
Lemma aset0 x (post : list (option Z)) y : aset (x :: post) 0 y = Ok (y :: post).
Proof. exact (aset_mid [] post x y 0 eq_refl). Qed.
Lemma copy0 l post : copy (repeat None (length l) ++ post) 0 l = Ok (map Some l ++ post).
Proof. exact (copy_ok l [] post 0 eq_refl). Qed.

Definition signed_ok (py : bool) (b : Z) : Prop := py = false \/ 0 <= b.
Lemma div_step py b base : in64 b -> signed_ok py b -> 2 <= base <= 16 ->
  exists b' r, idiv py b base = Ok b' /\ imod py b base = Ok r /\ in64 b' /\ signed_ok py b' /\ Z.abs b' = Z.abs b / base /\ iabs r = Z.abs b mod base.
Proof.
  intros Hb Sb B.
  assert (B64 : in64 base) by (unfold in64, min64, max64; lia).
  assert (Qb : 0 <= Z.abs b / base <= Z.abs b).
  { split; [apply Z.div_pos; lia|]. apply Z.div_le_upper_bound; nia. }
  assert (Mb : 0 <= Z.abs b mod base < base) by (apply Z.mod_pos_bound; lia).
  assert (E : exists b', idiv py b base = Ok b' /\ Z.abs b' = Z.abs b / base /\ (0 <= b -> 0 <= b')).
  { unfold idiv. destruct Sb as [->|P].
    - unfold sdiv. replace ((base =? 0) || ((b =? min64) && (base =? -1))) with false by lia.
      eexists. split; [reflexivity|]. split.
      + rewrite <- Z.quot_div_nonneg by lia. rewrite <- Z.quot_abs by lia. rewrite (Z.abs_eq base) by lia. reflexivity.
      + intros P. apply Z.quot_pos; lia.
    - destruct py.
      + replace (base =? 0) with false by lia. rewrite divmod_floor by (assumption || lia). cbn [bind].
        eexists. split; [reflexivity|]. rewrite (Z.abs_eq b) by lia. rewrite (Z.abs_eq b) in Qb by lia. split; [|lia].
        rewrite Z.abs_eq by lia. reflexivity.
      + unfold sdiv. replace ((base =? 0) || ((b =? min64) && (base =? -1))) with false by lia.
        rewrite (Z.abs_eq b) in * by lia. rewrite Z.quot_div_nonneg by lia. eexists. split; [reflexivity|]. split; [|lia].
        rewrite Z.abs_eq by lia. reflexivity. }
  destruct E as (b' & E1 & E2 & E3). exists b'.
  assert (R0 : imod py b base = Ok (rem_ py b base)) by (apply imod_ok; try assumption; lia).
  exists (rem_ py b base). split; [assumption|]. split; [assumption|].
  assert (Rb : Z.abs (rem_ py b base) = Z.abs b mod base).
  { destruct Sb as [->|P].
    - cbn [rem_]. rewrite <- Z.rem_mod_nonneg by lia. rewrite <- Z.rem_abs by lia. rewrite (Z.abs_eq base) by lia. reflexivity.
    - rewrite rem_nonneg by lia. rewrite (Z.abs_eq b) in * by lia. lia. }
  split; [|split; [|split; [assumption|]]].
  - unfold in64, min64, max64 in *. assert (D := Z.div_lt_upper_bound (Z.abs b) base (2 ^ 63) ltac:(lia) ltac:(lia)). lia.
  - unfold signed_ok in *. destruct Sb; [now left|]. right. auto.
  - rewrite iabs_ok by (unfold in64, min64, max64 in *; lia). assumption.
Qed.

(** The digits of a number, most significant first. *)
Fixpoint digs (base : Z) (n : nat) (m : Z) : list Z :=
  match n with
  | O => []
  | S n => if m =? 0 then [] else digs base n (m / base) ++ [zn 0 chars (m mod base)]
  end.
Lemma count_ok py base fuel : forall b k, in64 b -> signed_ok py b -> 2 <= base <= 16 -> Z.abs b < 2 ^ Z.of_nat fuel ->
  count_digits py (S fuel) base b k = Ok (k + zlen (digs base fuel (Z.abs b))).
Proof.
  induction fuel as [|n IH]; intros b k Hb Sb B F.
  - change (2 ^ Z.of_nat 0) with 1 in F. replace b with 0 by lia. cbn. f_equal. unfold zlen. cbn. lia.
  - cbn [digs]. change (count_digits py (S (S n)) base b k) with
      (if b =? 0 then Ok k else b <- idiv py b base ;; count_digits py (S n) base b (k + 1)).
    destruct (Z.eqb_spec b 0) as [->|N0]; [cbn; f_equal; unfold zlen; cbn; lia|].
    replace (Z.abs b =? 0) with false by lia.
    destruct (div_step py b base Hb Sb B) as (b' & r & -> & _ & Hb' & Sb' & E & _). cbn [bind].
    rewrite IH; try assumption.
    + rewrite E. f_equal. unfold zlen. rewrite app_length. cbn [length]. lia.
    + rewrite E. apply Z.div_lt_upper_bound; [lia|]. rewrite Nat2Z.inj_succ, Z.pow_succ_r in F by lia. nia.
Qed.
Lemma chars_get d : 0 <= d < 16 -> aget chars d = Ok (zn 0 chars d).
Proof. intros. apply aget_ok. change (zlen chars) with 17. lia. Qed.
Lemma repeat_snoc (n : nat) : repeat (@None Z) n ++ [None] = repeat None (S n).
Proof. induction n as [|n IH]; [reflexivity|]. cbn [repeat app]. now rewrite IH. Qed.
Lemma put_ok py base fuel : forall b pre post q, in64 b -> signed_ok py b -> 2 <= base <= 16 -> Z.abs b < 2 ^ Z.of_nat fuel ->
  q = zlen pre + zlen (digs base fuel (Z.abs b)) - 1 ->
  put_digits py (S fuel) base b q (pre ++ repeat None (length (digs base fuel (Z.abs b))) ++ post) =
  Ok (pre ++ map Some (digs base fuel (Z.abs b)) ++ post).
Proof.
  induction fuel as [|n IH]; intros b pre post q Hb Sb B F Q.
  - change (2 ^ Z.of_nat 0) with 1 in F. replace b with 0 by lia. reflexivity.
  - change (put_digits py (S (S n)) base b q ?pp) with
      (if b =? 0 then Ok pp
       else r <- imod py b base ;; c <- aget chars (iabs r) ;; p <- aset pp q (Some c) ;;
            b <- idiv py b base ;; put_digits py (S n) base b (q - 1) p).
    destruct (Z.eqb_spec b 0) as [->|N0]; [reflexivity|]. cbn [digs] in *.
    replace (Z.abs b =? 0) with false in * by lia.
    destruct (div_step py b base Hb Sb B) as (b' & r & -> & -> & Hb' & Sb' & E & Er). cbn [bind]. rewrite Er.
    assert (Mb : 0 <= Z.abs b mod base < base) by (apply Z.mod_pos_bound; lia).
    rewrite chars_get by lia. cbn [bind]. rewrite <- E in *. set (ds := digs base n (Z.abs b')) in *.
    set (c := zn 0 chars (Z.abs b mod base)) in *.
    rewrite app_length. cbn [length]. replace (length ds + 1)%nat with (S (length ds)) by lia.
    rewrite <- repeat_snoc, <- app_assoc. cbn [app].
    rewrite app_assoc. rewrite aset_mid.
    2:{ subst q. unfold zlen. rewrite !app_length, repeat_length. cbn [length]. lia. }
    cbn [bind]. rewrite <- app_assoc. unfold ds. rewrite IH; try assumption.
    + rewrite map_app, <- !app_assoc. reflexivity.
    + rewrite E. apply Z.div_lt_upper_bound; [lia|]. rewrite Nat2Z.inj_succ, Z.pow_succ_r in F by lia. nia.
    + subst q. fold ds. unfold zlen. rewrite app_length. cbn [length]. lia.
Qed.

Lemma chars_digit d : 0 <= d < 16 -> digit (zn 0 chars d) d /\ (48 <= zn 0 chars d <= 57 \/ 97 <= zn 0 chars d <= 122) /\ (d <> 0 -> zn 0 chars d <> 48).
Proof.
  intros H. assert (C : d = 0 \/ d = 1 \/ d = 2 \/ d = 3 \/ d = 4 \/ d = 5 \/ d = 6 \/ d = 7 \/ d = 8 \/ d = 9 \/ d = 10 \/ d = 11 \/ d = 12 \/ d = 13 \/ d = 14 \/ d = 15) by lia.
  clear H. unfold digit. do 15 (destruct C as [C|C]; [subst d; match goal with |- context [zn 0 chars ?k] => let v := eval vm_compute in (zn 0 chars k) in change (zn 0 chars k) with v end; lia|]).
  subst d. change (zn 0 chars 15) with 102. lia.
Qed.
Lemma digs_nil base n m : digs base n m = [] -> m = 0 \/ n = O.
Proof. destruct n; [auto|]. cbn. destruct (Z.eqb_spec m 0); [auto|]. intros E. now apply app_eq_nil in E. Qed.
Lemma digs_ok base n : forall m, 2 <= base <= 16 -> 0 < m < 2 ^ Z.of_nat n ->
  numeral base (digs base n m) m /\ hd 0 (digs base n m) <> 48 /\ Forall (fun c => 48 <= c <= 57 \/ 97 <= c <= 122) (digs base n m).
Proof.
  induction n as [|n IH]; intros m B M; [change (2 ^ Z.of_nat 0) with 1 in M; lia|].
  cbn [digs]. replace (m =? 0) with false by lia.
  assert (Mb : 0 <= m mod base < base) by (apply Z.mod_pos_bound; lia).
  destruct (chars_digit (m mod base) ltac:(lia)) as (D & L & Z0).
  assert (E := Z.div_mod m base ltac:(lia)).
  destruct (Z.eq_dec (m / base) 0) as [E0|N0].
  - rewrite E0 in *. replace (digs base n 0) with (@nil Z) by (destruct n; reflexivity). cbn [app hd].
    replace m with (m mod base) at 2 by lia. split; [constructor; [assumption|lia]|]. split; [apply Z0; lia|]. now constructor.
  - assert (P : 0 < m / base). { assert (0 <= m / base) by (apply Z.div_pos; lia). lia. }
    destruct (IH (m / base)) as (N1 & H1 & F1); [assumption| |].
    { split; [assumption|]. apply Z.div_lt_upper_bound; [lia|]. rewrite Nat2Z.inj_succ, Z.pow_succ_r in M by lia. nia. }
    split; [|split].
    + replace m with (m / base * base + m mod base) at 3 by lia. constructor; [assumption..|lia].
    + destruct (digs base n (m / base)) eqn:Ed; [|assumption]. apply digs_nil in Ed as [|Ed]; [lia|].
      subst n. rewrite Nat2Z.inj_succ, Z.pow_succ_r in M by lia. change (2 ^ Z.of_nat 0) with 1 in M.
      assert (m / base = 0) by (apply Z.div_small; lia). lia.
    + apply Forall_app. split; [assumption|]. now constructor.
Qed.
Lemma abs_fuel a : in64 a -> Z.abs a < 2 ^ Z.of_nat 64.
Proof. unfold in64, min64, max64. change (2 ^ Z.of_nat 64) with 18446744073709551616. lia. Qed.
Lemma format_ok py fuel a base prefix : in64 a -> signed_ok py a -> 2 <= base <= 16 -> (65 <= fuel)%nat ->
  exists ds, int_format py fuel a base prefix = Ok ((if a <? 0 then [45] else []) ++ prefix ++ ds) /\ numeral base ds (Z.abs a) /\ canonical ds.
Proof.
  intros Ha Sa B F. unfold int_format. destruct fuel as [|f]; [lia|].
  assert (Fa : Z.abs a < 2 ^ Z.of_nat f).
  { assert (A := abs_fuel a Ha). assert (2 ^ Z.of_nat 64 <= 2 ^ Z.of_nat f) by (apply Z.pow_le_mono_r; lia). lia. }
  rewrite count_ok by assumption. cbn [bind]. set (ds := digs base f (Z.abs a)).
  replace (0 + zlen ds) with (zlen ds) by lia.
  destruct (Z.ltb_spec a 0) as [L|L].
  - exists ds. destruct (digs_ok base f (Z.abs a) B ltac:(lia)) as (N1 & H1 & F1). fold ds in N1, H1, F1.
    split; [|split; [assumption|split; [now right|assumption]]].
    replace (a <=? 0) with true by lia.
    assert (D : ds <> []). { intros E. rewrite E in N1. inversion N1. now destruct ds0. }
    replace (negb (zlen ds =? 0)) with true by (destruct ds; [easy|unfold zlen; cbn [length]; lia]).
    change (aget chars 16) with (Ok 45). cbn [bind].
    replace (Z.to_nat (zlen ds + 1 + len prefix)) with (S (length prefix + length ds)) by (unfold zlen, len; lia).
    cbn [repeat]. rewrite aset0. cbn [bind app].
    rewrite repeat_app. change (Some 45 :: ?l ++ ?r) with ([Some 45] ++ l ++ r).
    rewrite copy_ok by reflexivity. cbn [bind].
    rewrite app_assoc. rewrite <- (app_nil_r (repeat None (length ds))). unfold ds.
    rewrite put_ok; try assumption.
    2:{ fold ds. unfold zlen, len. rewrite app_length, map_length. cbn [length]. lia. }
    cbn [bind]. fold ds. rewrite app_nil_r. rewrite <- app_assoc.
    change ([Some 45]) with (map (@Some Z) [45]). rewrite <- !map_app. apply written_some.
  - cbn [bind]. destruct (Z.eq_dec a 0) as [->|N0].
    + exists [48]. assert (E : ds = []) by (unfold ds; destruct f; reflexivity). rewrite E.
      split; [|split; [|split; [now left|repeat constructor; lia]]].
      2:{ change (Z.abs 0) with (48 - 48). apply num_one; [left; lia|lia]. }
      change (negb (zlen [] =? 0)) with false. cbv iota. change (aget chars 0) with (Ok 48). cbn [bind].
      replace (Z.to_nat (zlen [] + (if 0 <=? 0 then 1 else 0) + len prefix)) with (length prefix + 1)%nat by (unfold zlen, len; cbn [length Z.leb Z.compare]; lia).
      rewrite repeat_app. rewrite copy0. cbn [bind app repeat].
      rewrite aset_mid by (unfold zlen, len; rewrite map_length; lia). cbn [bind].
      change ([Some 48]) with (map (@Some Z) [48]). rewrite <- map_app. apply written_some.
    + exists ds. destruct (digs_ok base f (Z.abs a) B ltac:(lia)) as (N1 & H1 & F1). fold ds in N1, H1, F1.
      split; [|split; [assumption|split; [now right|assumption]]].
      replace (a <=? 0) with false by lia.
      assert (D : ds <> []). { intros E. rewrite E in N1. inversion N1. now destruct ds0. }
      replace (negb (zlen ds =? 0)) with true by (destruct ds; [easy|unfold zlen; cbn [length]; lia]).
      replace (Z.to_nat (zlen ds + 0 + len prefix)) with (length prefix + length ds)%nat by (unfold zlen, len; lia).
      rewrite repeat_app. rewrite copy0. cbn [bind app].
      rewrite <- (app_nil_r (repeat None (length ds))). unfold ds. rewrite put_ok; try assumption.
      2:{ fold ds. unfold zlen, len. rewrite map_length. lia. }
      cbn [bind]. fold ds. rewrite app_nil_r. rewrite <- map_app. apply written_some.
Qed.
(** With floor division a negative number never becomes 0. *)
Lemma count_diverges fuel : forall base b k, in64 b -> b < 0 -> 2 <= base <= 16 -> count_digits true fuel base b k = NoFuel.
Proof.
  induction fuel as [|n IH]; intros base b k Hb N B; [reflexivity|]. cbn [count_digits].
  replace (b =? 0) with false by lia. unfold idiv. replace (base =? 0) with false by lia.
  assert (B64 : in64 base) by (unfold in64, min64, max64; lia).
  rewrite divmod_floor by (assumption || lia). cbn [bind].
  assert (b / base < 0) by (apply Z.div_lt_upper_bound; lia).
  assert (b <= b / base) by (apply Z.div_le_lower_bound; nia).
  apply IH; [unfold in64, min64, max64 in *; lia|assumption..].
Qed.

(** ** Reading *)

Lemma digit_value_ok c d : digit c d <-> digit_value c = d /\ d < 36.
Proof.
  unfold digit, digit_value. split.
  - intros [(A & ->)|[(A & ->)|(A & ->)]].
    + replace ((48 <=? c) && (c <=? 57)) with true by lia. lia.
    + replace ((48 <=? c) && (c <=? 57)) with false by lia. replace ((97 <=? c) && (c <=? 122)) with true by lia. lia.
    + replace ((48 <=? c) && (c <=? 57)) with false by lia. replace ((97 <=? c) && (c <=? 122)) with false by lia.
      replace ((65 <=? c) && (c <=? 90)) with true by lia. lia.
  - intros (E & L). destruct ((48 <=? c) && (c <=? 57)) eqn:A; [left; lia|].
    destruct ((97 <=? c) && (c <=? 122)) eqn:B; [right; left; lia|].
    destruct ((65 <=? c) && (c <=? 90)) eqn:C; [right; right; lia|lia].
Qed.
Lemma digit_nonneg c d : digit c d -> 0 <= d.
Proof. unfold digit. lia. Qed.
Lemma numeral_nonneg base ds m : 2 <= base -> numeral base ds m -> 0 <= m.
Proof. intros B. induction 1 as [c d D|ds v c d N IH D]; apply digit_nonneg in D; nia. Qed.
Lemma numeral_nil base m : ~ numeral base [] m.
Proof. intros H. inversion H. now destruct ds. Qed.
Lemma numeral_hd base c ds m : numeral base (c :: ds) m -> exists d, digit c d /\ d < base.
Proof.
  intros H. remember (c :: ds) as l eqn:E. revert c ds E. induction H as [c0 d D L|l v c0 d N IH D L]; intros c ds E.
  - inversion E; subst. eauto.
  - destruct l as [|x l]; [now apply numeral_nil in N|]. inversion E; subst. eapply IH. reflexivity.
Qed.
Lemma run_numeral base ds m : numeral base ds m -> forall s n, run_digits base (ds ++ s) 0 n = run_digits base s m (n + len ds).
Proof.
  induction 1 as [c d D L|ds v c d N IH D L]; intros s n; apply digit_value_ok in D as (D & _).
  - cbn [app run_digits]. rewrite D. replace (d <? base) with true by lia. rewrite Z.mul_0_l, Z.add_0_l. reflexivity.
  - rewrite <- app_assoc, IH. cbn [app run_digits]. rewrite D. replace (d <? base) with true by lia.
    f_equal. rewrite len_app, len_cons, len_nil. lia.
Qed.
Lemma run_bound base s : forall v n, n <= snd (run_digits base s v n) <= n + len s.
Proof.
  induction s as [|c s IH]; intros v n; [cbn; lia|]. cbn [run_digits]. rewrite len_cons.
  destruct (digit_value c <? base); [|cbn [snd]; assert (A := len_nonneg s); lia].
  specialize (IH (v * base + digit_value c) (n + 1)). lia.
Qed.
Lemma run_all base s : base <= 36 -> forall pre v m, (pre = [] /\ v = 0 \/ numeral base pre v) ->
  run_digits base s v (len pre) = (m, len pre + len s) -> pre ++ s <> [] -> numeral base (pre ++ s) m.
Proof.
  intros B. induction s as [|c s IH]; intros pre v m P E N.
  - cbn in E. inversion E; subst. rewrite app_nil_r in *. destruct P as [(-> & _)|]; [easy|assumption].
  - cbn [run_digits] in E. destruct (Z.ltb_spec (digit_value c) base) as [L|L].
    + assert (D : digit c (digit_value c)) by (apply digit_value_ok; split; [reflexivity|lia]).
      change (pre ++ c :: s) with (pre ++ [c] ++ s). rewrite app_assoc.
      apply (IH (pre ++ [c]) (v * base + digit_value c)).
      * right. destruct P as [(-> & ->)|P]; [|now constructor]. rewrite Z.mul_0_l, Z.add_0_l. now apply num_one.
      * rewrite len_app, len_cons, len_nil. rewrite len_cons in E. replace (len pre + (1 + 0)) with (len pre + 1) by lia.
        rewrite E. f_equal. lia.
      * now destruct pre.
    + inversion E. rewrite len_cons in *. assert (A := len_nonneg s). lia.
Qed.

Lemma from_chars_ok (neg : bool) ds m base : 2 <= base <= 36 -> numeral base ds m -> in64 (if neg then - m else m) ->
  from_chars ((if neg then [45] else []) ++ ds) base = Some (if neg then - m else m, len ((if neg then [45] else []) ++ ds)).
Proof.
  intros B N I.
  assert (R : run_digits base ds 0 0 = (m, len ds)).
  { rewrite <- (app_nil_r ds) at 1. rewrite (run_numeral _ _ _ N). reflexivity. }
  destruct ds as [|c ds]; [now apply numeral_nil in N|].
  destruct (numeral_hd _ _ _ _ N) as (d & D & _).
  assert (A := len_nonneg ds).
  unfold from_chars. destruct neg; cbn [app].
  - replace (45 =? 45) with true by reflexivity. rewrite R. rewrite len_cons. replace (1 + len ds =? 0) with false by lia.
    replace ((min64 <=? - m) && (- m <=? max64)) with true by (unfold in64 in I; lia). rewrite !len_cons. do 2 f_equal. lia.
  - replace (c =? 45) with false by (unfold digit in D; lia). rewrite R. rewrite len_cons. replace (1 + len ds =? 0) with false by lia.
    replace ((min64 <=? m) && (m <=? max64)) with true by (unfold in64 in I; lia). do 2 f_equal. lia.
Qed.
Lemma from_chars_inv s base v : base <= 36 -> from_chars s base = Some (v, len s) ->
  exists (neg : bool) ds m, s = (if neg then [45] else []) ++ ds /\ numeral base ds m /\ v = (if neg then - m else m) /\ in64 v.
Proof.
  intros B. unfold from_chars.
  assert (G : forall (neg : bool) t, s = (if neg then [45] else []) ++ t ->
    (let '(m, n) := run_digits base t 0 0 in
     if n =? 0 then None else let v := if neg then - m else m in if (min64 <=? v) && (v <=? max64) then Some (v, n + (if neg then 1 else 0)) else None) = Some (v, len s) ->
    exists (neg : bool) ds m, s = (if neg then [45] else []) ++ ds /\ numeral base ds m /\ v = (if neg then - m else m) /\ in64 v).
  { intros neg t E. destruct (run_digits base t 0 0) as [m n] eqn:R. destruct (Z.eqb_spec n 0) as [|N0]; [discriminate|].
    cbv zeta. destruct ((min64 <=? (if neg then - m else m)) && ((if neg then - m else m) <=? max64)) eqn:I; [|discriminate].
    intros H. assert (E1 : (if neg then - m else m) = v) by congruence.
    assert (E2 : n + (if neg then 1 else 0) = len s) by congruence. clear H.
    exists neg, t, m. split; [assumption|]. split; [|split; [congruence|unfold in64; lia]].
    assert (Ln : n = len t). { rewrite E, len_app in E2. destruct neg; rewrite ?len_cons, ?len_nil in E2; lia. }
    apply (run_all base t B [] 0 m); [now left| |].
    - rewrite len_nil. rewrite R. f_equal. lia.
    - cbn. intros ->. rewrite len_nil in Ln. lia. }
  destruct s as [|c r].
  - apply (G false []). reflexivity.
  - destruct (Z.eqb_spec c 45) as [->|Nc]; [apply (G true r)|apply (G false (c :: r))]; reflexivity.
Qed.

(** *** Stripping *)
Definition unspaced (t : list Z) : Prop := ~ starts white t /\ ~ ends white t.
Lemma strip_unique P (a r b a' r' b' : list Z) : Forall P a -> Forall P b -> ~ starts P r -> ~ ends P r ->
  a ++ r ++ b = a' ++ r' ++ b' -> Forall P a' -> Forall P b' -> ~ starts P r' -> ~ ends P r' -> r = r'.
Proof.
  revert a'. induction a as [|x a IH]; intros a' Fa Fb Sr Er E Fa' Fb' Sr' Er'.
  - destruct a' as [|y a'].
    + cbn [app] in E. clear Sr Sr' Fa Fa'.
      rewrite <- (rev_involutive r), <- (rev_involutive r'). f_equal.
      assert (E' : rev b ++ rev r = rev b' ++ rev r') by (rewrite <- !rev_app_distr; now f_equal).
      unfold ends in *. apply Forall_rev in Fb, Fb'. clear E.
      revert E'. generalize (rev b') Fb'. induction Fb as [|x l Px F IH]; intros l' F' E'.
      * destruct l' as [|y l']; [assumption|]. cbn in E'. rewrite E' in Er. cbn in Er. inversion F'; subst. contradiction.
      * destruct l' as [|y l']; cbn in E'; [rewrite <- E' in Er'; cbn in Er'; contradiction|].
        injection E' as _ E'. apply (IH l'); [now inversion F'|assumption].
    + cbn [app] in E. destruct r as [|z r].
      * cbn [app] in E. assert (F : Forall P (r' ++ b')). { rewrite E in Fb. inversion Fb; subst. now apply Forall_app in H2 as [_ ?]. }
        apply Forall_app in F as [F _]. destruct r' as [|w r']; [reflexivity|]. inversion F; subst. now cbn in Sr'.
      * injection E as -> _. inversion Fa'; subst. now cbn in Sr.
  - destruct a' as [|y a'].
    + cbn [app] in E. destruct r' as [|z r'].
      * cbn [app] in E. rewrite <- E in Fb'. inversion Fb'; subst. apply Forall_app in H2 as [_ F]. apply Forall_app in F as [F _].
        destruct r as [|w r]; [reflexivity|]. inversion F; subst. now cbn in Sr.
      * injection E as <- _. inversion Fa; subst. now cbn in Sr'.
    + injection E as _ E. inversion Fa; subst. inversion Fa'; subst. eapply IH; eauto.
Qed.
Lemma strip_inv s : exists a t b, str_strip s [] = Ok t /\ s = a ++ t ++ b /\ Forall white a /\ Forall white b /\ unspaced t.
Proof.
  destruct (strip_ok s []) as (t & r & E & (a & Ea & Fa & Sa) & (b & Eb & Fb & Sb)).
  exists a, r, b. split; [assumption|]. split; [now subst|]. split; [assumption|]. split; [assumption|]. split; [|assumption].
  intros W. apply Sa. subst t. destruct r as [|c r]; [easy|assumption].
Qed.
Lemma strip_spaced a t b : Forall white a -> Forall white b -> unspaced t -> str_strip (a ++ t ++ b) [] = Ok t.
Proof.
  intros Fa Fb (S1 & S2). destruct (strip_inv (a ++ t ++ b)) as (a' & t' & b' & -> & E & Fa' & Fb' & (S1' & S2')).
  f_equal. symmetry. exact (strip_unique white a t b a' t' b' Fa Fb S1 S2 E Fa' Fb' S1' S2').
Qed.

(** *** The prefix *)
Definition pletter (base c : Z) : bool := (c =? lower base) || (c =? upper base).
Definition based (base : Z) : Prop := base = 2 \/ base = 8 \/ base = 16.
Lemma drop_view t base : drop_prefix t base =
  match t with
  | c0 :: c1 :: c2 :: d :: r =>
      if ((c0 =? 43) || (c0 =? 45)) && (c1 =? 48) && pletter base c2 then
        (if check_digit d base then Ok (c0 =? 45, d :: r) else Raise ValueError)
      else if (c0 =? 48) && pletter base c1 then (if check_digit d base then Ok (false, c2 :: d :: r) else Raise ValueError)
      else Ok (false, t)
  | [c0; c1; c2] => if (c0 =? 48) && pletter base c1 then Undef else Ok (false, t)
  | _ => Ok (false, t)
  end.
Proof.
  unfold drop_prefix, signed_prefix, plain_prefix.
  destruct t as [|c0 [|c1 [|c2 [|d r]]]]; try reflexivity.
  - change (4 <=? len [c0; c1; c2]) with false. change (3 <=? len [c0; c1; c2]) with true.
    change (get [c0; c1; c2] 0) with (Ok c0). change (get [c0; c1; c2] 1) with (Ok c1). change (get [c0; c1; c2] 3) with (@Undef Z).
    cbn [bind]. unfold pletter. destruct (c0 =? 48); [|reflexivity]. cbn [andb bind].
    destruct ((c1 =? lower base) || (c1 =? upper base)); reflexivity.
  - set (t := c0 :: c1 :: c2 :: d :: r).
    assert (A := len_nonneg r).
    assert (L : len t = 4 + len r) by (unfold t; rewrite !len_cons; lia).
    rewrite L. replace (4 <=? 4 + len r) with true by lia. replace (3 <=? 4 + len r) with true by lia.
    assert (G : forall i x, 0 <= i < 4 -> nth (Z.to_nat i) t 0 = x -> get t i = Ok x).
    { intros i x I <-. rewrite get_ok by lia. reflexivity. }
    rewrite (G 0 c0), (G 1 c1), (G 2 c2), (G 3 d) by (lia || reflexivity). cbn [bind].
    assert (D3 : slice_ t 3 (4 + len r) = Ok (d :: r)).
    { rewrite slice_ok by lia. unfold sub. change (skipn (Z.to_nat 3) t) with (d :: r). rewrite firstn_all2; [reflexivity|]. unfold len. cbn [length]. lia. }
    assert (D2 : slice_ t 2 (4 + len r) = Ok (c2 :: d :: r)).
    { rewrite slice_ok by lia. unfold sub. change (skipn (Z.to_nat 2) t) with (c2 :: d :: r). rewrite firstn_all2; [reflexivity|]. unfold len. cbn [length]. lia. }
    rewrite D3, D2. cbn [bind]. unfold pletter.
    destruct ((c0 =? 43) || (c0 =? 45)) eqn:S0; cbn [andb bind].
    + assert (Z0 : c0 =? 48 = false) by lia. rewrite Z0. cbn [andb].
      destruct (c1 =? 48); cbn [andb bind]; [|reflexivity].
      destruct ((c2 =? lower base) || (c2 =? upper base)); [|reflexivity]. destruct (check_digit d base); reflexivity.
    + destruct (c0 =? 48); cbn [andb bind]; [|reflexivity].
      destruct ((c1 =? lower base) || (c1 =? upper base)); [|reflexivity]. destruct (check_digit d base); reflexivity.
Qed.
Lemma check_ok base c : based base -> check_digit c base = true <-> exists d, digit c d /\ d < base.
Proof.
  intros B. unfold check_digit, digit. destruct B as [-> | [-> | ->]]; cbn [Z.eqb Pos.eqb].
  - split; [intros; exists (c - 48); lia|intros (d & H & L); lia].
  - split; [intros; exists (c - 48); lia|intros (d & H & L); lia].
  - split; [|intros (d & H & L); lia]. intros H.
    destruct (Z.leb_spec c 57); [exists (c - 48); lia|]. destruct (Z.leb_spec 97 c); [exists (c - 87); lia|exists (c - 55); lia].
Qed.
Lemma pletter_ok base c : based base -> pletter base c = true <-> base_prefix base [48; c].
Proof.
  intros B. unfold pletter, lower, upper. destruct B as [-> | [-> | ->]]; cbn [Z.eqb Pos.eqb]; split.
  1,3,5: intros H; constructor; lia.
  all: intros H; inversion H; subst; lia.
Qed.
Lemma pletter_not_digit base c d : based base -> digit c d -> d < base -> pletter base c = false.
Proof. intros B D L. unfold pletter, lower, upper, digit in *. destruct B as [-> | [-> | ->]]; cbn [Z.eqb Pos.eqb]; lia. Qed.

(** *** A text without spaces *)
Definition core (t : str) (base : Z) : res Z :=
  '(negate, u) <- (if (base =? 2) || (base =? 8) || (base =? 16) then drop_prefix t base else Ok (false, t)) ;; finish u base negate.
Lemma from_str_core a t b base : Forall white a -> Forall white b -> unspaced t -> 2 <= base <= 36 -> from_str (a ++ t ++ b) base = core t base.
Proof.
  intros Fa Fb U B. unfold from_str. replace ((base <? 0) || (36 <? base) || (base =? 1)) with false by lia.
  rewrite strip_spaced by assumption. cbn [bind]. replace (base =? 0) with false by lia. reflexivity.
Qed.
Lemma from_str_strip s base : 2 <= base <= 36 -> exists a t b, s = a ++ t ++ b /\ Forall white a /\ Forall white b /\ unspaced t /\ from_str s base = core t base.
Proof.
  intros B. destruct (strip_inv s) as (a & t & b & _ & E & Fa & Fb & U). exists a, t, b.
  split; [assumption|]. split; [assumption|]. split; [assumption|]. split; [assumption|]. subst s. now apply from_str_core.
Qed.
Lemma numeral_forall base ds m : numeral base ds m -> Forall (fun c => exists d, digit c d /\ d < base) ds.
Proof. induction 1; [constructor; [eauto|constructor]|]. apply Forall_app. split; [assumption|]. constructor; [eauto|constructor]. Qed.
Lemma finish_ok (neg : bool) ds m base (negate : bool) : 2 <= base <= 36 -> numeral base ds m -> in64 (if neg then - m else m) ->
  finish ((if neg then [45] else []) ++ ds) base negate = Ok (if negate then w64 (- (if neg then - m else m)) else if neg then - m else m).
Proof. intros B N I. unfold finish. rewrite (from_chars_ok neg ds m) by assumption. rewrite Z.eqb_refl. reflexivity. Qed.
Lemma finish_inv u base negate v : base <= 36 -> finish u base negate = Ok v ->
  exists (neg : bool) ds m, u = (if neg then [45] else []) ++ ds /\ numeral base ds m /\ in64 (if neg then - m else m) /\
  v = (if negate then w64 (- (if neg then - m else m)) else if neg then - m else m).
Proof.
  intros B. unfold finish. destruct (from_chars u base) as [[x e]|] eqn:F; [|discriminate].
  destruct (Z.eqb_spec e (len u)) as [->|]; [|discriminate]. cbn [negb]. intros E.
  destruct (from_chars_inv u base x B F) as (neg & ds & m & Eu & N & Ex & I). exists neg, ds, m.
  subst x. split; [assumption|]. split; [assumption|]. split; [assumption|]. congruence.
Qed.
Lemma finish_raise u base negate : (exists v, finish u base negate = Ok v) \/ finish u base negate = Raise ValueError.
Proof. unfold finish. destruct (from_chars u base) as [[x e]|]; [|now right]. destruct (negb (e =? len u)); [now right|]. left. eauto. Qed.
Lemma based_test base : (base =? 2) || (base =? 8) || (base =? 16) = true <-> based base.
Proof. unfold based. lia. Qed.
Lemma prefix_inv base pre : base_prefix base pre -> based base /\ exists c, pre = [48; c] /\ pletter base c = true.
Proof.
  unfold based, pletter, lower, upper. intros H. inversion H as [c Hc|c Hc|c Hc]; subst; (split; [auto|]); exists c; (split; [reflexivity|]); cbn [Z.eqb Pos.eqb]; lia.
Qed.

Lemma core_plain base sg e ds m : 2 <= base <= 36 -> sign sg e -> sg <> [43] -> numeral base ds m -> in64 (e * m) ->
  core (sg ++ ds) base = Ok (e * m).
Proof.
  intros B Sg N43 N I.
  assert (F : finish (sg ++ ds) base false = Ok (e * m)).
  { destruct Sg; [|easy|].
    - rewrite Z.mul_1_l in *. apply (finish_ok false ds m base false); assumption.
    - replace (-1 * m) with (- m) in * by lia. apply (finish_ok true ds m base false); assumption. }
  unfold core. destruct ((base =? 2) || (base =? 8) || (base =? 16)) eqn:Bs; [|exact F]. apply based_test in Bs.
  assert (Fd := numeral_forall _ _ _ N).
  rewrite drop_view. destruct Sg; [|easy|]; cbn [app] in *.
  - destruct ds as [|c0 [|c1 [|c2 [|d r]]]]; try exact F.
    + inversion Fd as [|? ? _ F1]; subst. inversion F1 as [|? ? (d1 & D1 & L1) _]; subst.
      rewrite (pletter_not_digit base c1 d1) by assumption. rewrite andb_false_r. exact F.
    + inversion Fd as [|? ? (d0 & D0 & _) F1]; subst. inversion F1 as [|? ? (d1 & D1 & L1) _]; subst.
      rewrite (pletter_not_digit base c1 d1) by assumption. rewrite andb_false_r.
      replace ((c0 =? 43) || (c0 =? 45)) with false by (unfold digit in D0; lia). exact F.
  - destruct ds as [|c1 [|c2 [|d r]]]; try exact F.
    inversion Fd as [|? ? _ F1]; subst. inversion F1 as [|? ? (d1 & D1 & L1) _]; subst.
    rewrite (pletter_not_digit base c2 d1) by assumption. rewrite andb_false_r. exact F.
Qed.
Lemma core_prefix base sg e pre ds m : sign sg e -> base_prefix base pre -> numeral base ds m -> in64 m -> (sg = [] -> 2 <= len ds) ->
  core (sg ++ pre ++ ds) base = Ok (e * m).
Proof.
  intros Sg P N I L. destruct (prefix_inv _ _ P) as (Bs & c & -> & Pc).
  assert (Fd := numeral_forall _ _ _ N). unfold core. rewrite (proj2 (based_test base) Bs).
  assert (B : 2 <= base <= 36) by (unfold based in Bs; lia).
  assert (W : w64 (- m) = - m). { apply w64_id. assert (M := numeral_nonneg base ds m ltac:(lia) N). unfold in64, min64, max64 in *. lia. }
  rewrite drop_view. destruct Sg; cbn [app] in *.
  - specialize (L eq_refl). destruct ds as [|c2 [|d r]]; [rewrite len_nil in L; lia|rewrite len_cons, len_nil in L; lia|].
    cbn [Z.eqb Pos.eqb orb andb]. rewrite Pc.
    inversion Fd as [|? ? _ F1]; subst. inversion F1 as [|? ? Dd _]; subst. rewrite (proj2 (check_ok base d Bs) Dd). cbn [bind].
    rewrite (finish_ok false (c2 :: d :: r) m : forall b n, _) by assumption. f_equal. lia.
  - destruct ds as [|d r]; [now apply numeral_nil in N|]. cbn [Z.eqb Pos.eqb orb andb]. rewrite Pc.
    inversion Fd as [|? ? Dd _]; subst. rewrite (proj2 (check_ok base d Bs) Dd). cbn [bind].
    rewrite (finish_ok false (d :: r) m : forall b n, _) by assumption. f_equal. lia.
  - destruct ds as [|d r]; [now apply numeral_nil in N|]. cbn [Z.eqb Pos.eqb orb andb]. rewrite Pc.
    inversion Fd as [|? ? Dd _]; subst. rewrite (proj2 (check_ok base d Bs) Dd). cbn [bind].
    rewrite (finish_ok false (d :: r) m : forall b n, _) by assumption. cbv iota. rewrite W. now replace (-1 * m) with (- m) by lia.
Qed.

Definition double_sign (base : Z) (t : list Z) : Prop := exists c r, t = [48; c; 45] ++ r /\ base_prefix base [48; c].
Definition short_prefix (base : Z) (t : list Z) : Prop := exists c d, t = [48; c; d] /\ base_prefix base [48; c].
Lemma finish_literal base t v : base <= 36 -> finish t base false = Ok v -> literal base t v /\ in64 v.
Proof.
  intros B F. apply finish_inv in F as (neg & ds & m & Et & N & I & Ev); [|assumption]. subst v. split; [|assumption].
  destruct neg.
  - exists [45], (-1), [], ds, m. subst t. split; [reflexivity|]. split; [constructor|]. split; [now left|]. split; [assumption|lia].
  - exists [], 1, [], ds, m. subst t. split; [reflexivity|]. split; [constructor|]. split; [now left|]. split; [assumption|lia].
Qed.
Lemma core_inv base t v : 2 <= base <= 36 -> core t base = Ok v -> in64 v /\ (literal base t v \/ double_sign base t).
Proof.
  intros B. unfold core. destruct ((base =? 2) || (base =? 8) || (base =? 16)) eqn:Bs.
  2:{ cbn [bind]. intros F. apply finish_literal in F as (? & ?); [auto|lia]. }
  apply based_test in Bs.
  assert (Fin : forall t0, finish t0 base false = Ok v -> in64 v /\ (literal base t0 v \/ double_sign base t0)).
  { intros t0 F. apply finish_literal in F as (? & ?); [auto|lia]. }
  rewrite drop_view. destruct t as [|c0 [|c1 [|c2 [|d r]]]]; cbn [bind]; try (apply Fin).
  - destruct ((c0 =? 48) && pletter base c1); cbn [bind]; [discriminate|]. apply Fin.
  - destruct (((c0 =? 43) || (c0 =? 45)) && (c1 =? 48) && pletter base c2) eqn:E1.
    + apply andb_true_iff in E1 as (E1 & P). apply andb_true_iff in E1 as (S0 & Z1).
      destruct (check_digit d base) eqn:C; cbn [bind]; [|discriminate]. intros F.
      apply finish_inv in F as (neg & ds & m & Et & N & I & Ev); [|lia].
      assert (neg = false) as ->.
      { destruct neg; [|reflexivity]. inversion Et; subst. apply check_ok in C as (x & D & _); [|assumption]. unfold digit in D. lia. }
      cbn [app] in Et. assert (M := numeral_nonneg base ds m ltac:(lia) N).
      assert (Ev' : v = if c0 =? 45 then - m else m).
      { subst v. destruct (c0 =? 45); [|reflexivity]. apply w64_id. unfold in64, min64, max64 in *. lia. }
      split. { subst v. rewrite Ev'. unfold in64, min64, max64 in *. destruct (c0 =? 45); lia. }
      left. exists [c0], (if c0 =? 45 then -1 else 1), [48; c2], ds, m.
      assert (c1 = 48) by lia. subst c1. split; [cbn; congruence|]. split; [|split; [|split; [assumption|]]].
      * destruct (Z.eqb_spec c0 45) as [->|]; [constructor|]. assert (c0 = 43) by lia. subst c0. constructor.
      * right. now apply pletter_ok.
      * rewrite Ev'. destruct (c0 =? 45); lia.
    + destruct ((c0 =? 48) && pletter base c1) eqn:E2; cbn [bind]; [|apply Fin].
      apply andb_true_iff in E2 as (Z0 & P). assert (c0 = 48) by lia. subst c0. apply pletter_ok in P; [|assumption].
      destruct (check_digit d base) eqn:C; cbn [bind]; [|discriminate]. intros F.
      apply finish_inv in F as (neg & ds & m & Et & N & I & Ev); [|lia]. split; [subst v; assumption|].
      destruct neg.
      * right. inversion Et; subst. exists c1, (d :: r). auto.
      * left. exists [], 1, [48; c1], ds, m. cbn [app] in *. split; [congruence|]. split; [constructor|].
        split; [now right|]. split; [assumption|lia].
Qed.
Lemma core_raise base t : (exists v, core t base = Ok v) \/ core t base = Raise ValueError \/ short_prefix base t /\ core t base = Undef.
Proof.
  assert (Fin : forall t0 n, (exists v, finish t0 base n = Ok v) \/ finish t0 base n = Raise ValueError \/ short_prefix base t /\ finish t0 base n = Undef).
  { intros t0 n. destruct (finish_raise t0 base n) as [|]; auto. }
  unfold core. destruct ((base =? 2) || (base =? 8) || (base =? 16)) eqn:Bs; [|apply Fin]. apply based_test in Bs.
  rewrite drop_view. destruct t as [|c0 [|c1 [|c2 [|d r]]]]; cbn [bind]; try (apply Fin).
  - destruct ((c0 =? 48) && pletter base c1) eqn:E2; cbn [bind]; [|apply Fin]. right. right. split; [|reflexivity].
    apply andb_true_iff in E2 as (Z0 & P). assert (c0 = 48) by lia. subst c0. exists c1, c2. split; [reflexivity|]. now apply pletter_ok.
  - destruct (((c0 =? 43) || (c0 =? 45)) && (c1 =? 48) && pletter base c2).
    + destruct (check_digit d base); cbn [bind]; [apply Fin|auto].
    + destruct ((c0 =? 48) && pletter base c1); cbn [bind]; [|apply Fin]. destruct (check_digit d base); cbn [bind]; [apply Fin|auto].
Qed.

(** *** Literals *)
Lemma digit_black c d : digit c d -> ~ white c.
Proof. unfold digit, white. cbn [In]. lia. Qed.
Lemma numeral_last base ds m : numeral base ds m -> exists l c d, ds = l ++ [c] /\ digit c d /\ d < base.
Proof. intros H. inversion H as [c d D L|l v c d N D L]; subst; [exists [], c, m|exists l, c, d]; auto. Qed.
Lemma literal_unspaced base t v : literal base t v -> unspaced t.
Proof.
  intros (sg & e & pre & ds & m & -> & Sg & P & N & _). split.
  - destruct ds as [|c ds]; [now apply numeral_nil in N|]. destruct (numeral_hd _ _ _ _ N) as (d & D & _). apply digit_black in D.
    destruct Sg; cbn [app].
    + destruct P as [->|P]; [exact D|]. destruct (prefix_inv _ _ P) as (_ & x & -> & _). cbn. unfold white. cbn [In]. lia.
    + cbn. unfold white. cbn [In]. lia.
    + cbn. unfold white. cbn [In]. lia.
  - destruct (numeral_last _ _ _ N) as (l & c & d & -> & D & _). apply digit_black in D.
    unfold ends. rewrite !app_assoc. rewrite rev_app_distr. exact D.
Qed.
Lemma numeral_fun base ds m m' : numeral base ds m -> numeral base ds m' -> m = m'.
Proof.
  intros H H'. assert (A := run_numeral _ _ _ H [] 0). assert (A' := run_numeral _ _ _ H' [] 0). rewrite A' in A. cbn in A. congruence.
Qed.
Lemma literal_fun base t v v' : literal base t v -> literal base t v' -> v = v'.
Proof.
  assert (X : forall base ds m pre ds', numeral base ds m -> base_prefix base pre -> ds = pre ++ ds' -> False).
  { intros b0 ds m pre ds' N P ->. destruct (prefix_inv _ _ P) as (Bs & c & -> & Pc). apply numeral_forall in N. cbn [app] in N.
    inversion N as [|? ? _ F1]; subst. inversion F1 as [|? ? (d1 & D1 & L1) _]; subst.
    rewrite (pletter_not_digit b0 c d1) in Pc by assumption. discriminate. }
  assert (Y : forall base pre ds m c r, (pre = [] \/ base_prefix base pre) -> numeral base ds m -> pre ++ ds = c :: r -> c = 43 \/ c = 45 -> False).
  { intros b0 pre ds m c r P N E C. destruct P as [->|P].
    - cbn in E. subst ds. apply numeral_hd in N as (d & D & _). unfold digit in D. lia.
    - destruct (prefix_inv _ _ P) as (_ & x & -> & _). inversion E. lia. }
  intros (sg & e & pre & ds & m & E & Sg & P & N & ->) (sg' & e' & pre' & ds' & m' & E' & Sg' & P' & N' & ->).
  subst t. assert (S0 : sg = sg' /\ e = e' /\ pre ++ ds = pre' ++ ds').
  { destruct Sg, Sg'; cbn [app] in E'; try (injection E' as E'); auto; exfalso.
    - eapply (Y _ _ _ _ _ _ P N E'); auto.
    - eapply (Y _ _ _ _ _ _ P N E'); auto.
    - symmetry in E'. eapply (Y _ _ _ _ _ _ P' N' E'); auto.
    - discriminate.
    - symmetry in E'. eapply (Y _ _ _ _ _ _ P' N' E'); auto.
    - discriminate. }
  destruct S0 as (_ & -> & E0). f_equal.
  assert (ds = ds').
  { destruct P as [->|P], P' as [->|P']; cbn [app] in E0.
    - assumption.
    - exfalso. eapply X; [apply N|apply P'|apply E0].
    - exfalso. eapply X; [apply N'|apply P|symmetry; apply E0].
    - destruct (prefix_inv _ _ P) as (_ & x & -> & _). destruct (prefix_inv _ _ P') as (_ & x' & -> & _). now inversion E0. }
  subst ds'. eapply numeral_fun; eassumption.
Qed.

(** *** Base 0 *)
Definition unsigned (t : str) : str := match t with c :: r => if (c =? 43) || (c =? 45) then r else t | [] => t end.
Lemma detect_view t : detect t =
  match unsigned t with
  | c :: r =>
      if c =? 48 then
        match r with
        | [] => Raise ValueError
        | d :: _ =>
            if (d =? 98) || (d =? 66) then Ok 2 else if (d =? 111) || (d =? 79) then Ok 8
            else if (d =? 120) || (d =? 88) then Ok 16 else Raise ValueError
        end
      else Ok 10
  | [] => Ok 10
  end.
Proof.
  assert (G : forall a c r, get (a ++ c :: r) (len a) = Ok c).
  { intros a c r. rewrite get_ok by (rewrite len_app, len_cons; assert (A := len_nonneg a); assert (A' := len_nonneg r); lia).
    unfold byte_at, len. rewrite Nat2Z.id, app_nth2, Nat.sub_diag by lia. reflexivity. }
  unfold detect, unsigned. destruct t as [|c t]; [reflexivity|].
  assert (L := len_nonneg t). rewrite len_cons. replace (1 <=? 1 + len t) with true by lia.
  change (get (c :: t) 0) with (get ([] ++ c :: t) (len [])). rewrite G. cbn [bind app].
  destruct ((c =? 43) || (c =? 45)).
  - destruct t as [|c1 t]; [reflexivity|]. rewrite len_cons in *. replace (1 + 1 <=? 1 + (1 + len t)) with true by (assert (A := len_nonneg t); lia).
    change (get (c :: c1 :: t) 1) with (get ([c] ++ c1 :: t) (len [c])). rewrite G. cbn [bind].
    destruct (c1 =? 48); [|reflexivity]. destruct t as [|d t]; [reflexivity|]. rewrite len_cons in *.
    replace (1 + (1 + (1 + len t)) <? 1 + 2) with false by (assert (A := len_nonneg t); lia).
    change (get (c :: c1 :: d :: t) (1 + 1)) with (get ([c; c1] ++ d :: t) (len [c; c1])). rewrite G. reflexivity.
  - replace (0 + 1 <=? 1 + len t) with true by lia.
    change (get (c :: t) 0) with (get ([] ++ c :: t) (len [])). rewrite G. cbn [bind].
    destruct (c =? 48); [|reflexivity]. destruct t as [|d t]; [reflexivity|]. rewrite len_cons in *.
    replace (1 + (1 + len t) <? 0 + 2) with false by (assert (A := len_nonneg t); lia).
    change (get (c :: d :: t) (0 + 1)) with (get ([c] ++ d :: t) (len [c])). rewrite G. reflexivity.
Qed.
Lemma detect_range t x : detect t = Ok x -> x = 2 \/ x = 8 \/ x = 10 \/ x = 16.
Proof.
  rewrite detect_view. destruct (unsigned t) as [|c r]; [intros E; inversion E; auto|].
  destruct (c =? 48); [|intros E; inversion E; auto]. destruct r as [|d r]; [discriminate|].
  destruct ((d =? 98) || (d =? 66)); [intros E; inversion E; auto|].
  destruct ((d =? 111) || (d =? 79)); [intros E; inversion E; auto|].
  destruct ((d =? 120) || (d =? 88)); [intros E; inversion E; auto|discriminate].
Qed.
Lemma detect_raise t : (exists x, detect t = Ok x) \/ detect t = Raise ValueError.
Proof.
  rewrite detect_view. destruct (unsigned t) as [|c r]; [eauto|].
  destruct (c =? 48); [|eauto]. destruct r as [|d r]; [auto|].
  destruct ((d =? 98) || (d =? 66)); [eauto|]. destruct ((d =? 111) || (d =? 79)); [eauto|]. destruct ((d =? 120) || (d =? 88)); eauto.
Qed.
Lemma from_str_0 a t b : Forall white a -> Forall white b -> unspaced t ->
  from_str (a ++ t ++ b) 0 = (base <- detect t ;; from_str (a ++ t ++ b) base).
Proof.
  intros Fa Fb U. unfold from_str at 1. cbn [Z.ltb Z.eqb Z.compare orb]. rewrite strip_spaced by assumption. cbn [bind].
  destruct (detect_raise t) as [(x & E)| ->]; [|reflexivity]. assert (X := detect_range t x E). rewrite E. cbn [bind].
  rewrite from_str_core by (assumption || lia). reflexivity.
Qed.
Lemma detect_prefix base sg e pre ds : sign sg e -> base_prefix base pre -> detect (sg ++ pre ++ ds) = Ok base.
Proof.
  intros Sg P. rewrite detect_view. unfold unsigned.
  destruct Sg; cbn [app]; inversion P as [c [-> | ->]|c [-> | ->]|c [-> | ->]]; subst; reflexivity.
Qed.
Lemma detect_ten sg e ds m : sign sg e -> numeral 10 ds m -> hd 0 ds <> 48 -> detect (sg ++ ds) = Ok 10.
Proof.
  intros Sg N H. rewrite detect_view. unfold unsigned. destruct ds as [|c ds]; [now apply numeral_nil in N|]. cbn [hd] in H.
  destruct (numeral_hd _ _ _ _ N) as (d & D & _).
  destruct Sg; cbn [app Z.eqb Pos.eqb orb].
  - replace ((c =? 43) || (c =? 45)) with false by (unfold digit in D; lia). replace (c =? 48) with false by lia. reflexivity.
  - replace (c =? 48) with false by lia. reflexivity.
  - replace (c =? 48) with false by lia. reflexivity.
Qed.
