(** C76: integers as texts. *)
From Coq Require Import List ZArith Lia Bool.
From Verif.Common Require Import Result Int64 Arr.
From Verif.Str Require Import Model Spec Basic.
From Verif.Num Require Import TextModel TextSpec TextProofs.
Import ListNotations.
Local Open Scope Z_scope.

(** [bin], [oct] and [hex] write the sign, the prefix and the digits of the magnitude without
    zeros in front, in a buffer of exactly that size. With the default numerics this holds of every
    number, with Python's of those not negative. *)
Theorem C76_write py fuel n : in64 n -> (py = false \/ 0 <= n) -> (65 <= fuel)%nat ->
  let sign := if n <? 0 then [45] else [] in
  (exists ds, bin py fuel n = Ok (sign ++ [48; 98] ++ ds) /\ numeral 2 ds (Z.abs n) /\ canonical ds) /\
  (exists ds, oct py fuel n = Ok (sign ++ [48; 111] ++ ds) /\ numeral 8 ds (Z.abs n) /\ canonical ds) /\
  (exists ds, hex py fuel n = Ok (sign ++ [48; 120] ++ ds) /\ numeral 16 ds (Z.abs n) /\ canonical ds).
Proof. intros I S F. repeat split; apply format_ok; (assumption || lia). Qed.
(** With Python's numerics they do not return for a negative number. *)
Theorem C76_write_refuted n fuel : in64 n -> n < 0 -> bin true fuel n = NoFuel /\ oct true fuel n = NoFuel /\ hex true fuel n = NoFuel.
Proof.
  intros I N. unfold bin, oct, hex, int_format. now rewrite !count_diverges by (assumption || lia).
Qed.

(** [int(text, base)] for a base from 2 to 36. A literal, with white space around it, whose value
    fits, is read. Left out: a sign '+' without prefix, a single digit after a prefix without sign,
    and the smallest [int] with a prefix. *)
Theorem C76_read_partial base a sg e pre ds m b : 2 <= base <= 36 ->
  Forall white a -> Forall white b -> sign sg e -> (pre = [] \/ base_prefix base pre) -> numeral base ds m -> in64 (e * m) ->
  (pre = [] -> sg <> [43]) -> (pre <> [] -> sg = [] -> 2 <= len ds) -> (pre <> [] -> e * m <> min64) ->
  from_str (a ++ (sg ++ pre ++ ds) ++ b) base = Ok (e * m).
Proof.
  intros B Fa Fb Sg P N I H1 H2 H3.
  assert (L : literal base (sg ++ pre ++ ds) (e * m)) by (exists sg, e, pre, ds, m; auto).
  rewrite from_str_core; try assumption; [|now apply literal_unspaced in L].
  destruct P as [->|P].
  - cbn [app]. apply core_plain; auto.
  - assert (Np : pre <> []) by (intros ->; inversion P).
    apply core_prefix; auto. specialize (H3 Np). assert (M := numeral_nonneg base ds m ltac:(lia) N).
    unfold in64, min64, max64 in *. destruct Sg; lia.
Qed.
(** Nothing else is read, except a '-' after a prefix without sign. *)
Theorem C76_accept_partial base s v : 2 <= base <= 36 -> from_str s base = Ok v ->
  in64 v /\ exists a t b, s = a ++ t ++ b /\ Forall white a /\ Forall white b /\
    (literal base t v \/ exists c r, t = [48; c; 45] ++ r /\ base_prefix base [48; c]).
Proof.
  intros B E. destruct (from_str_strip s base B) as (a & t & b & Es & Fa & Fb & U & C). rewrite C in E.
  apply core_inv in E as (I & L); [|assumption]. split; [assumption|]. exists a, t, b. auto.
Qed.
(** Every other text is a ValueError; only a prefix followed by one byte reads outside the text. *)
Theorem C76_reject_partial base s : 2 <= base <= 36 ->
  (exists v, from_str s base = Ok v) \/ from_str s base = Raise ValueError \/
  exists a c d b, s = a ++ [48; c; d] ++ b /\ Forall white a /\ Forall white b /\ base_prefix base [48; c].
Proof.
  intros B. destruct (from_str_strip s base B) as (a & t & b & Es & Fa & Fb & U & C). rewrite C.
  destruct (core_raise base t) as [H|[H|((c & d & -> & P) & _)]]; [auto..|]. right. right. exists a, c, d, b. auto.
Qed.
(** A literal whose value does not fit is a ValueError. *)
Theorem C76_overflow base a t b v : 2 <= base <= 36 -> Forall white a -> Forall white b -> literal base t v -> ~ in64 v ->
  from_str (a ++ t ++ b) base = Raise ValueError.
Proof.
  intros B Fa Fb L I. assert (U := literal_unspaced _ _ _ L). rewrite from_str_core by assumption.
  destruct (core_raise base t) as [(w & H)|[H|((c & d & -> & P) & _)]]; [|assumption|].
  - exfalso. destruct (core_inv base t w B H) as (Iw & [Lw|(c & r & -> & P)]).
    + apply I. now rewrite (literal_fun base t v w L Lw).
    + destruct L as (sg & e & pre & ds & m & E & Sg & Pp & N & _).
      apply (numeral_forall base ds m) in N. destruct Sg; cbn [app] in E; try (injection E as E; lia).
      destruct Pp as [->|Pp].
      * cbn [app] in E. subst ds. inversion N as [|? ? _ N1]; subst. inversion N1 as [|? ? _ N2]; subst. inversion N2 as [|? ? (x & D & _) _]; subst. unfold digit in D. lia.
      * destruct (prefix_inv _ _ Pp) as (_ & c' & -> & _). injection E as _ E. subst ds. inversion N as [|? ? (x & D & _) _]; subst. unfold digit in D. lia.
  - exfalso. apply I. destruct L as (sg & e & pre & ds & m & E & Sg & Pp & N & ->).
    assert (Bs := prefix_inv _ _ P). destruct Bs as (Bs & c' & Ec & Pc). injection Ec as <-.
    destruct Sg; cbn [app] in E; try (injection E as E; lia). destruct Pp as [->|Pp].
    + cbn [app] in E. subst ds. apply numeral_forall in N. inversion N as [|? ? _ N1]; subst. inversion N1 as [|? ? (x & D & Lx) _]; subst.
      rewrite (pletter_not_digit base c x) in Pc by assumption. discriminate.
    + destruct (prefix_inv _ _ Pp) as (_ & c'' & -> & _). injection E as _ E. subst ds.
      assert (M : m < 36 /\ 0 <= m).
      { assert (M0 := numeral_nonneg base [d] m ltac:(lia) N). split; [|assumption].
        inversion N as [x y D Ly|l w x y Nw D Ly E1]; subst; [lia|]. destruct l as [|z [|z' l]]; [now apply numeral_nil in Nw|discriminate..]. }
      unfold in64, min64, max64. lia.
Qed.
(** Base 0: the prefix tells the base, 10 without one. *)
Theorem C76_base_zero_partial a sg e b : Forall white a -> Forall white b -> sign sg e ->
  (forall base pre ds m, base_prefix base pre -> numeral base ds m ->
     from_str (a ++ (sg ++ pre ++ ds) ++ b) 0 = from_str (a ++ (sg ++ pre ++ ds) ++ b) base) /\
  (forall ds m, numeral 10 ds m -> hd 0 ds <> 48 -> from_str (a ++ (sg ++ ds) ++ b) 0 = from_str (a ++ (sg ++ ds) ++ b) 10).
Proof.
  intros Fa Fb Sg. split.
  - intros base pre ds m P N. rewrite from_str_0; try assumption.
    + rewrite (detect_prefix base sg e pre ds Sg P). reflexivity.
    + apply (literal_unspaced base _ (e * m)). exists sg, e, pre, ds, m. auto.
  - intros ds m N H. rewrite from_str_0; try assumption.
    + rewrite (detect_ten sg e ds m Sg N H). reflexivity.
    + apply (literal_unspaced 10 _ (e * m)). exists sg, e, [], ds, m. auto.
Qed.
(** Base 0 accepts nothing that none of the four bases accepts; other bases are a ValueError. *)
Theorem C76_bases s base :
  (from_str s 0 = Raise ValueError \/ exists x, (x = 2 \/ x = 8 \/ x = 10 \/ x = 16) /\ from_str s 0 = from_str s x) /\
  (base < 0 \/ base = 1 \/ 36 < base -> from_str s base = Raise ValueError).
Proof.
  split.
  - destruct (strip_inv s) as (a & t & b & _ & -> & Fa & Fb & U). rewrite from_str_0 by assumption.
    destruct (detect_raise t) as [(x & E)| ->]; [|now left]. right. exists x. split; [now apply detect_range in E|]. now rewrite E.
  - intros H. unfold from_str. replace ((base <? 0) || (36 <? base) || (base =? 1)) with true by lia. reflexivity.
Qed.
(** What [bin], [oct] and [hex] write is read back, with the base or with base 0: all negative
    numbers but the smallest, and all numbers of two digits or more. *)
Theorem C76_round_trip_partial py fuel n s : in64 n -> n <> min64 -> (py = false \/ 0 <= n) -> (65 <= fuel)%nat ->
  ((n < 0 \/ 2 <= n) -> bin py fuel n = Ok s -> from_str s 2 = Ok n /\ from_str s 0 = Ok n) /\
  ((n < 0 \/ 8 <= n) -> oct py fuel n = Ok s -> from_str s 8 = Ok n /\ from_str s 0 = Ok n) /\
  ((n < 0 \/ 16 <= n) -> hex py fuel n = Ok s -> from_str s 16 = Ok n /\ from_str s 0 = Ok n).
Proof.
  intros I Nm S F.
  assert (G : forall base pre, base_prefix base pre -> (n < 0 \/ base <= n) -> int_format py fuel n base pre = Ok s -> from_str s base = Ok n /\ from_str s 0 = Ok n).
  { intros base pre P H E. destruct (prefix_inv _ _ P) as (Bs & c & Ep & _).
    assert (B : 2 <= base <= 16) by (unfold based in Bs; lia).
    destruct (format_ok py fuel n base pre I S B F) as (ds & E' & N & _). rewrite E in E'. assert (Es : s = (if n <? 0 then [45] else []) ++ pre ++ ds) by congruence.
    set (e := if n <? 0 then -1 else 1).
    assert (Sg : sign (if n <? 0 then [45] else []) e) by (unfold e; destruct (n <? 0); constructor).
    assert (Ev : e * Z.abs n = n) by (unfold e; destruct (Z.ltb_spec n 0); lia).
    replace s with ([] ++ s ++ []) by (cbn [app]; apply app_nil_r). rewrite Es.
    assert (R : from_str ([] ++ ((if n <? 0 then [45] else []) ++ pre ++ ds) ++ []) base = Ok n).
    { transitivity (@Ok Z (e * Z.abs n)); [|now rewrite Ev]. apply C76_read_partial; [lia|constructor|constructor|assumption|now right|assumption|now rewrite Ev|subst pre; discriminate| |intros _; now rewrite Ev].
      intros _ Hs. destruct (Z.ltb_spec n 0) as [|Hn]; [discriminate|].
        destruct ds as [|d [|d' ds]]; [now apply numeral_nil in N| |].
        + exfalso. inversion N as [x y D Ly|l w x y Nw D Ly E1]; subst; [lia|].
          destruct l as [|z [|z' l]]; [now apply numeral_nil in Nw|discriminate..].
        + rewrite !len_cons. assert (A := len_nonneg ds). lia. }
    split; [exact R|].
    destruct (C76_base_zero_partial [] _ e [] (Forall_nil _) (Forall_nil _) Sg) as (Z0 & _).
    rewrite (Z0 base pre ds (Z.abs n) P N). exact R. }
  split; [|split]; intros H E; eapply G; try exact E; try exact H; constructor; auto.
Qed.

(** Where the full statements fail. *)
(** "0x5" reads the byte after its end; "0x-1f" is accepted; "+5" is not; "0" is not with base 0;
    the smallest [int] is not read back. *)
Theorem C76_read_refuted :
  (literal 16 [48; 120; 53] 5 /\ from_str [48; 120; 53] 16 = Undef) /\
  ((forall v, ~ literal 16 [48; 120; 45; 49; 102] v) /\ from_str [48; 120; 45; 49; 102] 16 = Ok (-31)) /\
  (literal 10 [43; 53] 5 /\ from_str [43; 53] 10 = Raise ValueError) /\
  (literal 10 [48] 0 /\ from_str [48] 0 = Raise ValueError) /\
  (in64 min64 /\ exists s, hex false 65 min64 = Ok s /\ from_str s 16 = Raise ValueError).
Proof.
  assert (D5 : forall b, 6 <= b -> numeral b [53] 5) by (intros; apply num_one; [left; lia|lia]).
  split; [|split; [|split; [|split]]].
  - split; [|reflexivity]. exists [], 1, [48; 120], [53], 5. split; [reflexivity|]. split; [constructor|]. split; [right; constructor; lia|]. split; [apply D5; lia|reflexivity].
  - split; [|reflexivity]. intros v (sg & e & pre & ds & m & E & Sg & P & N & _). apply numeral_forall in N.
    destruct Sg; cbn [app] in E; try (injection E as E; lia). destruct P as [->|P].
    + cbn [app] in E. subst ds. inversion N as [|? ? _ N1]; subst. inversion N1 as [|? ? (d & D & L) _]; subst. unfold digit in D. lia.
    + inversion P; subst. injection E as _ E. subst ds. inversion N as [|? ? (d & D & L) _]; subst. unfold digit in D. lia.
  - split; [|reflexivity]. exists [43], 1, [], [53], 5. split; [reflexivity|]. split; [constructor|]. split; [now left|]. split; [apply D5; lia|reflexivity].
  - split; [|reflexivity]. exists [], 1, [], [48], 0. split; [reflexivity|]. split; [constructor|]. split; [now left|].
    split; [|reflexivity]. apply num_one; [left; lia|lia].
  - split; [unfold in64, min64, max64; lia|]. exists ([45; 48; 120; 56] ++ repeat 48 15). split; vm_compute; reflexivity.
Qed.

(** Concrete cases. *)
Example C76_write_case :
  hex false 65 (-255) = Ok [45; 48; 120; 102; 102] /\ bin true 65 5 = Ok [48; 98; 49; 48; 49] /\ oct false 65 0 = Ok [48; 111; 48] /\
  hex false 65 min64 = Ok ([45; 48; 120; 56] ++ repeat 48 15).
Proof. repeat split; vm_compute; reflexivity. Qed.
(** " -0x1F\n" in base 16, "zz" in base 36, "12a" in base 10 *)
Example C76_read_case :
  from_str [32; 45; 48; 120; 49; 70; 10] 16 = Ok (-31) /\ from_str [32; 45; 48; 120; 49; 70; 10] 0 = Ok (-31) /\
  from_str [122; 122] 36 = Ok 1295 /\ from_str [49; 50; 97] 10 = Raise ValueError /\ from_str [] 10 = Raise ValueError.
Proof. repeat split; vm_compute; reflexivity. Qed.
Example C76_read_case_hypotheses :
  Forall white [32] /\ Forall white [10] /\ sign [45] (-1) /\ base_prefix 16 [48; 120] /\ numeral 16 [49; 70] 31 /\ in64 (-1 * 31) /\ -1 * 31 <> min64.
Proof.
  split; [constructor; [cbn; auto|constructor]|]. split; [constructor; [cbn; auto|constructor]|]. split; [constructor|]. split; [constructor; lia|].
  split; [|unfold in64, min64, max64; lia]. change 31 with (1 * 16 + 15). apply (num_more 16 [49] 1 70 15); [|right; right; lia|lia].
  apply num_one; [left; lia|lia].
Qed.

Print Assumptions C76_write.
Print Assumptions C76_write_refuted.
Print Assumptions C76_read_partial.
Print Assumptions C76_accept_partial.
Print Assumptions C76_reject_partial.
Print Assumptions C76_overflow.
Print Assumptions C76_base_zero_partial.
Print Assumptions C76_bases.
Print Assumptions C76_round_trip_partial.
Print Assumptions C76_read_refuted.
