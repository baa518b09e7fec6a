(** Codon's [int]: 64-bit two's complement, /repo/stdlib/internal/types/int.codon.
    [add], [sub], [mul] are LLVM [add]/[sub]/[mul] without nsw (int.codon:94-103,
    112-117, 130-135): they wrap. *)
From Coq Require Import ZArith Lia Bool.
From Verif.Common Require Import Result.
Local Open Scope Z_scope.

Definition min64 : Z := -2^63.
Definition max64 : Z := 2^63 - 1.
Definition in64 (z : Z) : Prop := min64 <= z <= max64.

(** The representative of [z] modulo 2^64 in the signed 64-bit range. *)
Definition w64 (z : Z) : Z := (z + 2^63) mod 2^64 - 2^63.

Lemma w64_in z : in64 (w64 z).
Proof.
  unfold in64, w64, min64, max64.
  pose proof (Z.mod_pos_bound (z + 2^63) (2^64) ltac:(lia)). lia.
Qed.

Lemma w64_id z : in64 z -> w64 z = z.
Proof.
  unfold in64, w64, min64, max64. intros H. rewrite Z.mod_small by lia. lia.
Qed.

Lemma w64_over z : max64 < z <= max64 + 2^64 -> w64 z = z - 2^64.
Proof.
  unfold w64, max64. intros H.
  replace (z + 2^63) with ((z - 2^64 + 2^63) + 1 * 2^64) by lia.
  rewrite Z.mod_add by lia. rewrite Z.mod_small by lia. lia.
Qed.

Lemma w64_under z : min64 - 2^64 <= z < min64 -> w64 z = z + 2^64.
Proof.
  unfold w64, min64. intros H.
  replace (z + 2^63) with ((z + 2^64 + 2^63) + (-1) * 2^64) by lia.
  rewrite Z.mod_add by lia. rewrite Z.mod_small by lia. lia.
Qed.

Lemma w64_eqm z : exists k, w64 z = z + k * 2^64.
Proof.
  unfold w64. exists (- ((z + 2^63) / 2^64)).
  pose proof (Z.div_mod (z + 2^63) (2^64) ltac:(lia)). lia.
Qed.

Lemma w64_cong a b k : a = b + k * 2^64 -> w64 a = w64 b.
Proof.
  intros ->. unfold w64.
  replace (b + k * 2^64 + 2^63) with (b + 2^63 + k * 2^64) by lia.
  now rewrite Z.mod_add by lia.
Qed.

Lemma w64_idem z : w64 (w64 z) = w64 z.
Proof. apply w64_id, w64_in. Qed.

Lemma w64_add_l a b : w64 (w64 a + b) = w64 (a + b).
Proof. destruct (w64_eqm a) as [k ->]. apply w64_cong with (k := k). lia. Qed.
Lemma w64_add_r a b : w64 (a + w64 b) = w64 (a + b).
Proof. destruct (w64_eqm b) as [k ->]. apply w64_cong with (k := k). lia. Qed.
Lemma w64_sub_l a b : w64 (w64 a - b) = w64 (a - b).
Proof. destruct (w64_eqm a) as [k ->]. apply w64_cong with (k := k). lia. Qed.
Lemma w64_sub_r a b : w64 (a - w64 b) = w64 (a - b).
Proof. destruct (w64_eqm b) as [k ->]. apply w64_cong with (k := -k). lia. Qed.
Lemma w64_mul_l a b : w64 (w64 a * b) = w64 (a * b).
Proof. destruct (w64_eqm a) as [k ->]. apply w64_cong with (k := k*b). lia. Qed.
Lemma w64_mul_r a b : w64 (a * w64 b) = w64 (a * b).
Proof. destruct (w64_eqm b) as [k ->]. apply w64_cong with (k := a*k). lia. Qed.

(** LLVM [sdiv]/[srem] (int.codon:147-152, 179-184, the default numerics mode):
    undefined on a zero divisor and on INT64_MIN / -1. *)
Definition sdiv (a b : Z) : res Z :=
  if (b =? 0) || ((a =? min64) && (b =? -1)) then Undef else Ok (Z.quot a b).
Definition srem (a b : Z) : res Z :=
  if (b =? 0) || ((a =? min64) && (b =? -1)) then Undef else Ok (Z.rem a b).

Lemma sdiv_pos a b : 0 <= a -> 0 < b -> sdiv a b = Ok (a / b).
Proof.
  intros Ha Hb. unfold sdiv, min64.
  replace ((b =? 0) || ((a =? -2^63) && (b =? -1))) with false by lia.
  now rewrite Z.quot_div_nonneg.
Qed.

Lemma srem_pos a b : 0 <= a -> 0 < b -> srem a b = Ok (a mod b).
Proof.
  intros Ha Hb. unfold srem, min64.
  replace ((b =? 0) || ((a =? -2^63) && (b =? -1))) with false by lia.
  now rewrite Z.rem_mod_nonneg.
Qed.
