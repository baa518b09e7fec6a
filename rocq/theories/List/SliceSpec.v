(** Specification of Python's slices (language reference, "Common sequence
    operations", notes 3-5), written without looking at Codon's code. *)
From Coq Require Import List ZArith Lia Bool.
Import ListNotations.
Local Open Scope Z_scope.

(** A slice [i:j:k], every part optional. *)
Record slice := Slice { sl_start : option Z; sl_stop : option Z; sl_step : option Z }.

(** Negative indices count from the end; then indices are clamped to the range
    0..n for a positive step and -1..n-1 for a negative one.  Omitted bounds are the
    end of the sequence where the walk starts or finishes. *)
Definition clamp (n k v : Z) : Z :=
  let v := if v <? 0 then v + n else v in
  if 0 <? k then Z.max 0 (Z.min v n) else Z.max (-1) (Z.min v (n - 1)).

Definition py_step (s : slice) : Z := match sl_step s with Some k => k | None => 1 end.

Definition py_start (n : Z) (s : slice) : Z :=
  match sl_start s with
  | Some v => clamp n (py_step s) v
  | None => if 0 <? py_step s then 0 else n - 1
  end.

Definition py_stop (n : Z) (s : slice) : Z :=
  match sl_stop s with
  | Some v => clamp n (py_step s) v
  | None => if 0 <? py_step s then n else -1
  end.

(** Number of terms of i, i+k, i+2k, ... before reaching j: ceil((j-i)/k), at least 0. *)
Definition progression_count (i j k : Z) : Z := Z.max 0 (- ((i - j) / k)).

Definition progression (i k n : Z) : list Z :=
  map (fun m => i + Z.of_nat m * k) (seq 0 (Z.to_nat n)).

Definition py_count (n : Z) (s : slice) : Z :=
  progression_count (py_start n s) (py_stop n s) (py_step s).

(** The positions selected by slice [s] in a sequence of [n] elements, in order. *)
Definition py_positions (n : Z) (s : slice) : list Z :=
  progression (py_start n s) (py_step s) (py_count n s).

(** Sanity of the specification itself: [x] is selected iff it lies between the
    bounds on the right side and is a whole number of steps from the start. *)
Lemma progression_in i k n x :
  In x (progression i k n) <-> exists m, 0 <= m < n /\ x = i + m * k.
Proof.
  unfold progression. rewrite in_map_iff. split.
  - intros (m & <- & H). apply in_seq in H. exists (Z.of_nat m). split; [lia|reflexivity].
  - intros (m & H & ->). exists (Z.to_nat m). rewrite Z2Nat.id by lia.
    split; [reflexivity|]. apply in_seq. lia.
Qed.

Lemma progression_nil i k n : n <= 0 -> progression i k n = [].
Proof. intros H. unfold progression. now replace (Z.to_nat n) with 0%nat by lia. Qed.

Lemma progression_cons i k n :
  0 < n -> progression i k n = i :: progression (i + k) k (n - 1).
Proof.
  intros H. unfold progression. replace (Z.to_nat n) with (S (Z.to_nat (n - 1))) by lia.
  simpl. f_equal; [lia|]. rewrite <- seq_shift, map_map. apply map_ext. intros m. lia.
Qed.

Lemma progression_length i k n : length (progression i k n) = Z.to_nat n.
Proof. unfold progression. now rewrite map_length, seq_length. Qed.

Lemma progression_nth i k n m d : (m < Z.to_nat n)%nat ->
  nth m (progression i k n) d = i + Z.of_nat m * k.
Proof.
  intros H. unfold progression.
  rewrite nth_indep with (d' := i + Z.of_nat 0 * k) by (rewrite map_length, seq_length; lia).
  rewrite (map_nth (fun m => i + Z.of_nat m * k)). rewrite seq_nth by lia. reflexivity.
Qed.

Lemma count_pos i j k m : 0 < k -> 0 <= m -> (m < progression_count i j k <-> i + m * k < j).
Proof.
  intros Hk Hm. unfold progression_count.
  pose proof (Z.div_mod (i - j) k ltac:(lia)) as E.
  pose proof (Z.mod_pos_bound (i - j) k Hk) as B. split; intros H.
  - assert (m + 1 <= - ((i - j) / k)) by lia. nia.
  - apply Z.nle_gt. intros C. assert (- ((i - j) / k) <= m) by lia. nia.
Qed.

Lemma count_neg i j k m : k < 0 -> 0 <= m -> (m < progression_count i j k <-> j < i + m * k).
Proof.
  intros Hk Hm. unfold progression_count.
  pose proof (Z.div_mod (i - j) k ltac:(lia)) as E.
  pose proof (Z.mod_neg_bound (i - j) k Hk) as B. split; intros H.
  - assert (m + 1 <= - ((i - j) / k)) by lia. nia.
  - apply Z.nle_gt. intros C. assert (- ((i - j) / k) <= m) by lia. nia.
Qed.

Lemma count_nonneg i j k : 0 <= progression_count i j k.
Proof. unfold progression_count. lia. Qed.

(** [n] is the count as soon as it behaves like it. *)
Lemma count_unique_pos i j k n :
  0 < k -> 0 <= n -> j <= i + n * k -> (0 < n -> i + (n - 1) * k < j) ->
  progression_count i j k = n.
Proof.
  intros Hk Hn H1 H2. pose proof (count_nonneg i j k).
  assert (~ n < progression_count i j k) by (rewrite count_pos by lia; lia).
  destruct (Z.eq_dec n 0); [lia|].
  assert (n - 1 < progression_count i j k) by (rewrite count_pos by lia; lia). lia.
Qed.

Lemma count_unique_neg i j k n :
  k < 0 -> 0 <= n -> i + n * k <= j -> (0 < n -> j < i + (n - 1) * k) ->
  progression_count i j k = n.
Proof.
  intros Hk Hn H1 H2. pose proof (count_nonneg i j k).
  assert (~ n < progression_count i j k) by (rewrite count_neg by lia; lia).
  destruct (Z.eq_dec n 0); [lia|].
  assert (n - 1 < progression_count i j k) by (rewrite count_neg by lia; lia). lia.
Qed.

Theorem py_positions_meaning n s x :
  py_step s <> 0 ->
  In x (py_positions n s) <->
  (if 0 <? py_step s then py_start n s <= x < py_stop n s
   else py_stop n s < x <= py_start n s) /\
  (x - py_start n s) mod (py_step s) = 0.
Proof.
  intros Hk. unfold py_positions, py_count. rewrite progression_in.
  set (i := py_start n s). set (j := py_stop n s). set (k := py_step s) in *.
  assert (DM : forall m, (x - i) mod k = 0 -> m = (x - i) / k -> x = i + m * k).
  { intros m H ->. pose proof (Z.div_mod (x - i) k Hk). lia. }
  destruct (Z.ltb_spec 0 k); split.
  - intros (m & Hm & ->). replace (i + m * k - i) with (m * k) by lia.
    rewrite Z.mod_mul by lia. assert (i + m * k < j) by (apply count_pos; lia). nia.
  - intros [Hx H0]. exists ((x - i) / k). assert (E := DM _ H0 eq_refl).
    assert (0 <= (x - i) / k) by (apply Z.div_pos; lia).
    split; [|exact E]. split; [assumption|]. apply count_pos; lia.
  - intros (m & Hm & ->). replace (i + m * k - i) with (m * k) by lia.
    rewrite Z.mod_mul by lia. assert (j < i + m * k) by (apply count_neg; lia). nia.
  - intros [Hx H0]. exists ((x - i) / k). assert (E := DM _ H0 eq_refl).
    assert (0 <= (x - i) / k) by nia.
    split; [|exact E]. split; [assumption|]. apply count_neg; lia.
Qed.
