(** [forward_find] and [backward_find]. *)
From Coq Require Import List ZArith Lia Bool.
From Verif.Common Require Import Result Int64.
From Verif.Str Require Import Model Spec Basic.
Import ListNotations.
Local Open Scope Z_scope.

(** ** Masks *)

Lemma of_bits_testbit l : forall b, 0 <= b -> Z.testbit (of_bits l) b = nth (Z.to_nat b) l false.
Proof.
  induction l as [|x l IH]; intros b Hb; cbn [of_bits].
  - rewrite Z.bits_0. now destruct (Z.to_nat b).
  - destruct (Z.eq_dec b 0) as [->|N].
    + cbn [Z.to_nat nth]. rewrite Z.add_comm. destruct x; cbn [Z.b2z].
      * apply Z.testbit_odd_0.
      * rewrite Z.add_0_r. apply Z.testbit_even_0.
    + replace b with (Z.succ (b - 1)) at 1 by lia.
      replace (Z.to_nat b) with (S (Z.to_nat (b - 1))) by lia. cbn [nth].
      rewrite <- IH by lia. rewrite Z.add_comm. destruct x; cbn [Z.b2z].
      * apply Z.testbit_odd_succ. lia.
      * rewrite Z.add_0_r. apply Z.testbit_even_succ. lia.
Qed.
Lemma of_bits_range l : 0 <= of_bits l < 2 ^ Z.of_nat (length l).
Proof.
  induction l as [|x l IH]; cbn [of_bits length]; [cbn; lia|].
  rewrite Nat2Z.inj_succ, Z.pow_succ_r by lia. destruct x; cbn [Z.b2z]; lia.
Qed.
Lemma zip_mask_length f l a : forall b, length a = length b -> length (zip_mask f l a b) = length a.
Proof. induction a as [|x a IH]; destruct b; cbn; intros H; try discriminate; auto. Qed.
Lemma zip_mask_nth f l a : forall b n, length a = length b -> (n < length a)%nat ->
  nth n (zip_mask f l a b) false = (f =? nth n a 0) && (l =? nth n b 0).
Proof.
  induction a as [|x a IH]; destruct b as [|y b]; cbn [zip_mask length]; intros n H Hn; try lia.
  destruct n; cbn [nth]; [reflexivity|]. apply IH; lia.
Qed.

Fixpoint all_bits (n : nat) : list (list bool) :=
  match n with O => [[]] | S n => map (cons false) (all_bits n) ++ map (cons true) (all_bits n) end.
Lemma all_bits_in l : In l (all_bits (length l)).
Proof.
  induction l as [|x l IH]; cbn [length all_bits]; [left; auto|].
  apply in_app_iff. destruct x; [right|left]; now apply in_map.
Qed.

Definition low_ok (m : Z) : bool :=
  (m =? 0) ||
  let b := cttz m in
  let m' := Z.land m (m - 1) in
  (0 <=? b) && (b <? 16) && Z.testbit m b &&
  forallb (fun n => let c := Z.of_nat n in
    (negb (c <? b) || negb (Z.testbit m c)) && Bool.eqb (Z.testbit m' c) (Z.testbit m c && negb (c =? b)))
    (seq 0 16).
Lemma low_all : forallb (fun l => low_ok (of_bits l)) (all_bits 16) = true.
Proof. vm_compute. reflexivity. Qed.

Definition to_bits (m : Z) : list bool := map (fun n => Z.testbit m (Z.of_nat n)) (seq 0 16).
Lemma high_bits m c : 0 <= m < 65536 -> 16 <= c -> Z.testbit m c = false.
Proof.
  intros Hm Hc. destruct (Z.eq_dec m 0) as [->|]; [apply Z.bits_0|].
  apply Z.bits_above_log2; [lia|]. assert (Z.log2 m < 16); [|lia].
  apply Z.log2_lt_pow2; lia.
Qed.
Lemma to_bits_of m : 0 <= m < 65536 -> of_bits (to_bits m) = m.
Proof.
  intros Hm. apply Z.bits_inj'. intros c Hc. rewrite of_bits_testbit by lia.
  destruct (Z.lt_ge_cases c 16).
  - unfold to_bits.
    rewrite nth_indep with (d' := (fun n => Z.testbit m (Z.of_nat n)) 0%nat)
      by (rewrite map_length, seq_length; lia).
    rewrite (map_nth (fun n => Z.testbit m (Z.of_nat n))), seq_nth by lia. f_equal. lia.
  - rewrite nth_overflow by (unfold to_bits; rewrite map_length, seq_length; lia).
    symmetry. apply high_bits; lia.
Qed.

Lemma land_le m x : 0 <= m -> 0 <= Z.land m x <= m.
Proof.
  intros. apply Z.ldiff_le; auto. apply Z.bits_inj'. intros c Hc.
  rewrite Z.ldiff_spec, Z.land_spec, Z.bits_0. now destruct (Z.testbit m c), (Z.testbit x c).
Qed.
Lemma cttz_spec m : 0 < m < 65536 ->
  0 <= cttz m < 16 /\ Z.testbit m (cttz m) = true /\
  (forall c, 0 <= c < cttz m -> Z.testbit m c = false) /\
  (forall c, 0 <= c -> Z.testbit (Z.land m (m - 1)) c = Z.testbit m c && negb (c =? cttz m)) /\
  0 <= Z.land m (m - 1) < 65536.
Proof.
  intros Hm. pose proof low_all as A. rewrite forallb_forall in A.
  specialize (A (to_bits m)). rewrite to_bits_of in A by lia.
  assert (I : In (to_bits m) (all_bits 16)).
  { replace 16%nat with (length (to_bits m)); [apply all_bits_in|]. unfold to_bits. now rewrite map_length, seq_length. }
  specialize (A I). unfold low_ok in A. replace (m =? 0) with false in A by lia.
  cbn [orb] in A. cbv zeta in A. rewrite !andb_true_iff, forallb_forall in A. destruct A as (((A1 & A2) & A3) & A4).
  assert (F : forall c, 0 <= c < 16 -> (c < cttz m -> Z.testbit m c = false) /\
    Z.testbit (Z.land m (m - 1)) c = Z.testbit m c && negb (c =? cttz m)).
  { intros c Hc. specialize (A4 (Z.to_nat c) ltac:(apply in_seq; lia)). rewrite Z2Nat.id in A4 by lia.
    apply andb_true_iff in A4. destruct A4 as [B C]. apply Bool.eqb_prop in C. split; auto.
    intros L. replace (c <? cttz m) with true in B by lia. cbn in B. now destruct (Z.testbit m c). }
  split; [lia|]. split; auto. split; [intros; apply F; lia|]. split.
  - intros c Hc. destruct (Z.lt_ge_cases c 16); [apply F; lia|].
    rewrite Z.land_spec, (high_bits m c) by lia. reflexivity.
  - pose proof (land_le m (m - 1) ltac:(lia)). lia.
Qed.

Lemma ctlz_from_spec m n : forall b, 0 <= b -> Z.of_nat n + b = 16 -> 0 < m < 65536 ->
  (forall c, 15 - b < c < 16 -> Z.testbit m c = false) ->
  b <= ctlz_from n b m < 16 /\ Z.testbit m (15 - ctlz_from n b m) = true /\
  (forall c, 15 - ctlz_from n b m < c < 16 -> Z.testbit m c = false).
Proof.
  induction n as [|n IH]; intros b Hb Hn Hm H; cbn [ctlz_from].
  - exfalso. assert (m = 0); [|lia]. apply Z.bits_inj'. intros c Hc. rewrite Z.bits_0.
    destruct (Z.lt_ge_cases c 16); [apply H; lia|apply high_bits; lia].
  - destruct (Z.testbit m (15 - b)) eqn:E.
    + split; [lia|]. auto.
    + destruct (IH (b + 1)) as (A & B & C); try lia; [|split; [lia|auto]].
      intros c Hc. destruct (Z.eq_dec c (15 - b)) as [->|]; auto. apply H. lia.
Qed.
Lemma ctlz_spec m : 0 < m < 65536 ->
  0 <= ctlz m < 16 /\ Z.testbit m (15 - ctlz m) = true /\
  (forall c, 15 - ctlz m < c < 16 -> Z.testbit m c = false).
Proof. intros. apply (ctlz_from_spec m 16 0); try lia. Qed.
Lemma clear_high m b : 0 <= m < 65536 -> 0 <= b < 16 ->
  let m' := Z.land m (Z.lxor 65535 (Z.shiftl 1 b)) in
  (forall c, 0 <= c -> Z.testbit m' c = Z.testbit m c && negb (c =? b)) /\ 0 <= m' < 65536.
Proof.
  intros Hm Hb m'.
  assert (T : forall c, 0 <= c -> Z.testbit m' c = Z.testbit m c && negb (c =? b)).
  { intros c Hc. unfold m'. rewrite Z.land_spec, Z.lxor_spec, Z.shiftl_spec by lia.
    destruct (Z.lt_ge_cases c 16).
    - replace (Z.testbit 65535 c) with true.
      2:{ change 65535 with (Z.ones 16). symmetry. apply Z.ones_spec_low. lia. }
      f_equal. rewrite Bool.xorb_true_l. f_equal. destruct (Z.eqb_spec c b) as [->|].
      + now rewrite Z.sub_diag.
      + destruct (Z.lt_ge_cases (c - b) 0); [now apply Z.testbit_neg_r|].
        apply Z.bits_above_log2; cbn; lia.
    - now rewrite high_bits by lia. }
  split; auto.
  pose proof (land_le m (Z.lxor 65535 (Z.shiftl 1 b)) ltac:(lia)). subst m'. lia.
Qed.
Lemma mask_zero m : 0 <= m < 65536 -> (forall c, 0 <= c < 16 -> Z.testbit m c = false) -> m = 0.
Proof.
  intros Hm H. apply Z.bits_inj'. intros c Hc. rewrite Z.bits_0.
  destruct (Z.lt_ge_cases c 16); [apply H; lia|apply high_bits; lia].
Qed.

Section Search.
Context (s p : str).
Local Notation n := (len s).
Local Notation k := (len p).
Local Notation firstb := (byte_at p 0).
Local Notation lastb := (byte_at p (k - 1)).
Context (Hk : 2 <= k).

(** The mask has a bit for each candidate of the block whose ends match. *)
Lemma mask_bits (x y : Z) : 0 <= x -> x + 16 <= n -> 0 <= y -> y + 16 <= n ->
  let m := of_bits (zip_mask firstb lastb (sub s x (x + 16)) (sub s y (y + 16))) in
  0 <= m < 65536 /\
  forall b, 0 <= b < 16 -> Z.testbit m b = (firstb =? byte_at s (x + b)) && (lastb =? byte_at s (y + b)).
Proof.
  intros H1 H2 H3 H4 m.
  assert (L1 : length (sub s x (x + 16)) = 16%nat).
  { pose proof (sub_len s x (x + 16) ltac:(lia) ltac:(lia)). unfold len in *. lia. }
  assert (L2 : length (sub s y (y + 16)) = 16%nat).
  { pose proof (sub_len s y (y + 16) ltac:(lia) ltac:(lia)). unfold len in *. lia. }
  split.
  - pose proof (of_bits_range (zip_mask firstb lastb (sub s x (x + 16)) (sub s y (y + 16)))) as R.
    rewrite zip_mask_length, L1 in R by congruence. exact R.
  - intros b Hb. unfold m. rewrite of_bits_testbit by lia. rewrite zip_mask_nth by (rewrite ?L1, ?L2; lia).
    pose proof (sub_byte s x (x + 16) b ltac:(lia) ltac:(lia) ltac:(lia)) as E1.
    pose proof (sub_byte s y (y + 16) b ltac:(lia) ltac:(lia) ltac:(lia)) as E2.
    unfold byte_at in E1, E2. unfold byte_at. now rewrite E1, E2.
Qed.

Lemma forward_mask_ok i : 0 <= i -> i + k + 15 <= n -> exists m,
  forward_mask s k i firstb lastb = Ok m /\ 0 <= m < 65536 /\
  forall b, 0 <= b < 16 -> Z.testbit m b = (firstb =? byte_at s (i + b)) && (lastb =? byte_at s (i + b + k - 1)).
Proof.
  intros H1 H2. unfold forward_mask. rewrite !slice_ok by lia. cbn [bind].
  eexists; split; [reflexivity|]. pose proof (mask_bits i (i + len p - 1)) as M. cbv zeta in M.
  destruct M as [A B]; try lia. split; auto. intros b Hb. rewrite B by auto.
  do 3 f_equal. lia.
Qed.
Lemma backward_mask_ok i : i < n -> 0 <= i - (k - 1) - 15 -> exists m,
  backward_mask s k i firstb lastb = Ok m /\ 0 <= m < 65536 /\
  forall b, 0 <= b < 16 ->
    Z.testbit m (15 - b) = (firstb =? byte_at s (i - (k - 1) - b)) && (lastb =? byte_at s (i - (k - 1) - b + k - 1)).
Proof.
  intros H1 H2. unfold backward_mask. rewrite !slice_ok by lia. cbn [bind].
  eexists; split; [reflexivity|]. pose proof (mask_bits (i - 16 + 1 - len p + 1) (i - 16 + 1)) as M. cbv zeta in M.
  destruct M as [A B]; try lia. split; auto. intros b Hb. rewrite B by lia.
  do 3 f_equal; lia.
Qed.

(** The test of one candidate. *)
Definition middle_eq (j : Z) : bool := bytes_eqb (sub s (j + 1) (j + 1 + (k - 2))) (sub p 1 (1 + (k - 2))).
Lemma middle_ok j : 0 <= j -> j + k <= n -> memcmp_eq s (j + 1) p 1 (k - 2) = Ok (middle_eq j).
Proof. intros. apply memcmp_ok; lia. Qed.
Lemma candidate j : 0 <= j -> j + k <= n ->
  (occurs p s j <-> (firstb =? byte_at s j) && (lastb =? byte_at s (j + k - 1)) && middle_eq j = true).
Proof.
  intros. rewrite occurs_ends by lia. unfold middle_eq. rewrite !andb_true_iff, !Z.eqb_eq. tauto.
Qed.

Lemma forward_block_ok i m : 0 <= i -> i + k + 15 <= n -> 0 <= m < 65536 ->
  (forall b, 0 <= b < 16 -> Z.testbit m b = (firstb =? byte_at s (i + b)) && (lastb =? byte_at s (i + b + k - 1))) ->
  wp (forward_block s p k i m) (fun r => match r with
    | Some q => i <= q < i + 16 /\ occurs p s q /\ forall j, i <= j < q -> ~ occurs p s j
    | None => forall j, i <= j < i + 16 -> ~ occurs p s j
    end).
Proof.
  intros H1 H2 Hm Hb. unfold forward_block.
  apply wp_loop with
    (I := fun m' => 0 <= m' < 65536 /\ exists c, 0 <= c <= 16 /\
            (forall b, 0 <= b < 16 -> Z.testbit m' b = Z.testbit m b && (c <=? b)) /\
            (forall b, 0 <= b < c -> ~ occurs p s (i + b)))
    (mu := fun m' => Z.to_nat (if m' =? 0 then 0 else 16 - cttz m')).
  - intros m' (R & c & Hc & T & N). destruct (Z.eqb_spec m' 0) as [->|NZ].
    + cbn [wp]. intros j Hj Oc. destruct (Z.lt_ge_cases (j - i) c) as [L|L].
      * apply (N (j - i)); [lia|]. now replace (i + (j - i)) with j by lia.
      * specialize (T (j - i) ltac:(lia)). rewrite Z.bits_0 in T. replace (c <=? j - i) with true in T by lia.
        rewrite andb_true_r, Hb in T by lia. replace (i + (j - i)) with j in T by lia.
        apply candidate in Oc; [|lia|lia]. rewrite <- T in Oc. discriminate.
    + destruct (cttz_spec m' ltac:(lia)) as (C1 & C2 & C3 & C4 & C5).
      set (q := cttz m') in *. rewrite middle_ok by lia. cbn [bind].
      assert (Q : Z.testbit m q = true /\ c <= q).
      { rewrite T in C2 by lia. apply andb_true_iff in C2. split; [tauto|]. lia. }
      assert (B : forall b, c <= b < q -> ~ occurs p s (i + b)).
      { intros b Hb' Oc. specialize (C3 b ltac:(lia)). rewrite T in C3 by lia.
        replace (c <=? b) with true in C3 by lia. rewrite andb_true_r, Hb in C3 by lia.
        apply candidate in Oc; [|lia|lia]. rewrite C3 in Oc. discriminate. }
      assert (B' : forall j, i <= j < i + q -> ~ occurs p s j).
      { intros j Hj. replace j with (i + (j - i)) by lia.
        destruct (Z.lt_ge_cases (j - i) c); [apply N; lia|apply B; lia]. }
      destruct Q as [Q1 Q2]. rewrite Hb in Q1 by lia.
      destruct (middle_eq (i + q)) eqn:E.
      * cbn [wp]. split; [lia|]. split; auto. apply candidate; try lia. now rewrite Q1, E.
      * cbn [wp]. split.
        -- split; auto. exists (q + 1). split; [lia|]. split.
           ++ intros b Hb'. rewrite C4, T by lia.
              destruct (Z.testbit m b) eqn:Tb; cbn [andb]; auto.
              destruct (Z.lt_ge_cases b q).
              ** specialize (C3 b ltac:(lia)). rewrite T, Tb in C3 by lia. cbn [andb] in C3. rewrite C3. cbn [andb]. lia.
              ** lia.
           ++ intros b Hb'. destruct (Z.eq_dec b q) as [->|].
              ** intros Oc. apply candidate in Oc; [|lia|lia]. rewrite E, andb_false_r in Oc. discriminate.
              ** replace (i + b) with (i + b) by lia. apply B'. lia.
        -- replace (m' =? 0) with false by lia. fold q.
           destruct (Z.eqb_spec (Z.land m' (m' - 1)) 0) as [Z0|Z0]; [lia|].
           destruct (cttz_spec (Z.land m' (m' - 1)) ltac:(lia)) as (D1 & D2 & _).
           set (q' := cttz (Z.land m' (m' - 1))) in *.
           rewrite C4 in D2 by lia. apply andb_true_iff in D2. destruct D2 as [D2 D3].
           destruct (Z.lt_ge_cases q' q); [rewrite C3 in D2 by lia; discriminate|]. lia.
  - split; auto. exists 0. split; [lia|]. split; [|lia]. intros b Hb'.
    replace (0 <=? b) with true by lia. now rewrite andb_true_r.
  - destruct (Z.eqb_spec m 0); [cbn; lia|]. pose proof (cttz_spec m ltac:(lia)). lia.
Qed.

Lemma backward_block_ok i m : i < n -> 0 <= i - (k - 1) - 15 -> 0 <= m < 65536 ->
  (forall b, 0 <= b < 16 ->
    Z.testbit m (15 - b) = (firstb =? byte_at s (i - (k - 1) - b)) && (lastb =? byte_at s (i - (k - 1) - b + k - 1))) ->
  wp (backward_block s p k i m) (fun r => match r with
    | Some q => i - (k - 1) - 16 < q <= i - (k - 1) /\ occurs p s q /\
                forall j, q < j <= i - (k - 1) -> ~ occurs p s j
    | None => forall j, i - (k - 1) - 16 < j <= i - (k - 1) -> ~ occurs p s j
    end).
Proof.
  intros H1 H2 Hm Hb. unfold backward_block. set (top := i - (k - 1)) in *.
  apply wp_loop with
    (I := fun m' => 0 <= m' < 65536 /\ exists c, 0 <= c <= 16 /\
            (forall b, 0 <= b < 16 -> Z.testbit m' (15 - b) = Z.testbit m (15 - b) && (c <=? b)) /\
            (forall b, 0 <= b < c -> ~ occurs p s (top - b)))
    (mu := fun m' => Z.to_nat (if m' =? 0 then 0 else 16 - ctlz m')).
  - intros m' (R & c & Hc & T & N). destruct (Z.eqb_spec m' 0) as [->|NZ].
    + cbn [wp]. intros j Hj Oc. destruct (Z.lt_ge_cases (top - j) c) as [L|L].
      * apply (N (top - j)); [lia|]. now replace (top - (top - j)) with j by lia.
      * specialize (T (top - j) ltac:(lia)). rewrite Z.bits_0 in T. replace (c <=? top - j) with true in T by lia.
        rewrite andb_true_r, Hb in T by lia. replace (top - (top - j)) with j in T by lia.
        apply candidate in Oc; [|lia|lia]. rewrite <- T in Oc. discriminate.
    + destruct (ctlz_spec m' ltac:(lia)) as (C1 & C2 & C3).
      set (q := ctlz m') in *.
      destruct (clear_high m' (16 - 1 - q) R ltac:(lia)) as [C4 C5]. cbv zeta in C4, C5.
      rewrite middle_ok by lia. cbn [bind].
      assert (Q : Z.testbit m (15 - q) = true /\ c <= q).
      { rewrite T in C2 by lia. apply andb_true_iff in C2. split; [tauto|]. lia. }
      assert (B : forall b, c <= b < q -> ~ occurs p s (top - b)).
      { intros b Hb' Oc. specialize (C3 (15 - b) ltac:(lia)). rewrite T in C3 by lia.
        replace (c <=? b) with true in C3 by lia. rewrite andb_true_r, Hb in C3 by lia.
        apply candidate in Oc; [|lia|lia]. rewrite C3 in Oc. discriminate. }
      assert (B' : forall j, top - q < j <= top -> ~ occurs p s j).
      { intros j Hj. replace j with (top - (top - j)) by lia.
        destruct (Z.lt_ge_cases (top - j) c); [apply N; lia|apply B; lia]. }
      destruct Q as [Q1 Q2]. rewrite Hb in Q1 by lia.
      destruct (middle_eq (top - q)) eqn:E.
      * cbn [wp]. split; [lia|]. split; auto. apply candidate; try lia. now rewrite Q1, E.
      * cbn [wp]. split.
        -- split; auto. exists (q + 1). split; [lia|]. split.
           ++ intros b Hb'. rewrite C4, T by lia.
              destruct (Z.testbit m (15 - b)) eqn:Tb; cbn [andb]; auto.
              destruct (Z.lt_ge_cases b q).
              ** specialize (C3 (15 - b) ltac:(lia)). rewrite T, Tb in C3 by lia. cbn [andb] in C3. rewrite C3. cbn [andb]. lia.
              ** lia.
           ++ intros b Hb'. destruct (Z.eq_dec b q) as [->|].
              ** intros Oc. apply candidate in Oc; [|lia|lia]. rewrite E, andb_false_r in Oc. discriminate.
              ** apply B'. lia.
        -- replace (m' =? 0) with false by lia. fold q.
           set (m2 := Z.land m' (Z.lxor 65535 (Z.shiftl 1 (16 - 1 - q)))) in *.
           destruct (Z.eqb_spec m2 0) as [Z0|Z0]; [lia|].
           destruct (ctlz_spec m2 ltac:(lia)) as (D1 & D2 & _).
           set (q' := ctlz m2) in *.
           rewrite C4 in D2 by lia. apply andb_true_iff in D2. destruct D2 as [D2 D3].
           destruct (Z.lt_ge_cases q' q); [rewrite C3 in D2 by lia; discriminate|]. lia.
  - split; auto. exists 0. split; [lia|]. split; [|lia]. intros b Hb'.
    replace (0 <=? b) with true by lia. now rewrite andb_true_r.
  - destruct (Z.eqb_spec m 0); [cbn; lia|]. pose proof (ctlz_spec m ltac:(lia)). lia.
Qed.

(** The rest, candidate by candidate. *)
Lemma candidate_code j : 0 <= j -> j + k <= n -> exists hit,
  (bind (get s j) (fun c => if firstb =? c then
      bind (get s (j + k - 1)) (fun d => if lastb =? d then memcmp_eq s (j + 1) p 1 (k - 2) else Ok false)
    else Ok false)) = Ok hit /\ (hit = true <-> occurs p s j).
Proof.
  intros H1 H2. pose proof (candidate j H1 H2) as C. rewrite get_ok by lia. cbn [bind].
  destruct (Z.eqb_spec firstb (byte_at s j)) as [E|E]; cbn [andb] in C.
  - rewrite get_ok by lia. cbn [bind].
    destruct (Z.eqb_spec lastb (byte_at s (j + k - 1))) as [E2|E2]; cbn [andb] in C.
    + rewrite middle_ok by lia. eexists; split; [reflexivity|tauto].
    + eexists; split; [reflexivity|tauto].
  - eexists; split; [reflexivity|tauto].
Qed.

Fixpoint upto (o : Z) (m : nat) : list Z := match m with O => [] | S m => o :: upto (o + 1) m end.
Lemma forward_tail_ok i m : forall o, 0 <= i + o ->
  exists r, forward_tail (upto o m) s p n k i firstb lastb = Ok r /\
    first_position (fun j => occurs p s j /\ i + o <= j < i + o + Z.of_nat m) r.
Proof.
  induction m as [|m IH]; intros o Ho; cbn [upto forward_tail].
  - exists (-1). split; auto. right. split; auto. intros j [_ Hj]. lia.
  - destruct (Z.leb_spec (i + o + k) n) as [L|L].
    + destruct (candidate_code (i + o) Ho L) as (hit & E & H).
      assert (G : forall rest, bind (get s (i + o)) (fun c =>
        bind (if firstb =? c then bind (get s (i + o + k - 1)) (fun d =>
            if lastb =? d then memcmp_eq s (i + o + 1) p 1 (k - 2) else Ok false) else Ok false)
          (fun hit : bool => if hit then Ok (i + o) else rest)) = if hit then Ok (i + o) else rest).
      { intros rest. destruct (get s (i + o)) as [c| | |]; cbn [bind] in E |- *; try discriminate.
        rewrite E. reflexivity. }
      rewrite G. destruct hit.
      * exists (i + o). split; auto. left. split; [|intros j [_ Hj]; lia].
        split; [now apply H|lia].
      * destruct (IH (o + 1) ltac:(lia)) as (r & Er & Fr). exists r. split; auto.
        destruct Fr as [[[A A'] B]|[A B]]; [left|right].
        -- split; [split; [auto|lia]|]. intros j [Oj Hj].
           destruct (Z.eq_dec j (i + o)) as [->|]; [apply H in Oj; discriminate|].
           apply B. split; auto. lia.
        -- split; auto. intros j [Oj Hj].
           destruct (Z.eq_dec j (i + o)) as [->|]; [apply H in Oj; discriminate|].
           apply (B j). split; auto. lia.
    + exists (-1). split; auto. right. split; auto. intros j [Oj Hj].
      apply occurs_range in Oj. lia.
Qed.

(** [downto o m] are the offsets [o, o - 1, ...] *)
Fixpoint downto (o : Z) (m : nat) : list Z := match m with O => [] | S m => o :: downto (o - 1) m end.
Lemma candidate_code_back j : j < n -> 0 <= j - k + 1 -> exists hit,
  (bind (get s j) (fun c => if lastb =? c then
      bind (get s (j - k + 1)) (fun d => if firstb =? d then memcmp_eq s (j - k + 2) p 1 (k - 2) else Ok false)
    else Ok false)) = Ok hit /\ (hit = true <-> occurs p s (j - k + 1)).
Proof.
  intros H1 H2. pose proof (candidate (j - k + 1) H2 ltac:(lia)) as C. rewrite get_ok by lia. cbn [bind].
  replace (j - k + 1 + k - 1) with j in C by lia.
  destruct (Z.eqb_spec lastb (byte_at s j)) as [E|E]; cbn [andb].
  - rewrite get_ok by lia. cbn [bind].
    destruct (Z.eqb_spec firstb (byte_at s (j - k + 1))) as [E2|E2]; cbn [andb] in C.
    + replace (j - k + 2) with (j - k + 1 + 1) by lia. rewrite middle_ok by lia. eexists; split; [reflexivity|tauto].
    + eexists; split; [reflexivity|tauto].
  - rewrite andb_false_r in C. cbn [andb] in C. eexists; split; [reflexivity|]. tauto.
Qed.
(** A prefix of consecutive offsets that reaches below the first candidate, followed by
    anything. *)
Lemma backward_tail_ok i m rest : forall o, i + o < n -> i + o - Z.of_nat m - k + 1 < 0 ->
  exists r, backward_tail (downto o (S m) ++ rest) s p k i firstb lastb = Ok r /\
    last_position (fun j => occurs p s j /\ j <= i + o - k + 1) r.
Proof.
  induction m as [|m IH]; intros o Ho Hm.
  - cbn [downto app backward_tail]. destruct (Z.leb_spec 0 (i + o - k + 1)) as [L|L]; [lia|].
    exists (-1). split; auto. right. split; auto. intros j [Oj Hj]. apply occurs_range in Oj. lia.
  - change (downto o (S (S m)) ++ rest) with (o :: (downto (o - 1) (S m) ++ rest)).
    remember (downto (o - 1) (S m) ++ rest) as offs eqn:EO. cbn [backward_tail].
    destruct (Z.leb_spec 0 (i + o - k + 1)) as [L|L].
    + destruct (candidate_code_back (i + o) Ho L) as (hit & E & H).
      set (tl := backward_tail offs s p k i firstb lastb).
      assert (G : bind (get s (i + o)) (fun c =>
        bind (if lastb =? c then bind (get s (i + o - k + 1)) (fun d =>
            if firstb =? d then memcmp_eq s (i + o - k + 2) p 1 (k - 2) else Ok false) else Ok false)
          (fun hit : bool => if hit then Ok (i + o - k + 1) else tl)) = if hit then Ok (i + o - k + 1) else tl).
      { destruct (get s (i + o)) as [c| | |]; cbn [bind] in E |- *; try discriminate.
        rewrite E. reflexivity. }
      rewrite G. destruct hit.
      * eexists. split; eauto. left. split; [|intros j [_ Hj]; lia]. split; [now apply H|lia].
      * destruct (IH (o - 1) ltac:(lia) ltac:(lia)) as (r & Er & Fr). rewrite <- EO in Er. exists r. split; auto.
        destruct Fr as [[[A A'] B]|[A B]]; [left|right].
        -- split; [split; [auto|lia]|]. intros j [Oj Hj].
           destruct (Z.eq_dec j (i + o - k + 1)) as [->|]; [apply H in Oj; discriminate|].
           apply B. split; auto. lia.
        -- split; auto. intros j [Oj Hj].
           destruct (Z.eq_dec j (i + o - k + 1)) as [->|]; [apply H in Oj; discriminate|].
           apply (B j). split; auto. lia.
    + exists (-1). split; auto. right. split; auto. intros j [Oj Hj].
      apply occurs_range in Oj. lia.
Qed.
End Search.

Lemma wp_eq {A} (m : res A) (P : A -> Prop) : wp m P <-> exists r, m = Ok r /\ P r.
Proof. split; [apply wp_inv|]. intros (r & -> & H). exact H. Qed.

(** ** [find] of algorithms/strings.codon *)
Theorem forward_find_ok s p : exists r, forward_find s p = Ok r /\ first_position (occurs p s) r.
Proof.
  pose proof (len_nonneg s) as L1. pose proof (len_nonneg p) as L2.
  unfold forward_find. destruct (Z.eqb_spec (len p) 0) as [E0|E0].
  { exists 0. split; auto. left. apply len_0 in E0. subst p. split.
    - exists [], s. split; auto.
    - intros i Hi. apply occurs_range in Hi. lia. }
  destruct (Z.ltb_spec (len s) (len p)) as [E1|E1].
  { exists (-1). split; auto. right. split; auto. intros i Hi. apply occurs_range in Hi. lia. }
  destruct (Z.eqb_spec (len p) 1) as [E2|E2].
  { rewrite get_ok by lia. cbn [bind]. eexists. split; [reflexivity|].
    destruct p as [|c [|d p]]; rewrite ?len_cons, ?len_nil in *; try (pose proof (len_nonneg p)); try lia.
    apply memchr_first. }
  rewrite !get_ok by lia. cbn [bind]. apply wp_eq. apply wp_bind.
  eapply wp_conseq.
  - apply wp_loop with
      (I := fun i => 0 <= i <= len s + 16 /\ forall j, 0 <= j < i -> ~ occurs p s j)
      (mu := fun i => Z.to_nat (len s - i))
      (Q := fun r => match r with
         | inl q => occurs p s q /\ forall j, 0 <= j < q -> ~ occurs p s j
         | inr i => 0 <= i /\ len s < i + len p + 15 /\ forall j, 0 <= j < i -> ~ occurs p s j
         end).
    + intros i [H1 H2]. destruct (Z.leb_spec (i + len p + 16 - 1) (len s)) as [L|L].
      * destruct (forward_mask_ok s p ltac:(lia) i) as (m & -> & Hm & Hb); try lia.
        cbn [bind]. apply wp_bind. eapply wp_conseq.
        -- apply forward_block_ok; try lia; try exact Hb; lia.
        -- intros [q|]; cbn [wp].
           ++ intros (Q1 & Q2 & Q3). split; auto. intros j Hj.
              destruct (Z.lt_ge_cases j i); [apply H2|apply Q3]; lia.
           ++ intros Q. split; [|lia]. split; [lia|]. intros j Hj.
              destruct (Z.lt_ge_cases j i); [apply H2|apply Q]; lia.
      * cbn [wp]. split; [lia|]. split; [lia|auto].
    + split; [lia|]. lia.
    + unfold len. lia.
  - intros [q|i].
    + intros [H1 H2]. left. split; auto. intros j Hj. destruct (Z.lt_ge_cases j q); auto.
      exfalso. apply (H2 j); auto. apply occurs_range in Hj. lia.
    + intros (H1 & H2 & H3).
      change forward_offsets with (upto 0 16).
      destruct (forward_tail_ok s p ltac:(lia) i 16 0 ltac:(lia)) as (r & -> & Fr). cbn [wp].
      assert (IN : forall j, occurs p s j -> i + 0 <= j < i + 0 + Z.of_nat 16).
      { intros j Hj. pose proof (occurs_range _ _ _ Hj).
        destruct (Z.lt_ge_cases j i); [|lia]. exfalso. apply (H3 j); auto. lia. }
      destruct Fr as [[[A A'] B]|[A B]]; [left|right].
      * split; [auto|intros j Hj; apply B; auto].
      * split; [auto|intros j Hj; apply (B j); auto].
Qed.

(** ** [rfind] of algorithms/strings.codon: right when the number of candidates left over
    after blocks of 16 is below 10 *)
Definition rfind_fits (s p : str) : bool := (len p <=? 1) || ((len s - len p + 1) mod 16 <? 10).

Lemma last_byte_ok s c m : forall i, Z.of_nat m = i + 1 -> i < len s ->
  exists r, last_byte m s c i = Ok r /\ last_position (fun j => occurs [c] s j /\ j <= i) r.
Proof.
  induction m as [|m IH]; intros i Hm Hi; cbn [last_byte].
  - exists (-1). split; auto. right. split; auto. intros j [Hj L]. apply occurs_range in Hj. lia.
  - replace (0 <=? i) with true by lia. rewrite get_ok by lia. cbn [bind].
    destruct (Z.eqb_spec (byte_at s i) c) as [E|E].
    + exists i. split; auto. left. split; [split; [apply occurs_1; split; [lia|auto]|lia]|]. intros j [_ L]. exact L.
    + destruct (IH (i - 1) ltac:(lia) ltac:(lia)) as (r & Er & Fr). exists r. split; auto.
      assert (NI : forall j, occurs [c] s j -> j <= i -> j <= i - 1).
      { intros j Oj L. destruct (Z.eq_dec j i) as [->|]; [|lia]. apply occurs_1 in Oj. tauto. }
      destruct Fr as [[[A A'] B]|[A B]]; [left|right].
      * split; [split; [auto|lia]|]. intros j [Oj L]. apply B. auto.
      * split; auto. intros j [Oj L]. apply (B j). auto.
Qed.

Theorem backward_find_ok s p : rfind_fits s p = true ->
  exists r, backward_find s p = Ok r /\ last_position (occurs p s) r.
Proof.
  intros F. pose proof (len_nonneg s) as L1. pose proof (len_nonneg p) as L2.
  unfold backward_find. destruct (Z.eqb_spec (len p) 0) as [E0|E0].
  { exists (len s). split; auto. left. apply len_0 in E0. subst p. split.
    - exists s, []. rewrite app_nil_r. split; auto.
    - intros i Hi. apply occurs_range in Hi. rewrite len_nil in Hi. lia. }
  destruct (Z.ltb_spec (len s) (len p)) as [E1|E1].
  { exists (-1). split; auto. right. split; auto. intros i Hi. apply occurs_range in Hi. lia. }
  destruct (Z.eqb_spec (len p) 1) as [E2|E2].
  { rewrite get_ok by lia. cbn [bind].
    destruct p as [|c [|d p]]; rewrite ?len_cons, ?len_nil in *; try (pose proof (len_nonneg p)); try lia.
    cbn. destruct (last_byte_ok s c (length s) (len s - 1)) as (r & -> & Fr); try (unfold len; lia).
    exists r. split; auto.
    assert (IN : forall j, occurs [c] s j -> j <= len s - 1).
    { intros j Hj. apply occurs_1 in Hj. lia. }
    destruct Fr as [[[A A'] B]|[A B]]; [left|right]; split; auto.
    intros j Hj. apply (B j). split; auto. }
  unfold rfind_fits in F. replace (len p <=? 1) with false in F by lia. cbn [orb] in F.
  rewrite !get_ok by lia. cbn [bind]. apply wp_eq. apply wp_bind.
  eapply wp_conseq.
  - apply wp_loop with
      (I := fun i => -17 <= i < len s /\ (len s - 1 - i) mod 16 = 0 /\ forall j, i - (len p - 1) < j -> ~ occurs p s j)
      (mu := fun i => Z.to_nat (i + 1))
      (Q := fun r => match r with
         | inl q => occurs p s q /\ forall j, q < j -> ~ occurs p s j
         | inr i => i < len s /\ i - (len p - 1) - 15 < 0 /\ i - (len p - 1) + 1 < 10 /\
                    forall j, i - (len p - 1) < j -> ~ occurs p s j
         end).
    + intros i (H1 & HM & H2). destruct (Z.leb_spec 0 (i - (len p - 1) - (16 - 1))) as [L|L].
      * destruct (backward_mask_ok s p ltac:(lia) i) as (m & -> & Hm & Hb); try lia.
        cbn [bind]. apply wp_bind. eapply wp_conseq.
        -- apply backward_block_ok; try lia; try exact Hb; lia.
        -- intros [q|]; cbn [wp].
           ++ intros (Q1 & Q2 & Q3). split; auto. intros j Hj.
              destruct (Z.lt_ge_cases (i - (len p - 1)) j); [apply H2|apply Q3]; lia.
           ++ intros Q. split; [|lia]. split; [lia|]. split.
              ** replace (len s - 1 - (i - 16)) with (len s - 1 - i + 1 * 16) by lia. rewrite Z.mod_add by lia. auto.
              ** intros j Hj. destruct (Z.lt_ge_cases (i - (len p - 1)) j); [apply H2|apply Q]; lia.
      * cbn [wp]. split; [lia|]. split; [lia|]. split; [|auto].
        destruct (Z.lt_ge_cases (i - (len p - 1) + 1) 0); [lia|].
        assert ((i - (len p - 1) + 1) mod 16 = i - (len p - 1) + 1) as <- by (apply Z.mod_small; lia).
        replace (len s - len p + 1) with (i - (len p - 1) + 1 + (len s - 1 - i)) in F by lia.
        rewrite <- Z.add_mod_idemp_r, HM, Z.add_0_r in F by lia. lia.
    + split; [lia|]. split; [replace (len s - 1 - (len s - 1)) with 0 by lia; reflexivity|].
      intros j Hj Oj. apply occurs_range in Oj. lia.
    + unfold len. lia.
  - intros [q|i].
    + intros [H1 H2]. left. split; auto. intros j Hj. destruct (Z.lt_ge_cases q j); auto.
      exfalso. apply (H2 j); auto.
    + intros (H0 & H1 & H1' & H3).
      change backward_offsets with (downto 0 (S 9) ++ [10; -11; -12; -13; -14; -15]).
      destruct (backward_tail_ok s p ltac:(lia) i 9 [10; -11; -12; -13; -14; -15] 0 ltac:(lia) ltac:(lia))
        as (r & -> & Fr). cbn [wp].
      assert (IN : forall j, occurs p s j -> j <= i + 0 - len p + 1).
      { intros j Hj. destruct (Z.lt_ge_cases (i - (len p - 1)) j); [|lia]. exfalso. apply (H3 j); auto. }
      destruct Fr as [[[A A'] B]|[A B]]; [left|right].
      * split; [auto|intros j Hj; apply B; auto].
      * split; [auto|intros j Hj; apply (B j); auto].
Qed.
