(** Searches in a part of a text. *)
From Coq Require Import List ZArith Lia Bool.
From Verif.Common Require Import Result Int64.
From Verif.Str Require Import Model Spec Basic FindProofs SplitProofs.
Import ListNotations.
Local Open Scope Z_scope.

Definition end64 (e : option Z) : Prop := match e with Some v => in64 v | None => True end.

Lemma in64_bounds v : in64 v <-> -9223372036854775808 <= v <= 9223372036854775807.
Proof. unfold in64, min64, max64. lia. Qed.

Lemma correct_ok n start e : 0 <= n < MAX -> in64 start -> end64 e ->
  correct_indices n start (end_or e n) = (window_start n start, window_end n e) /\
  0 <= window_start n start <= 9223372036854775807 /\ 0 <= window_end n e <= n.
Proof.
  unfold MAX, max64. intros Hn Hs He. rewrite in64_bounds in Hs.
  unfold correct_indices, window_start, window_end. cbv zeta.
  assert (W : forall v, -9223372036854775808 <= v < 0 -> w64 (v + n) = v + n)
    by (intros; apply w64_id; apply in64_bounds; lia).
  split.
  - f_equal.
    + destruct (Z.ltb_spec start 0); auto. rewrite W by lia. destruct (Z.ltb_spec (start + n) 0); lia.
    + destruct e as [v|]; cbn [end_or].
      * cbn [end64] in He. rewrite in64_bounds in He. destruct (Z.ltb_spec n v).
        -- destruct (Z.ltb_spec v 0); lia.
        -- destruct (Z.ltb_spec v 0); [|lia]. rewrite W by lia. destruct (Z.ltb_spec (v + n) 0); lia.
      * replace (n <? n) with false by lia. now replace (n <? 0) with false by lia.
  - split.
    + destruct (Z.ltb_spec start 0); lia.
    + destruct e as [v|]; [|lia]. destruct (Z.ltb_spec v 0); lia.
Qed.

Section Window.
  Context (s p : str) (start : Z) (e : option Z).
  Context (Hs : len s < MAX) (Hp : len p < MAX) (Hst : in64 start) (He : end64 e).
  Local Notation a := (window_start (len s) start).
  Local Notation b := (window_end (len s) e).

  Lemma window_diff : w64 (b - a) = b - a.
  Proof.
    destruct (correct_ok (len s) start e) as (_ & A & B); auto. { pose proof (len_nonneg s). lia. }
    unfold MAX, max64 in *. apply w64_id. apply in64_bounds. lia.
  Qed.
  Lemma none_within : b - a < len p -> forall i, ~ occurs_within p s start e i.
  Proof.
    intros H i (O & A & B). change (size s) with (len s) in *. change (size p) with (len p) in *. lia.
  Qed.
  Lemma within_iff i : a <= b -> (occurs_within p s start e i <-> occurs p (sub s a b) (i - a)).
  Proof.
    intros H. destruct (correct_ok (len s) start e) as (_ & A & B); auto. { pose proof (len_nonneg s). lia. }
    rewrite occurs_in_sub by lia. unfold occurs_within. change (size s) with (len s); change (size p) with (len p).
    replace (a + (i - a)) with i by lia. split.
    - intros (O & X & Y). repeat split; auto; lia.
    - intros (X & Y & O). repeat split; auto; lia.
  Qed.

  Lemma find_ok : exists r, str_find s p start e = Ok r /\ first_position (occurs_within p s start e) r.
  Proof.
    pose proof (len_nonneg s). pose proof (len_nonneg p).
    destruct (correct_ok (len s) start e) as (C & A & B); auto.
    unfold str_find. rewrite C, window_diff. destruct (Z.ltb_spec (b - a) (len p)) as [L|L].
    - exists (-1). split; auto. right. split; auto. now apply none_within.
    - rewrite slice_ok by lia. cbn [bind]. destruct (forward_find_ok (sub s a b) p) as (r & -> & F). cbn [bind].
      eexists. split; [reflexivity|]. destruct F as [[O M]|[-> N]].
      + assert (0 <= r) by (apply occurs_range in O; lia). replace (r <? 0) with false by lia. left. split.
        * apply within_iff; [lia|]. now replace (r + a - a) with r by lia.
        * intros i Hi. apply within_iff in Hi; [|lia]. apply M in Hi. lia.
      + right. split; auto. intros i Hi. apply within_iff in Hi; [|lia]. now apply N in Hi.
  Qed.
  Lemma rfind_ok : rfind_fits (sub s a b) p = true ->
    exists r, str_rfind s p start e = Ok r /\ last_position (occurs_within p s start e) r.
  Proof.
    intros Hf. pose proof (len_nonneg s). pose proof (len_nonneg p).
    destruct (correct_ok (len s) start e) as (C & A & B); auto.
    unfold str_rfind. rewrite C, window_diff. destruct (Z.ltb_spec (b - a) (len p)) as [L|L].
    - exists (-1). split; auto. right. split; auto. now apply none_within.
    - rewrite slice_ok by lia. cbn [bind]. destruct (backward_find_ok (sub s a b) p Hf) as (r & -> & F). cbn [bind].
      eexists. split; [reflexivity|]. destruct F as [[O M]|[-> N]].
      + assert (0 <= r) by (apply occurs_range in O; lia). replace (r <? 0) with false by lia. left. split.
        * apply within_iff; [lia|]. now replace (r + a - a) with r by lia.
        * intros i Hi. apply within_iff in Hi; [|lia]. apply M in Hi. lia.
      + right. split; auto. intros i Hi. apply within_iff in Hi; [|lia]. now apply N in Hi.
  Qed.

  Lemma count_ok : exists r, str_count s p start e = Ok r /\
    if len p =? 0 then r = (if a <=? b then b - a + 1 else 0)
    else exists l, split_left p (-1) (sub s a b) l /\ r = Z.of_nat (length l) - 1.
  Proof.
    pose proof (len_nonneg s). pose proof (len_nonneg p).
    destruct (correct_ok (len s) start e) as (C & A & B); auto.
    unfold str_count. rewrite C, window_diff. destruct (Z.ltb_spec (b - a) (len p)) as [L|L].
    - exists 0. split; auto. destruct (Z.eqb_spec (len p) 0).
      + now replace (a <=? b) with false by lia.
      + exists [sub s a b]. split; [|reflexivity]. constructor. right. intros i O. apply occurs_range in O.
        assert (len (sub s a b) <= Z.max 0 (b - a)).
        { unfold sub, len. rewrite firstn_length, skipn_length. lia. }
        lia.
    - rewrite slice_ok by lia. cbn [bind]. destruct (Z.eqb_spec (len p) 0) as [E|E].
      + unfold count_all. rewrite E. cbn [Z.eqb]. eexists. split; [reflexivity|].
        rewrite sub_len by lia. now replace (a <=? b) with true by lia.
      + destruct (count_all_ok (sub s a b) p) as (l & S & ->); [lia|]. eexists. split; [reflexivity|]. eauto.
  Qed.

  Lemma index_ok : match str_index s p start e with
    | Ok r => occurs_within p s start e r /\ forall i, occurs_within p s start e i -> r <= i
    | Raise ValueError => forall i, ~ occurs_within p s start e i
    | _ => False
    end.
  Proof.
    unfold str_index. destruct find_ok as (r & -> & F). cbn [bind]. destruct F as [[O M]|[-> N]].
    - assert (0 <= r) by (destruct O as [O _]; apply occurs_range in O; lia).
      replace (r =? -1) with false by lia. auto.
    - exact N.
  Qed.
  Lemma rindex_ok : rfind_fits (sub s a b) p = true -> match str_rindex s p start e with
    | Ok r => occurs_within p s start e r /\ forall i, occurs_within p s start e i -> i <= r
    | Raise ValueError => forall i, ~ occurs_within p s start e i
    | _ => False
    end.
  Proof.
    intros Hf. unfold str_rindex. destruct (rfind_ok Hf) as (r & -> & F). cbn [bind]. destruct F as [[O M]|[-> N]].
    - assert (0 <= r) by (destruct O as [O _]; apply occurs_range in O; lia).
      replace (r =? -1) with false by lia. auto.
    - exact N.
  Qed.

  (** The bounds for which [startswith] and [endswith] are right. *)
  Definition affix_bounds : Prop :=
    (0 <= start /\ match e with Some v => - len s <= v | None => True end) \/
    (- len s <= start < 0 /\ match e with Some v => 0 <= v | None => True end).

  Lemma affix_indices : affix_bounds ->
    (if end_or e (len s) <? 0 then (start, w64 (end_or e (len s) + len s))
     else if start <? 0 then (w64 (start + len s), end_or e (len s)) else (start, end_or e (len s)))
    = (a, match e with Some v => if v <? 0 then v + len s else v | None => len s end).
  Proof.
    intros Hb. pose proof (len_nonneg s). unfold MAX, max64 in *. rewrite in64_bounds in Hst.
    unfold affix_bounds in Hb. unfold window_start.
    destruct e as [v|]; cbn [end_or].
    - cbn [end64] in He. rewrite in64_bounds in He. destruct (Z.ltb_spec v 0).
      + replace (start <? 0) with false by lia. rewrite w64_id by (apply in64_bounds; lia). reflexivity.
      + destruct (Z.ltb_spec start 0); auto. rewrite w64_id by (apply in64_bounds; lia). f_equal. lia.
    - replace (len s <? 0) with false by lia. destruct (Z.ltb_spec start 0); auto.
      rewrite w64_id by (apply in64_bounds; lia). f_equal. lia.
  Qed.

  Lemma startswith_ok : affix_bounds ->
    exists r, str_startswith s p start e = Ok r /\ (r = true <-> occurs_within p s start e a).
  Proof.
    intros Hb. pose proof (len_nonneg s). pose proof (len_nonneg p).
    destruct (correct_ok (len s) start e) as (_ & A & B); auto.
    unfold str_startswith. rewrite affix_indices by auto.
    set (ee := match e with Some v => if v <? 0 then v + len s else v | None => len s end).
    assert (Ee : b = Z.min ee (len s) /\ 0 <= ee <= 9223372036854775807).
    { unfold ee, window_end, affix_bounds, MAX, max64 in *. destruct e as [v|]; [|lia].
      cbn [end64] in He. rewrite in64_bounds in He. destruct (Z.ltb_spec v 0); lia. }
    clearbody ee. unfold MAX, max64 in *.
    unfold occurs_within. change (size s) with (len s); change (size p) with (len p).
    rewrite (w64_id (ee - a)) by (apply in64_bounds; lia).
    destruct (Z.lt_ge_cases (ee - a) (len p)) as [L|L].
    - assert (X : exists r, Ok r = (if len s <? w64 (a + len p) then Ok false else if ee - a <? len p then Ok false
        else if len p =? 0 then Ok true else bind (slice_ s a (w64 (a + len p))) (fun sl => Ok (str_eq p sl))) /\ r = false).
      { replace (ee - a <? len p) with true by lia. exists false. destruct (len s <? w64 (a + len p)); auto. }
      destruct X as (r & <- & ->). exists false. split; auto. split; [congruence|]. intros (O & _ & Y). lia.
    - rewrite (w64_id (a + len p)) by (apply in64_bounds; lia).
      destruct (Z.ltb_spec (len s) (a + len p)).
      + exists false. split; auto. split; [congruence|]. intros (O & _ & Y). lia.
      + replace (ee - a <? len p) with false by lia.
        destruct (Z.eqb_spec (len p) 0) as [E|E].
        * exists true. split; auto. split; auto. intros _. split; [|lia]. apply occurs_sub. rewrite E, Z.add_0_r, sub_empty.
          split; [lia|]. split; [lia|]. symmetry. now apply len_0.
        * rewrite slice_ok by lia. cbn [bind]. eexists. split; [reflexivity|]. rewrite str_eq_eq. split.
          -- intros E2. split; [|lia]. apply occurs_sub. split; [lia|]. split; [lia|]. auto.
          -- intros (O & _). apply occurs_sub in O. symmetry. tauto.
  Qed.
  Lemma endswith_ok : affix_bounds ->
    exists r, str_endswith s p start e = Ok r /\ (r = true <-> occurs_within p s start e (b - len p)).
  Proof.
    intros Hb. pose proof (len_nonneg s). pose proof (len_nonneg p).
    destruct (correct_ok (len s) start e) as (_ & A & B); auto.
    unfold str_endswith. rewrite affix_indices by auto.
    set (ee := match e with Some v => if v <? 0 then v + len s else v | None => len s end).
    assert (Ee : (if len s <? ee then len s else ee) = b).
    { unfold ee, window_end, affix_bounds, MAX, max64 in *. destruct e as [v|].
      - cbn [end64] in He. rewrite in64_bounds in He. destruct (Z.ltb_spec v 0).
        + destruct (Z.ltb_spec (len s) (v + len s)); lia.
        + destruct (Z.ltb_spec (len s) v); lia.
      - now destruct (Z.ltb_spec (len s) (len s)). }
    rewrite Ee. clear Ee. clearbody ee. cbv zeta. unfold MAX, max64 in *.
    unfold occurs_within. change (size s) with (len s); change (size p) with (len p).
    rewrite (w64_id (b - a)) by (apply in64_bounds; lia).
    destruct (Z.ltb_spec (b - a) (len p)) as [L|L]; cbn [orb].
    - exists false. split; auto. split; [congruence|]. intros (O & X & Y). lia.
    - destruct (Z.ltb_spec (len s) a).
      + exists false. split; auto. split; [congruence|]. intros (O & X & Y). lia.
      + rewrite (w64_id (b - len p)) by (apply in64_bounds; lia).
        assert (X : (if a <? b - len p then b - len p else a) = b - len p) by (destruct (Z.ltb_spec a (b - len p)); lia).
        rewrite X. rewrite (w64_id (b - (b - len p))) by (apply in64_bounds; lia).
        replace (b - (b - len p) <? len p) with false by lia.
        destruct (Z.eqb_spec (len p) 0) as [E|E].
        * exists true. split; auto. split; auto. intros _. split; [|lia]. apply occurs_sub. rewrite E, Z.sub_0_r, Z.add_0_r, sub_empty.
          split; [lia|]. split; [lia|]. symmetry. now apply len_0.
        * rewrite (w64_id (b - len p + len p)) by (apply in64_bounds; lia).
          rewrite slice_ok by lia. cbn [bind]. eexists. split; [reflexivity|]. rewrite str_eq_eq. split.
          -- intros E2. split; [|lia]. apply occurs_sub. split; [lia|]. split; [lia|]. auto.
          -- intros (O & _). apply occurs_sub in O. symmetry. tauto.
  Qed.
End Window.

Lemma contains_ok s p : len s < MAX -> len p < MAX ->
  exists r, str_contains s p = Ok r /\ (r = true <-> exists i, occurs p s i).
Proof.
  intros Hs Hp. unfold str_contains.
  destruct (find_ok s p 0 None Hs) as (r & -> & F).
  - apply in64_bounds. lia.
  - exact I.
  - cbn [bind]. eexists. split; [reflexivity|].
    assert (W : forall i, occurs_within p s 0 None i <-> occurs p s i).
    { intros i. unfold occurs_within, window_start, window_end. change (size s) with (len s); change (size p) with (len p). split; [tauto|].
      intros O. pose proof (occurs_range p s i O). cbn. repeat split; auto; lia. }
    destruct F as [[O M]|[-> N]].
    + apply W in O. pose proof (occurs_range _ _ _ O). replace (0 <=? r) with true by lia. split; eauto.
    + cbn. split; [congruence|]. intros (i & O). apply W in O. now apply N in O.
Qed.
