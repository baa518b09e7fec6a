(** Proofs about slices and ranges. *)
From Coq Require Import List ZArith Lia Bool.
From Verif.Common Require Import Result Int64 Tac.
From Verif.List Require Import SliceSpec SliceModel.
Import ListNotations.
Local Open Scope Z_scope.
Local Arguments Z.add : simpl never.
Local Arguments Z.sub : simpl never.
Local Arguments Z.mul : simpl never.
Local Arguments Z.opp : simpl never.
Local Arguments Z.pow : simpl never.

Lemma count_code_pos i j k :
  0 < k -> i < j -> progression_count i j k = (j - i - 1) / k + 1.
Proof.
  intros Hk Hij.
  pose proof (Z.div_mod (j - i - 1) k ltac:(lia)) as E.
  pose proof (Z.mod_pos_bound (j - i - 1) k Hk) as B.
  assert (0 <= (j - i - 1) / k) by (apply Z.div_pos; lia).
  apply count_unique_pos; try lia; nia.
Qed.

Lemma count_code_neg i j k :
  k < 0 -> j < i -> progression_count i j k = (i - j - 1) / (- k) + 1.
Proof.
  intros Hk Hij.
  pose proof (Z.div_mod (i - j - 1) (-k) ltac:(lia)) as E.
  pose proof (Z.mod_pos_bound (i - j - 1) (-k) ltac:(lia)) as B.
  assert (0 <= (i - j - 1) / (-k)) by (apply Z.div_pos; lia).
  apply count_unique_neg; try lia; nia.
Qed.

Lemma count_zero_pos i j k : 0 < k -> j <= i -> progression_count i j k = 0.
Proof. intros. apply count_unique_pos; lia. Qed.
Lemma count_zero_neg i j k : k < 0 -> i <= j -> progression_count i j k = 0.
Proof. intros. apply count_unique_neg; lia. Qed.

Lemma div_bound a b : 0 <= a -> 0 < b -> 0 <= a / b <= a.
Proof.
  intros Ha Hb. split; [apply Z.div_pos; lia|].
  apply Z.div_le_upper_bound; [lia|]. nia.
Qed.

(** The quotient computed by [sdiv d (w64 (0 - step))] for a negative step. *)
Lemma sdiv_neg_step a k :
  0 <= a <= max64 -> min64 <= k < 0 -> sdiv a (w64 (0 - k)) = Ok (a / (- k)).
Proof.
  unfold max64. intros Ha Hk. destruct (Z.eq_dec k min64) as [->|Hne].
  - replace (w64 (0 - min64)) with (-2^63) by reflexivity.
    unfold sdiv. replace ((-2^63 =? 0) || ((a =? min64) && (-2^63 =? -1))) with false by lia.
    f_equal. rewrite Z.quot_opp_r by lia. rewrite Z.quot_div_nonneg by lia.
    unfold min64. rewrite Z.opp_involutive. rewrite Z.div_small by lia. reflexivity.
  - rewrite w64_id by (unfold in64, min64, max64 in *; lia).
    replace (0 - k) with (-k) by lia. apply sdiv_pos; lia.
Qed.

Lemma w64_small z : -2^63 <= z <= 2^63 - 1 -> w64 z = z.
Proof. intros. apply w64_id. unfold in64, min64, max64. lia. Qed.

Lemma adjust_indices_spec s n :
  0 <= n <= 2^62 ->
  (forall v, sl_start s = Some v -> in64 v) ->
  (forall v, sl_stop s = Some v -> in64 v) ->
  (forall v, sl_step s = Some v -> in64 v) ->
  py_step s <> 0 ->
  adjust_indices s n = Ok (py_start n s, py_stop n s, py_step s, py_count n s).
Proof.
  intros Hn H1 H2 H3 Hk.
  assert (K : in64 (py_step s)).
  { unfold py_step. destruct (sl_step s); [auto|]. unfold in64, min64, max64. lia. }
  unfold adjust_indices. fold (py_step s).
  replace (py_step s =? 0) with false by lia.
  set (k := py_step s) in *.
  (* normalised bounds *)
  assert (HS : forall v, in64 v ->
     (if v <? 0 then
        if w64 (v + n) <? 0 then (if k <? 0 then -1 else 0) else w64 (v + n)
      else if n <=? v then (if k <? 0 then n - 1 else n) else v) = clamp n k v).
  { intros v Hv. unfold in64, min64, max64 in Hv. unfold clamp.
    destruct (Z.ltb_spec v 0); [rewrite w64_small by lia|];
      destruct (Z.ltb_spec 0 k), (Z.ltb_spec k 0); try lia;
      repeat match goal with |- context[?a <? ?b] => destruct (Z.ltb_spec a b)
                        | |- context[?a <=? ?b] => destruct (Z.leb_spec a b) end; lia. }
  assert (SB : 0 <= py_start n s <= n \/ -1 <= py_start n s <= n - 1).
  { unfold py_start, clamp. fold k. destruct (sl_start s); destruct (0 <? k); lia. }
  assert (TB : 0 <= py_stop n s <= n \/ -1 <= py_stop n s <= n - 1).
  { unfold py_stop, clamp. fold k. destruct (sl_stop s); destruct (0 <? k); lia. }
  assert (E1 : exists a, (if 0 <? k then match sl_start s with Some v => v | None => 0 end
               else match sl_start s with Some v => v | None => n - 1 end) = a /\ in64 a /\
               clamp n k a = py_start n s).
  { unfold py_start. fold k. destruct (sl_start s) as [v|].
    - exists v. destruct (0 <? k); auto.
    - eexists; split; [reflexivity|]. unfold in64, min64, max64, clamp.
      destruct (Z.ltb_spec 0 k); split; try lia;
      match goal with |- context[?a <? 0] => destruct (Z.ltb_spec a 0) end; lia. }
  assert (E2 : exists a, (if 0 <? k then match sl_stop s with Some v => v | None => n end
               else match sl_stop s with Some v => v | None => w64 (- (n+1)) end) = a /\ in64 a /\
               clamp n k a = py_stop n s).
  { unfold py_stop. fold k. destruct (sl_stop s) as [v|].
    - exists v. destruct (0 <? k); auto.
    - eexists; split; [reflexivity|]. rewrite (w64_small (-(n+1))) by lia.
      unfold in64, min64, max64, clamp.
      destruct (Z.ltb_spec 0 k); split; try lia;
      match goal with |- context[?a <? 0] => destruct (Z.ltb_spec a 0) end; lia. }
  destruct E1 as (a & Ea & Ia & Ca). destruct E2 as (b & Eb & Ib & Cb).
  replace (if 0 <? k
     then (match sl_start s with Some v => v | None => 0 end,
           match sl_stop s with Some v => v | None => n end)
     else (match sl_start s with Some v => v | None => n - 1 end,
           match sl_stop s with Some v => v | None => w64 (- (n + 1)) end)) with (a, b)
    by (rewrite <- Ea, <- Eb; destruct (0 <? k); reflexivity).
  unfold adjust_indices_helper. cbv zeta. rewrite (HS a Ia), (HS b Ib), Ca, Cb.
  unfold py_count. fold k. set (i := py_start n s) in *. set (j := py_stop n s) in *.
  unfold in64, min64, max64 in K.
  destruct (Z.ltb_spec k 0).
  - destruct (Z.ltb_spec j i).
    + rewrite w64_small by lia. rewrite sdiv_neg_step by (unfold min64, max64; lia). simpl.
      pose proof (div_bound (i - j - 1) (-k) ltac:(lia) ltac:(lia)).
      rewrite w64_small by lia. now rewrite count_code_neg by lia.
    + now rewrite count_zero_neg by lia.
  - destruct (Z.ltb_spec i j).
    + rewrite w64_small by lia. rewrite sdiv_pos by lia. simpl.
      pose proof (div_bound (j - i - 1) k ltac:(lia) ltac:(lia)).
      rewrite w64_small by lia. now rewrite count_code_pos by lia.
    + now rewrite count_zero_pos by lia.
Qed.

(** Bounds of the normalised values. *)
Lemma py_bounds_pos n s : 0 <= n -> 0 < py_step s ->
  0 <= py_start n s <= n /\ 0 <= py_stop n s <= n.
Proof.
  intros Hn Hk. unfold py_start, py_stop, clamp.
  destruct (Z.ltb_spec 0 (py_step s)); [|lia].
  destruct (sl_start s), (sl_stop s); lia.
Qed.

Lemma py_bounds_neg n s : 0 <= n -> py_step s < 0 ->
  -1 <= py_start n s <= n - 1 /\ -1 <= py_stop n s <= n - 1.
Proof.
  intros Hn Hk. unfold py_start, py_stop, clamp.
  destruct (Z.ltb_spec 0 (py_step s)); [lia|].
  destruct (sl_start s), (sl_stop s); lia.
Qed.

Lemma py_positions_in_bounds n s x :
  0 <= n -> py_step s <> 0 -> In x (py_positions n s) -> 0 <= x < n.
Proof.
  intros Hn Hk H. apply py_positions_meaning in H; auto. destruct H as [H _].
  destruct (Z.ltb_spec 0 (py_step s)).
  - pose proof (py_bounds_pos n s Hn ltac:(lia)). lia.
  - pose proof (py_bounds_neg n s Hn ltac:(lia)). lia.
Qed.

(** ** Ranges *)

Definition range_count_spec (r : range) : Z := progression_count (r_start r) (r_stop r) (r_step r).
Definition range_elems (r : range) : list Z :=
  progression (r_start r) (r_step r) (range_count_spec r).

Definition range_ok (r : range) : Prop :=
  in64 (r_start r) /\ in64 (r_stop r) /\ in64 (r_step r) /\ r_step r <> 0.

(** The distance between the bounds fits (one more than) a signed 64-bit integer. *)
Definition span_fits (r : range) : Prop := - 2^63 <= r_stop r - r_start r <= 2^63.

Lemma range_len_spec r : range_ok r -> span_fits r ->
  (range_count_spec r <= max64 -> range_len r = Ok (range_count_spec r)) /\
  0 <= range_count_spec r <= 2^63.
Proof.
  destruct r as [i j k]. unfold range_ok, span_fits, range_count_spec, in64, min64, max64. simpl.
  intros (Hi & Hj & Hk & Hz) Hs.
  destruct (Z.ltb_spec 0 k); destruct (Z.ltb_spec k 0); try lia.
  - simpl. destruct (Z.ltb_spec i j); simpl.
    + pose proof (div_bound (j - i - 1) k ltac:(lia) ltac:(lia)).
      rewrite count_code_pos by lia. rewrite w64_sub_l.
      replace (j - 1 - i) with (j - i - 1) by lia.
      rewrite (w64_small (j - i - 1)) by lia. rewrite sdiv_pos by lia. simpl.
      split; [|lia]. intros Hc. rewrite w64_small by lia. f_equal. lia.
    + rewrite count_zero_pos by lia. split; [reflexivity|lia].
  - simpl. destruct (Z.ltb_spec j i); simpl.
    + pose proof (div_bound (i - j - 1) (-k) ltac:(lia) ltac:(lia)).
      rewrite count_code_neg by lia. rewrite w64_sub_l.
      replace (i - 1 - j) with (i - j - 1) by lia.
      rewrite (w64_small (i - j - 1)) by lia.
      rewrite sdiv_neg_step by (unfold min64, max64; lia). simpl.
      split; [|lia]. intros Hc. rewrite w64_small by lia. f_equal. lia.
    + rewrite count_zero_neg by lia. split; [reflexivity|lia].
Qed.

(** Elements lie between the bounds. *)
Lemma range_elem_bounds r m : range_ok r -> 0 <= m < range_count_spec r ->
  (0 < r_step r /\ r_start r <= r_start r + m * r_step r < r_stop r) \/
  (r_step r < 0 /\ r_stop r < r_start r + m * r_step r <= r_start r).
Proof.
  intros (_ & _ & _ & Hz) Hm. unfold range_count_spec in Hm.
  destruct (Z_lt_le_dec 0 (r_step r)).
  - left. split; [assumption|].
    assert (r_start r + m * r_step r < r_stop r) by (apply count_pos; lia). nia.
  - right. split; [lia|].
    assert (r_stop r < r_start r + m * r_step r) by (apply count_neg; lia). nia.
Qed.

Lemma range_get_raw_spec r m : range_ok r -> 0 <= m < range_count_spec r ->
  range_get_raw r m = r_start r + m * r_step r.
Proof.
  intros Hr Hm. pose proof (range_elem_bounds r m Hr Hm) as B.
  destruct Hr as (Hi & Hj & Hk & Hz). unfold in64, min64, max64 in *.
  unfold range_get_raw. rewrite w64_add_r. apply w64_small. lia.
Qed.

Lemma range_contains_spec r x : range_ok r -> span_fits r -> in64 x ->
  exists b, range_contains r x = Ok b /\ (b = true <-> In x (range_elems r)).
Proof.
  intros Hr Hs Hx. unfold range_elems. 
  assert (PI := progression_in (r_start r) (r_step r) (range_count_spec r) x).
  destruct r as [i j k]. unfold range_ok, span_fits, range_count_spec, in64, min64, max64 in *.
  simpl in *. destruct Hr as (Hi & Hj & Hk & Hz).
  destruct (((0 <? k) && negb ((i <=? x) && (x <? j))) ||
     ((k <? 0) && negb ((j <? x) && (x <=? i)))) eqn:E.
  - exists false. split; [reflexivity|]. split; [discriminate|]. intros H. exfalso.
    apply PI in H. destruct H as (m & Hm & Ex).
    destruct (Z_lt_le_dec 0 k).
    + assert (i + m * k < j) by (apply count_pos; lia). nia.
    + assert (j < i + m * k) by (apply count_neg; lia). nia.
  - assert (Hd : w64 (x - i) = x - i) by (apply w64_small; lia). rewrite Hd.
    assert (Hu : srem (x - i) k = Ok (Z.rem (x - i) k)).
    { unfold srem, min64. replace ((k =? 0) || ((x - i =? - 2^63) && (k =? -1))) with false; [reflexivity|].
      symmetry. lia. }
    rewrite Hu. simpl. eexists. split; [reflexivity|]. rewrite Z.eqb_eq.
    rewrite PI. split.
    + intros H0. pose proof (Z.quot_rem (x - i) k Hz) as Q. rewrite H0 in Q.
      exists (Z.quot (x - i) k). split; [|lia].
      destruct (Z_lt_le_dec 0 k).
      * assert (0 <= Z.quot (x - i) k) by (apply Z.quot_pos; lia).
        split; [assumption|]. apply count_pos; lia.
      * assert (0 <= Z.quot (x - i) k) by nia.
        split; [assumption|]. apply count_neg; lia.
    + intros (m & Hm & ->). replace (i + m * k - i) with (m * k) by lia. apply Z.rem_mul. lia.
Qed.

Lemma range_index_spec r x : range_ok r -> span_fits r -> in64 x -> In x (range_elems r) ->
  exists m, range_index r x = Ok m /\ 0 <= m < range_count_spec r /\ r_start r + m * r_step r = x.
Proof.
  intros Hr Hs Hx HI. unfold range_index.
  destruct (range_contains_spec r x Hr Hs Hx) as (b & -> & Hb).
  apply Hb in HI as Hb'. subst b. simpl.
  unfold range_elems in HI. apply progression_in in HI. destruct HI as (m & Hm & Ex).
  exists m. split; [|auto].
  pose proof (range_elem_bounds r m Hr Hm) as B.
  destruct Hr as (Hi & Hj & Hk & Hz). unfold span_fits, in64, min64, max64 in *.
  rewrite w64_small by lia. replace (x - r_start r) with (m * r_step r) by lia.
  unfold sdiv, min64.
  replace ((r_step r =? 0) || ((m * r_step r =? -2^63) && (r_step r =? -1))) with false
    by (symmetry; lia).
  f_equal. apply Z.quot_mul. assumption.
Qed.

(** Iteration: exactly the elements, provided the step past the end does not wrap. *)
Lemma range_iter_from_spec fuel : forall stop step i,
  in64 i -> in64 stop -> in64 step -> step <> 0 ->
  in64 (i + progression_count i stop step * step) ->
  (Z.to_nat (progression_count i stop step) < fuel)%nat ->
  range_iter_from fuel stop step i = Ok (progression i step (progression_count i stop step)).
Proof.
  induction fuel as [|fuel IH]; intros stop step i Hi Hstop Hstep Hz Hend Hf; [lia|].
  pose proof (count_nonneg i stop step) as Hc.
  simpl. destruct (Z.ltb_spec 0 step) as [Hp|Hn].
  - destruct (Z.ltb_spec i stop) as [Hlt|Hge].
    + assert (C : progression_count (i + step) stop step = progression_count i stop step - 1).
      { assert (0 < progression_count i stop step) by (apply count_pos; lia).
        apply count_unique_pos; try lia.
        - assert (~ i + progression_count i stop step * step < stop)
            by (rewrite <- count_pos by lia; lia). lia.
        - intros. assert (i + (progression_count i stop step - 1) * step < stop)
            by (apply count_pos; lia). lia. }
      assert (0 < progression_count i stop step) by (apply count_pos; lia).
      assert (I1 : in64 (i + step)).
      { unfold in64, min64, max64 in *. nia. }
      rewrite w64_id by assumption. rewrite IH; auto.
      * simpl. rewrite C. rewrite (progression_cons i) by lia. reflexivity.
      * rewrite C. replace (i + step + (progression_count i stop step - 1) * step)
          with (i + progression_count i stop step * step) by lia. assumption.
      * rewrite C. lia.
    + rewrite count_zero_pos by lia. reflexivity.
  - destruct (Z.ltb_spec stop i) as [Hlt|Hge].
    + assert (C : progression_count (i + step) stop step = progression_count i stop step - 1).
      { assert (0 < progression_count i stop step) by (apply count_neg; lia).
        apply count_unique_neg; try lia.
        - assert (~ stop < i + progression_count i stop step * step)
            by (rewrite <- count_neg by lia; lia). lia.
        - intros. assert (stop < i + (progression_count i stop step - 1) * step)
            by (apply count_neg; lia). lia. }
      assert (0 < progression_count i stop step) by (apply count_neg; lia).
      assert (I1 : in64 (i + step)).
      { unfold in64, min64, max64 in *. nia. }
      rewrite w64_id by assumption. rewrite IH; auto.
      * simpl. rewrite C. rewrite (progression_cons i) by lia. reflexivity.
      * rewrite C. replace (i + step + (progression_count i stop step - 1) * step)
          with (i + progression_count i stop step * step) by lia. assumption.
      * rewrite C. lia.
    + rewrite count_zero_neg by lia. reflexivity.
Qed.

Lemma range_iter_spec r fuel : range_ok r ->
  in64 (r_start r + range_count_spec r * r_step r) ->
  (Z.to_nat (range_count_spec r) < fuel)%nat ->
  range_iter fuel r = Ok (range_elems r).
Proof.
  intros (Hi & Hj & Hk & Hz) He Hf. unfold range_iter, range_elems, range_count_spec.
  apply range_iter_from_spec; auto.
Qed.

Lemma rev_progression i k n : 0 <= n ->
  rev (progression i k n) = progression (i + (n - 1) * k) (- k) n.
Proof.
  intros Hn. apply (nth_ext _ _ 0 0).
  - now rewrite rev_length, !progression_length.
  - rewrite rev_length, progression_length. intros m Hm.
    rewrite rev_nth by (rewrite progression_length; lia). rewrite progression_length.
    rewrite !progression_nth by lia. rewrite Nat2Z.inj_sub by lia. lia.
Qed.

Lemma range_reversed_spec r fuel : range_ok r -> span_fits r ->
  range_count_spec r <= max64 ->
  in64 (r_start r - r_step r) -> in64 (- r_step r) ->
  (Z.to_nat (range_count_spec r) < fuel)%nat ->
  range_reversed fuel r = Ok (rev (range_elems r)).
Proof.
  intros Hr Hs Hc He Hk' Hf. destruct (range_len_spec r Hr Hs) as [HL Hnn].
  unfold range_reversed. rewrite (HL Hc). simpl.
  set (n := range_count_spec r) in *.
  assert (Hr' := Hr). destruct Hr' as (Hi & Hj & Hk & Hz).
  rewrite (w64_id (r_start r - r_step r)) by assumption.
  replace (0 - r_step r) with (- r_step r) by lia.
  rewrite (w64_id (- r_step r)) by assumption.
  unfold range_new. replace (- r_step r =? 0) with false by lia. simpl.
  rewrite w64_mul_l, w64_add_r.
  assert (EL : w64 (r_start r + (n - 1) * r_step r) = r_start r + (n - 1) * r_step r).
  { destruct (Z.eq_dec n 0) as [E0|].
    - rewrite E0. replace (r_start r + (0 - 1) * r_step r) with (r_start r - r_step r) by lia.
      now apply w64_id.
    - pose proof (range_elem_bounds r (n-1) Hr ltac:(fold n; lia)) as B.
      apply w64_id. unfold in64, min64, max64 in *. lia. }
  rewrite EL.
  assert (C : progression_count (r_start r + (n - 1) * r_step r) (r_start r - r_step r) (- r_step r) = n).
  { destruct (Z_lt_le_dec 0 (r_step r)).
    - apply count_unique_neg; try lia. 
    - apply count_unique_pos; try lia. }
  unfold range_elems. fold n. rewrite rev_progression by lia.
  unfold range_iter. simpl. rewrite range_iter_from_spec; rewrite ?C; auto; try lia.
  - rewrite <- EL. apply w64_in.
  - replace (r_start r + (n - 1) * r_step r + n * - r_step r) with (r_start r - r_step r) by lia.
    assumption.
Qed.

(** Slicing. *)
Lemma range_slice_spec r s : range_ok r -> span_fits r ->
  range_count_spec r <= 2^62 ->
  (forall v, sl_start s = Some v -> in64 v) ->
  (forall v, sl_stop s = Some v -> in64 v) ->
  (forall v, sl_step s = Some v -> in64 v) ->
  py_step s <> 0 ->
  in64 (r_start r + range_count_spec r * r_step r) ->
  in64 (r_start r - r_step r) -> in64 (r_step r * py_step s) ->
  exists r', range_slice r s = Ok r' /\
    range_elems r' = map (fun m => r_start r + m * r_step r) (py_positions (range_count_spec r) s).
Proof.
  intros Hr Hs Hc H1 H2 H3 Hz He1 He2 Hp.
  assert (HF : sl_start s = None -> sl_stop s = None -> sl_step s = None ->
    exists r', Ok r = Ok r' /\
    range_elems r' = map (fun m => r_start r + m * r_step r) (py_positions (range_count_spec r) s)).
  { intros E1 E2 E3. exists r. split; auto. unfold py_positions, py_count, py_start, py_stop.
    unfold py_step. rewrite E1, E2, E3. simpl.
    destruct (range_len_spec r Hr Hs) as [_ B]. set (n := range_count_spec r) in *.
    rewrite (count_unique_pos 0 n 1 n) by lia. unfold range_elems, progression. fold n.
    rewrite map_map. apply map_ext. intros; lia. }
  set (n := range_count_spec r) in *.
  assert (HG : exists r', (bind (range_len r) (fun n => bind (adjust_indices s n)
     (fun '(start, stop, step, _) =>
      range_new (range_get_raw r start) (range_get_raw r stop) (w64 (r_step r * step))))) = Ok r' /\
     range_elems r' = map (fun m => r_start r + m * r_step r) (py_positions n s)).
  2:{ unfold range_slice. destruct (sl_start s) eqn:E1, (sl_stop s) eqn:E2, (sl_step s) eqn:E3; auto. }
  destruct (range_len_spec r Hr Hs) as [HL B]. fold n in HL, B.
  rewrite HL by (unfold max64; lia). simpl.
  rewrite adjust_indices_spec by (auto; lia). simpl.
  rewrite (w64_id _ Hp).
  destruct Hr as (Hi & Hj & Hk & Hzk).
  assert (Hne : r_step r * py_step s <> 0) by nia.
  unfold range_new. replace (r_step r * py_step s =? 0) with false by lia.
  eexists. split; [reflexivity|].
  assert (RAW : forall m, -1 <= m <= n -> range_get_raw r m = r_start r + m * r_step r).
  { intros m Hm. unfold range_get_raw. rewrite w64_add_r. apply w64_id.
    unfold in64, min64, max64 in *.
    destruct (Z_lt_le_dec 0 (r_step r)); nia. }
  assert (SB : -1 <= py_start n s <= n /\ -1 <= py_stop n s <= n).
  { destruct (Z_lt_le_dec 0 (py_step s)).
    - pose proof (py_bounds_pos n s ltac:(lia) ltac:(lia)). lia.
    - pose proof (py_bounds_neg n s ltac:(lia) ltac:(lia)). lia. }
  rewrite !RAW by lia.
  unfold range_elems, range_count_spec. simpl.
  assert (C : progression_count (r_start r + py_start n s * r_step r)
       (r_start r + py_stop n s * r_step r) (r_step r * py_step s) = py_count n s).
  { unfold py_count. set (i := py_start n s) in *. set (j := py_stop n s) in *.
    set (k := py_step s) in *. pose proof (count_nonneg i j k) as CN.
    destruct (Z_lt_le_dec 0 k) as [Kp|Kn].
    - assert (~ i + progression_count i j k * k < j) by (rewrite <- count_pos by lia; lia).
      assert (0 < progression_count i j k -> i + (progression_count i j k - 1) * k < j)
        by (intros; apply count_pos; lia).
      destruct (Z_lt_le_dec 0 (r_step r)).
      + apply count_unique_pos; try nia.
      + apply count_unique_neg; try nia.
    - assert (~ j < i + progression_count i j k * k) by (rewrite <- count_neg by lia; lia).
      assert (0 < progression_count i j k -> j < i + (progression_count i j k - 1) * k)
        by (intros; apply count_neg; lia).
      destruct (Z_lt_le_dec 0 (r_step r)).
      + apply count_unique_neg; try nia.
      + apply count_unique_pos; try nia. }
  rewrite C. unfold py_positions, progression. rewrite map_map. apply map_ext. intros; lia.
Qed.
