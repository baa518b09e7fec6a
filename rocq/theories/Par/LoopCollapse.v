(** Proofs about collapsed loop nests. *)
From Coq Require Import ZArith List Bool Lia Permutation.
From Verif.Common Require Import Result Int64.
From Verif.List Require Import SliceSpec SliceModel SliceProofs.
From Verif.Par Require Import LoopSpec LoopModel Loop.
Import ListNotations.
Local Open Scope Z_scope.
Local Open Scope res_scope.

(** The bounds of a level do not depend on the enclosing loops' variables. *)
Definition rectangular (v : level) : Prop :=
  forall a b, lv_start v a = lv_start v b /\ lv_stop v a = lv_stop v b.

Definition lv_count (v : level) : Z := range_count_spec (level_range v []).

Definition level_fits (v : level) : Prop :=
  let r := level_range v [] in
  range_ok r /\ span_fits r /\ range_count_spec r <= max64.

Definition total (vs : list level) : Z := fold_right (fun v acc => lv_count v * acc) 1 vs.

Lemma rect_range v outer : rectangular v -> level_range v outer = level_range v [].
Proof. intros H. unfold level_range. destruct (H outer []) as [-> ->]. reflexivity. Qed.

Lemma count_bounds v : level_fits v -> 0 <= lv_count v.
Proof. intros (H1 & H2 & _). apply (range_len_spec _ H1 H2). Qed.

Lemma total_nonneg vs : Forall level_fits vs -> 0 <= total vs.
Proof.
  induction 1 as [|v vs H HF IH]; simpl; [lia|]. pose proof (count_bounds v H). nia.
Qed.

Definition entry (v : level) : Z * Z * Z := (lv_start v [], lv_step v, lv_count v).

Lemma setup_spec old vs : forall outer,
  Forall rectangular vs -> Forall level_fits vs ->
  collapse_setup old outer vs = Ok (map entry vs).
Proof.
  induction vs as [|v vs IH]; intros outer HR HF; [reflexivity|].
  inversion HR as [|? ? R HR']; inversion HF as [|? ? F HF']; subst.
  cbn [collapse_setup]. destruct (R (firstn outer old) []) as [-> ->].
  change (omp_range_len (lv_start v []) (lv_stop v []) (lv_step v)) with (range_len (level_range v [])).
  pose proof F as (F1 & F2 & F3). destruct (range_len_spec _ F1 F2) as [-> _]; auto.
  cbn [bind]. rewrite IH by auto. reflexivity.
Qed.

Lemma count_spec vs : forall acc,
  fold_left (fun acc r => w64 (acc * snd r)) (map entry vs) (w64 acc) = w64 (acc * total vs).
Proof.
  induction vs as [|v vs IH]; intros acc; simpl; [f_equal; lia|].
  rewrite w64_mul_l, IH. f_equal. lia.
Qed.

(** ** Digits *)

Definition dprod (rs : list (Z * Z * Z)) : Z := fold_right (fun r acc => snd r * acc) 1 rs.

Lemma dprod_pos rs : Forall (fun r => 0 < snd r) rs -> 0 < dprod rs.
Proof. induction 1; simpl; nia. Qed.

Lemma indices_mod rs : Forall (fun r => 0 < snd r) rs -> forall k, 0 <= k <= max64 ->
  collapse_indices rs k = collapse_indices rs (k mod dprod rs).
Proof.
  induction 1 as [|[[s t] c] rs Hc HF IH]; intros k Hk; [reflexivity|].
  pose proof (dprod_pos rs HF) as HP. simpl in Hc.
  cbn [collapse_indices dprod fold_right snd]. fold (dprod rs).
  replace (c =? 0) with false by lia. cbn [bind].
  assert (B1 : 0 <= k / c <= k).
  { split; [apply Z.div_pos; lia|]. apply Z.div_le_upper_bound; nia. }
  pose proof (Z.rem_mul_r k c (dprod rs) ltac:(lia) ltac:(lia)) as RM.
  pose proof (Z.mod_pos_bound k c ltac:(lia)) as MB.
  pose proof (Z.mod_pos_bound (k / c) (dprod rs) ltac:(lia)) as MB2.
  assert (E1 : (k mod (c * dprod rs)) / c = (k / c) mod dprod rs).
  { symmetry. apply Z.div_unique with (r := k mod c); lia. }
  assert (E2 : (k mod (c * dprod rs)) mod c = k mod c).
  { symmetry. apply Z.mod_unique with (q := (k / c) mod dprod rs); lia. }
  rewrite E1, E2.
  rewrite (w64_id (k / c)), (w64_id ((k / c) mod dprod rs)).
  - now rewrite (IH (k / c)) by lia.
  - assert ((k / c) mod dprod rs <= k / c) by (apply Z.mod_le; lia).
    unfold in64, min64, max64 in *; lia.
  - unfold in64, min64, max64 in *; lia.
Qed.

Lemma indices_app rs y : Forall (fun r => 0 < snd r) rs -> forall k, 0 <= k <= max64 ->
  collapse_indices (rs ++ [y]) k =
    (is <- collapse_indices rs k ;; js <- collapse_indices [y] (k / dprod rs) ;; Ok (is ++ js)).
Proof.
  induction 1 as [|[[s t] c] rs Hc HF IH]; intros k Hk.
  - cbn [app dprod fold_right]. rewrite Z.div_1_r.
    cbn [collapse_indices bind]. destruct y as [[s t] c]. destruct (c =? 0); reflexivity.
  - pose proof (dprod_pos rs HF) as HP. simpl in Hc.
    cbn [app collapse_indices]. replace (c =? 0) with false by lia. cbn [bind].
    assert (B1 : 0 <= k / c <= k).
    { split; [apply Z.div_pos; lia|]. apply Z.div_le_upper_bound; nia. }
    rewrite w64_id by (unfold in64, min64, max64 in *; lia).
    rewrite (IH (k / c)) by lia.
    cbn [dprod fold_right snd]. fold (dprod rs).
    rewrite <- (Z.div_div k c (dprod rs)) by lia.
    destruct (collapse_indices rs (k / c)); cbn [bind]; [|reflexivity..].
    destruct y as [[s' t'] c']. cbn [collapse_indices]. destruct (c' =? 0); reflexivity.
Qed.

Lemma dprod_rev rs : dprod (rev rs) = dprod rs.
Proof.
  assert (A : forall a b, dprod (a ++ b) = dprod a * dprod b).
  { induction a as [|x a IHa]; intros b; cbn [app dprod fold_right].
    - fold (dprod b). lia.
    - fold (dprod (a ++ b)). fold (dprod a). rewrite IHa. lia. }
  induction rs as [|r rs IH]; simpl; auto. rewrite A, IH. simpl. lia.
Qed.

Lemma dprod_entries vs : dprod (map entry vs) = total vs.
Proof. induction vs as [|v vs IH]; simpl; auto. now rewrite IH. Qed.

(** ** Nests *)

Lemma nest_outer vs : Forall rectangular vs -> forall outer,
  nest outer vs = map (app outer) (nest [] vs).
Proof.
  induction 1 as [|v vs R HR IH]; intros outer; cbn [nest].
  - simpl. now rewrite app_nil_r.
  - cbn zeta. rewrite !(rect_range v) by auto. rewrite !flat_map_concat_map, concat_map, map_map.
    f_equal. apply map_ext. intros i.
    rewrite (IH (outer ++ [i])), (IH ([] ++ [i])), map_map. apply map_ext. intros x. simpl.
    now rewrite <- app_assoc.
Qed.

Lemma map_flat {A B C} (f : B -> C) (g : A -> list B) l :
  map f (flat_map g l) = flat_map (fun x => map f (g x)) l.
Proof. induction l as [|x l IH]; simpl; auto. now rewrite map_app, IH. Qed.

Lemma flat_map_ext_in {A B} (f g : A -> list B) l :
  (forall x, In x l -> f x = g x) -> flat_map f l = flat_map g l.
Proof. intros H. rewrite !flat_map_concat_map. f_equal. now apply map_ext_in. Qed.

(** 0 .. c*M-1 as [c] blocks of [M]. *)
Lemma seg_blocks c M : 0 <= c -> 0 <= M ->
  seg 0 (c * M) = flat_map (fun i => map (fun k => i * M + k) (seg 0 M)) (seg 0 c).
Proof.
  intros Hc HM. remember (Z.to_nat c) as n eqn:E. revert c Hc E.
  induction n as [|n IH]; intros c Hc E.
  - assert (c = 0) by lia. subst. rewrite !seg_nil by lia. reflexivity.
  - rewrite (seg_app 0 ((c - 1) * M) (c * M)) by nia.
    rewrite (seg_app 0 (c - 1) c) by lia. rewrite flat_map_app, <- IH by lia. f_equal.
    rewrite (seg_cons (c - 1) c) by lia. rewrite (seg_nil (c - 1 + 1) c) by lia.
    cbn [flat_map]. rewrite app_nil_r. unfold seg, progression. rewrite map_map.
    replace (c * M - (c - 1) * M) with (M - 0) by lia.
    apply map_ext. intros x. lia.
Qed.

Lemma collapse_at_cons v vs k :
  0 < lv_count v -> Forall (fun v => 0 < lv_count v) vs -> level_fits v ->
  0 <= k < lv_count v * total vs -> k <= max64 ->
  collapse_at (map entry (v :: vs)) k =
    (js <- collapse_at (map entry vs) (k mod total vs) ;;
     Ok (elem (level_range v []) (k / total vs) :: js)).
Proof.
  intros Hv Hvs F Hk Hmx. unfold collapse_at. cbn [map rev].
  assert (HF : Forall (fun r => 0 < snd r) (rev (map entry vs))).
  { apply Forall_rev. apply Forall_map. revert Hvs. apply Forall_impl. intros a Ha. exact Ha. }
  rewrite indices_app by (auto; lia).
  rewrite (indices_mod (rev (map entry vs))) by (auto; lia).
  rewrite dprod_rev, dprod_entries.
  assert (HT : 0 < total vs).
  { rewrite <- dprod_entries, <- dprod_rev. now apply dprod_pos. }
  destruct (collapse_indices (rev (map entry vs)) (k mod total vs)) as [is| | |]; cbn [bind]; auto.
  unfold entry. cbn [collapse_indices]. replace (lv_count v =? 0) with false by lia. cbn [bind].
  rewrite rev_app_distr. cbn [rev app]. do 2 f_equal.
  assert (Q : 0 <= k / total vs < lv_count v).
  { split; [apply Z.div_pos; lia|]. apply Z.div_lt_upper_bound; nia. }
  rewrite Z.mod_small by lia.
  destruct F as (F1 & F2 & F3).
  change (range_get_raw (level_range v []) (k / total vs) = elem (level_range v []) (k / total vs)).
  rewrite range_get_raw_spec by auto. reflexivity.
Qed.

Lemma zero_total vs : Exists (fun v => lv_count v = 0) vs -> total vs = 0.
Proof. induction 1; simpl; nia. Qed.

Lemma collapse_nest vs :
  Forall rectangular vs -> Forall level_fits vs -> total vs <= max64 ->
  map (collapse_at (map entry vs)) (seg 0 (total vs)) = map Ok (nest [] vs).
Proof.
  induction vs as [|v vs IH]; intros HR HF HT.
  - reflexivity.
  - inversion HR as [|? ? R HR']; inversion HF as [|? ? F HF']; subst.
    pose proof (count_bounds v F) as Cv. pose proof (total_nonneg vs HF') as Tv.
    cbn [total fold_right] in *. fold (total vs) in *.
    cbn [nest]. cbn zeta. rewrite map_flat.
    set (r := level_range v []) in *.
    change (progression (r_start r) (r_step r) (progression_count (r_start r) (r_stop r) (r_step r)))
      with (range_elems r).
    rewrite range_elems_seg. change (range_count_spec r) with (lv_count v).
    destruct (Z.eq_dec (lv_count v) 0) as [Z0|NZ].
    { rewrite Z0. rewrite !seg_nil by lia. reflexivity. }
    destruct (Z.eq_dec (total vs) 0) as [TZ|TNZ].
    { (* some inner level is empty: there are no iterations *)
      assert (N0 : nest [] vs = []).
      { assert (X : map (@Ok (list Z)) (nest [] vs) = []).
        { rewrite <- IH; auto; [|lia]. rewrite TZ. rewrite seg_nil by lia. reflexivity. }
        destruct (nest [] vs); [reflexivity|discriminate]. }
      rewrite TZ. rewrite Z.mul_0_r. rewrite seg_nil by lia. simpl.
      symmetry. induction (seg 0 (lv_count v)) as [|i is IHi]; simpl; auto.
      rewrite (nest_outer vs HR' [elem r i]), N0. simpl. exact IHi. }
    assert (POS : Forall (fun v => 0 < lv_count v) vs).
    { apply Forall_forall. intros w Hw.
      assert (lv_count w <> 0).
      { intros E. apply TNZ. apply zero_total. apply Exists_exists. eauto. }
      rewrite Forall_forall in HF'. pose proof (count_bounds w (HF' w Hw)). lia. }
    assert (HT' : total vs <= max64) by nia.
    rewrite seg_blocks by lia. rewrite map_flat.
    rewrite (flat_map_concat_map _ (map (elem r) _)), map_map, <- flat_map_concat_map.
    apply flat_map_ext_in. intros i Hi. rewrite seg_in in Hi.
    rewrite nest_outer, !map_map by auto.
    transitivity (map (fun m => js <- m ;; Ok (elem r i :: js)) (map (@Ok (list Z)) (nest [] vs))).
    2:{ rewrite map_map. reflexivity. }
    rewrite <- IH by auto. rewrite map_map. apply map_ext_in. intros k Hk. rewrite seg_in in Hk.
    rewrite collapse_at_cons; auto; try nia.
    fold r.
    replace ((i * total vs + k) mod total vs) with k
      by (rewrite Z.add_comm, Z_mod_plus_full, Z.mod_small; lia).
    replace ((i * total vs + k) / total vs) with i
      by (rewrite Z.div_add_l, Z.div_small by lia; lia).
    reflexivity.
Qed.
