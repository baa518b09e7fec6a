(** Proofs about list slices. *)
From Coq Require Import List ZArith Lia Bool.
From Verif.Common Require Import Result Int64 Arr Tac.
From Verif.List Require Import SliceSpec SliceModel SliceProofs ListSpec ListModel ListProofs.
Import ListNotations.
Local Open Scope Z_scope.
Local Arguments Z.add : simpl never.
Local Arguments Z.sub : simpl never.
Local Arguments Z.mul : simpl never.
Local Arguments Z.opp : simpl never.
Local Arguments Z.pow : simpl never.
Local Arguments Z.div : simpl never.

(** ** Progressions *)
Lemma progression_snoc i k n : 0 <= n -> progression i k (n + 1) = progression i k n ++ [i + n * k].
Proof.
  intros H. unfold progression. replace (Z.to_nat (n + 1)) with (Z.to_nat n + 1)%nat by lia.
  rewrite seq_app, map_app. simpl. repeat f_equal; lia.
Qed.

Definition zrange (lo hi : Z) : list Z := progression lo 1 (hi - lo).

Lemma zrange_in lo hi x : In x (zrange lo hi) <-> lo <= x < hi.
Proof.
  unfold zrange. rewrite progression_in. split.
  - intros (m & H & ->). lia.
  - intros H. exists (x - lo). lia.
Qed.
Lemma zrange_nil lo hi : hi <= lo -> zrange lo hi = [].
Proof. intros. apply progression_nil. lia. Qed.
Lemma zrange_split lo mid hi : lo <= mid <= hi -> zrange lo hi = zrange lo mid ++ zrange mid hi.
Proof.
  intros H. unfold zrange, progression.
  replace (Z.to_nat (hi - lo)) with (Z.to_nat (mid - lo) + Z.to_nat (hi - mid))%nat by lia.
  rewrite seq_app, map_app. f_equal. simpl.
  rewrite <- (Nat.add_0_r (Z.to_nat (mid - lo))) at 1.
  generalize (Z.to_nat (hi - mid)) as c. intros c.
  replace (seq (Z.to_nat (mid - lo) + 0) c) with (map (fun m => (m + Z.to_nat (mid - lo))%nat) (seq 0 c)).
  - rewrite map_map. apply map_ext. intros m. lia.
  - generalize 0%nat as s. induction c as [|c IH]; intros s; simpl; auto.
    rewrite IH. f_equal; [lia|]. f_equal; lia.
Qed.
Lemma zrange_cons lo hi : lo < hi -> zrange lo hi = lo :: zrange (lo + 1) hi.
Proof. intros H. unfold zrange. rewrite progression_cons by lia. f_equal. f_equal; lia. Qed.

Lemma filter_all {T} (f : T -> bool) l : (forall x, In x l -> f x = true) -> filter f l = l.
Proof.
  induction l as [|a l IH]; intros H; simpl; auto. rewrite (H a) by (left; auto). f_equal.
  apply IH. intros; apply H; right; auto.
Qed.
Lemma filter_none {T} (f : T -> bool) l : (forall x, In x l -> f x = false) -> filter f l = [].
Proof.
  induction l as [|a l IH]; intros H; simpl; auto. rewrite (H a) by (left; auto).
  apply IH. intros; apply H; right; auto.
Qed.

Section S.
Context {A : Type}.
Notation lst := (lst A).
Notation repr := (@repr A).

(** ** [pick] *)
Lemma pick_app (xs : list A) p q : pick xs (p ++ q) = pick xs p ++ pick xs q.
Proof. unfold pick. apply flat_map_app. Qed.

Lemma pick_one (xs : list A) p x : ze xs p = Some x -> pick xs [p] = [x].
Proof. intros H. unfold pick, ze in *. simpl. now rewrite H. Qed.

Lemma pick_zrange (xs : list A) lo hi : 0 <= lo -> lo <= hi -> hi <= zlen xs ->
  pick xs (zrange lo hi) = take (hi - lo) (drop lo xs).
Proof.
  intros H1 H2 H3. remember (Z.to_nat (hi - lo)) as n eqn:E. revert lo H1 H2 E.
  induction n as [|n IH]; intros lo H1 H2 E.
  - rewrite zrange_nil by lia. unfold take. now rewrite <- E.
  - rewrite zrange_cons by lia. change (lo :: zrange (lo + 1) hi) with ([lo] ++ zrange (lo + 1) hi).
    rewrite pick_app. destruct (ze_some xs lo ltac:(lia)) as [x Ex].
    rewrite (pick_one _ _ x Ex). rewrite IH by lia.
    rewrite (drop_cons lo xs x) by (auto; lia). unfold take.
    replace (Z.to_nat (hi - lo)) with (S (Z.to_nat (hi - (lo + 1)))) by lia. reflexivity.
Qed.

Lemma positions_zrange (xs : list A) : positions xs = zrange 0 (zlen xs).
Proof.
  unfold positions, zrange, progression, zlen. rewrite Z.sub_0_r, Nat2Z.id.
  apply map_ext. intros. lia.
Qed.

Lemma take_all n (xs : list A) : zlen xs <= n -> take n xs = xs.
Proof. intros H. unfold take. apply firstn_all2. unfold zlen in H. lia. Qed.

Lemma take_take_drop lo hi (xs : list A) : 0 <= lo <= hi -> hi <= zlen xs ->
  take (hi - lo) (drop lo xs) = drop lo (take hi xs).
Proof.
  intros H1 H2. apply ze_ext; zsz; [lia|]. intros i Hi.
  rewrite ze_take, !ze_drop by lia. rewrite ze_take by lia. reflexivity.
Qed.

Definition slice64 (s : slice) : Prop :=
  (forall v, sl_start s = Some v -> in64 v) /\
  (forall v, sl_stop s = Some v -> in64 v) /\
  (forall v, sl_step s = Some v -> in64 v).

Lemma adj s n : 0 <= n <= 2^59 -> slice64 s -> py_step s <> 0 ->
  adjust_indices s n = Ok (py_start n s, py_stop n s, py_step s, py_count n s).
Proof. intros H (H1 & H2 & H3) Hk. apply adjust_indices_spec; auto. lia. Qed.

Lemma adj_zero s n : py_step s = 0 -> adjust_indices s n = Raise ValueError.
Proof. intros H. unfold adjust_indices. fold (py_step s). now rewrite H. Qed.

Lemma full_slice_step s : full_slice s = true ->
  py_step s = 1 /\ forall n, 0 <= n -> py_start n s = 0 /\ py_stop n s = n.
Proof.
  unfold full_slice, py_start, py_stop, py_step.
  destruct (sl_start s), (sl_stop s), (sl_step s); try discriminate. auto.
Qed.

(** Contiguous slices. *)
Lemma slice_get_seg (xs : list A) s : py_step s = 1 ->
  py_positions (zlen xs) s = zrange (py_start (zlen xs) s) (Z.max (py_start (zlen xs) s) (py_stop (zlen xs) s)).
Proof.
  intros H. unfold py_positions, py_count, zrange. rewrite H. f_equal.
  destruct (Z_lt_le_dec (py_start (zlen xs) s) (py_stop (zlen xs) s)).
  - rewrite count_code_pos by lia. rewrite Z.div_1_r. lia.
  - rewrite count_zero_pos by lia. lia.
Qed.

Lemma getslice_spec (l : lst) xs s : repr l xs -> zlen xs <= 2^59 -> slice64 s ->
  py_step s <> 0 -> py_step s <= 2^63 - 1 - zlen xs ->
  wp (getslice l s) (fun l' => repr l' (slice_get xs s)).
Proof.
  intros R HB H64 Hk Hfit. pose proof (repr_len _ _ R) as HL. pose proof (zlen_nonneg xs) as NN.
  unfold getslice, slice_get. szz. destruct (full_slice s) eqn:F.
  { apply full_slice_step in F. destruct F as [F1 F2]. destruct (F2 (zlen xs) NN) as [F3 F4].
    rewrite slice_get_seg by assumption. rewrite F3, F4. rewrite Z.max_r by lia.
    rewrite pick_zrange by lia. rewrite drop_zero, take_all by lia. now apply copy_spec. }
  rewrite HL. destruct (sl_step s) as [k|] eqn:SK.
  - rewrite adj by (auto; lia). cbn [bind].
    set (i := py_start (zlen xs) s). set (j := py_stop (zlen xs) s). set (kk := py_step s) in *.
    unfold py_positions. fold i kk. set (n := py_count (zlen xs) s).
    assert (Hn0 : 0 <= n) by apply count_nonneg.
    assert (INB : forall m, 0 <= m < n -> 0 <= i + m * kk < zlen xs).
    { intros m Hm. apply (py_positions_in_bounds (zlen xs) s); auto.
      unfold py_positions. apply progression_in. exists m. split; [exact Hm|reflexivity]. }
    assert (CND : forall m, 0 <= m -> (if 0 <? kk then i + m * kk <? j else j <? i + m * kk) = (m <? n)).
    { intros m Hm. unfold n, py_count. fold i j kk. destruct (Z.ltb_spec 0 kk).
      - destruct (Z.ltb_spec (i + m * kk) j) as [G|G]; symmetry.
        + apply Z.ltb_lt. now apply count_pos.
        + apply Z.ltb_ge. apply Z.nlt_ge. rewrite count_pos by lia. lia.
      - destruct (Z.ltb_spec j (i + m * kk)) as [G|G]; symmetry.
        + apply Z.ltb_lt. apply count_neg; lia.
        + apply Z.ltb_ge. apply Z.nlt_ge. rewrite count_neg by lia. lia. }
    assert (K64 : in64 kk).
    { unfold kk, py_step. destruct H64 as (_ & _ & H64). rewrite SK. auto. }
    apply wp_bind. eapply wp_conseq; [apply new_cap_spec; lia|]. intros o (_ & O0).
    assert (NLE : n <= zlen xs).
    { destruct (Z.eq_dec n 0); [lia|]. pose proof (INB 0 ltac:(lia)). pose proof (INB (n-1) ltac:(lia)).
      destruct (Z_lt_le_dec 0 kk); nia. }
    apply (wp_loop (fun '(o, c) => exists m, 0 <= m <= n /\ (m < n -> c = i + m * kk) /\
        (m = n -> (if 0 <? kk then c <? j else j <? c) = false) /\
        repr o (pick xs (progression i kk m)))
      (fun '(o, c) => Z.to_nat (n - (zlen (pick xs [])  + len o)))).
    + intros (o', c) (m & Hm & Hc & He & Ro). unfold getslice_body.
      assert (LP : forall q, 0 <= q <= n -> zlen (pick xs (progression i kk q)) = q).
      { intros q Hq. rewrite <- (Z2Nat.id q) in * by lia. revert Hq. generalize (Z.to_nat q) as w. clear - INB Hn0.
        induction w as [|w IH]; intros Hq; [reflexivity|].
        replace (Z.of_nat (S w)) with (Z.of_nat w + 1) by lia. rewrite progression_snoc by lia.
        rewrite pick_app. destruct (ze_some xs (i + Z.of_nat w * kk) ltac:(apply INB; lia)) as [x Ex].
        rewrite (pick_one _ _ x Ex). zsz. rewrite IH by lia. lia. }
      destruct (Z.eq_dec m n) as [->|Hne].
      * rewrite He by reflexivity. apply wp_ok. assumption.
      * rewrite Hc by lia. rewrite CND by lia. replace (m <? n) with true by lia.
        destruct (getitem_ok l xs (i + m * kk) R ltac:(apply INB; lia)) as (x & Ex & ->).
        apply wp_bind, wp_ok, wp_bind.
        eapply wp_conseq; [apply append_spec; exact Ro|]. intros o1 R1. apply wp_ok.
        assert (W : w64 (i + m * kk + kk) = i + (m + 1) * kk).
        { pose proof (INB m ltac:(lia)). unfold in64, min64, max64 in K64.
          rewrite w64_small by lia. lia. }
        split.
        -- exists (m + 1). split; [lia|]. split; [intros; exact W|]. split.
           ++ intros Em. rewrite W. rewrite CND by lia. lia.
           ++ rewrite progression_snoc by lia. rewrite pick_app, (pick_one _ _ x Ex). exact R1.
        -- change (zlen (pick xs [])) with 0. rewrite (repr_len _ _ R1), (repr_len _ _ Ro).
           zsz. rewrite LP by lia. lia.
    + exists 0. split; [lia|]. split; [intros; lia|]. split.
      * intros E. replace i with (i + 0 * kk) by lia. rewrite CND by lia. lia.
      * now apply empty_repr.
    + rewrite O0. change (zlen (pick xs [])) with 0. lia.
  - rewrite adj by (auto; lia). cbn [bind].
    assert (K1 : py_step s = 1) by (unfold py_step; now rewrite SK).
    rewrite slice_get_seg by assumption.
    pose proof (py_bounds_pos (zlen xs) s NN ltac:(lia)) as B.
    set (i := py_start (zlen xs) s) in *. set (j := py_stop (zlen xs) s) in *.
    assert (C : py_count (zlen xs) s = Z.max 0 (j - i)).
    { unfold py_count. fold i j. rewrite K1. destruct (Z_lt_le_dec i j).
      - rewrite count_code_pos by lia. rewrite Z.div_1_r. lia.
      - rewrite count_zero_pos by lia. lia. }
    rewrite C. rewrite pick_zrange by lia. unfold copy_arr.
    destruct R as (_ & R2 & R3).
    destruct (Z.leb_spec (Z.max 0 (j - i)) 0).
    + cbn [bind]. apply wp_ok. replace (Z.max i j - i) with 0 by lia. rewrite Z.max_l by lia.
      apply empty_repr. reflexivity.
    + rewrite !Z.max_r by lia. apply wp_bind. unfold alloc. apply wp_bind.
      eapply wp_conseq; [apply realloc_spec; lia|]. intros p (Lp & _).
      eapply wp_conseq; [apply memmove_spec; lia|]. intros c (Lc & Ec). apply wp_ok.
      split; [|split]; simpl.
      * zsz. lia.
      * zsz. lia.
      * intros t. zsz. intros Ht. rewrite Ec by lia.
        replace ((0 <=? t) && (t <? 0 + (j - i))) with true by lia.
        rewrite ze_take, ze_drop by lia. rewrite R3 by lia. f_equal; lia.
Qed.

(** ** Segment assignment *)
Lemma assign_slice_spec (l : lst) xs i j (v : list (option A)) ys :
  repr l xs -> 0 <= i <= zlen xs -> 0 <= j <= zlen xs ->
  zlen ys <= zlen v -> (forall k, 0 <= k < zlen ys -> zc v k = ze ys k) ->
  wp (assign_slice l i j v (zlen ys))
     (fun l' => repr l' (take i xs ++ ys ++ drop (Z.max i j) xs)).
Proof.
  intros R Hi Hj LV EV. assert (R' := R). destruct R' as (HL & HC & HP).
  pose proof (zlen_nonneg ys) as NY.
  unfold assign_slice. rewrite HL. cbv zeta.
  replace (if i <? 0 then 0 else if zlen xs <? i then zlen xs else i) with i by (zcmp; lia).
  set (h := if j <? i then i else if zlen xs <? j then zlen xs else j).
  assert (Hh : h = Z.max i j) by (unfold h; zcmp; lia). rewrite <- Hh.
  assert (Hh' : i <= h <= zlen xs) by lia. clearbody h. clear Hh Hj j.
  set (d := zlen ys - (h - i)).
  destruct (Z.eqb_spec (zlen xs + d) 0) as [E0|E0].
  { apply wp_ok. assert (zlen ys = 0 /\ i = 0 /\ h = zlen xs) as (Y0 & -> & ->) by lia.
    destruct ys; [|rewrite zlen_cons in Y0; pose proof (zlen_nonneg ys); lia].
    rewrite drop_all by lia. apply empty_repr. reflexivity. }
  assert (HM : wp (if d <? 0 then
             bind (memmove (cells l) (h + d) (cells l) h (zlen xs - h)) (fun c =>
             resize (L c (zlen xs)) (zlen xs + d))
           else if 0 <? d then
             bind (resize l (zlen xs + d)) (fun a1 =>
             bind (memmove (cells a1) (h + d) (cells a1) h (zlen xs - h)) (fun c =>
             Ok (L c (len a1))))
           else Ok l) (fun l1 => len l1 = zlen xs /\ zlen xs + d <= zlen (cells l1) /\
      (forall k, 0 <= k < i -> zc (cells l1) k = ze xs k) /\
      (forall k, h + d <= k < zlen xs + d -> zc (cells l1) k = ze xs (k - d)))).
  { apply wp_if; intros E; zb; [|apply wp_if; intros E1; zb].
    - apply wp_bind. eapply wp_conseq; [apply memmove_spec; lia|]. intros c (Lc & Ec).
      unfold resize. apply wp_bind. eapply wp_conseq; [apply realloc_spec; lia|].
      intros c' (Lc' & Ec'). apply wp_ok. simpl in *. split; [auto|]. split; [lia|]. split.
      + intros k Hk. rewrite Ec', Ec by lia.
        replace ((h + d <=? k) && (k <? h + d + (zlen xs - h))) with false by lia. apply HP. lia.
      + intros k Hk. rewrite Ec', Ec by lia.
        replace ((h + d <=? k) && (k <? h + d + (zlen xs - h))) with true by lia.
        rewrite HP by lia. f_equal; lia.
    - apply wp_bind. eapply wp_conseq; [apply (resize_spec l xs); [assumption|lia]|].
      intros l1 ((A1 & A2 & A3) & C1). apply wp_bind.
      eapply wp_conseq; [apply memmove_spec; lia|]. intros c (Lc & Ec). apply wp_ok. simpl.
      split; [lia|]. split; [lia|]. split.
      + intros k Hk. rewrite Ec by lia.
        replace ((h + d <=? k) && (k <? h + d + (zlen xs - h))) with false by lia. apply A3. lia.
      + intros k Hk. rewrite Ec by lia.
        replace ((h + d <=? k) && (k <? h + d + (zlen xs - h))) with true by lia.
        rewrite A3 by lia. f_equal; lia.
    - apply wp_ok. split; [auto|]. split; [lia|]. split.
      + intros k Hk. apply HP. lia.
      + intros k Hk. rewrite HP by lia. f_equal; lia. }
  apply wp_bind. eapply wp_conseq; [exact HM|]. clear HM. intros l1 (B1 & B2 & B3 & B4).
  apply wp_bind.
  apply (wp_loop (fun '(a, il, k) => 0 <= k <= zlen ys /\ il = i + k /\ len a = zlen xs /\
      zlen (cells a) = zlen (cells l1) /\
      (forall t, 0 <= t < i -> zc (cells a) t = ze xs t) /\
      (forall t, i <= t < i + k -> zc (cells a) t = ze ys (t - i)) /\
      (forall t, h + d <= t < zlen xs + d -> zc (cells a) t = ze xs (t - d)))
    (fun '(a, il, k) => Z.to_nat (zlen ys - k))).
  - intros ((a, il), k) (I1 & I2 & I3 & I4 & I5 & I6 & I7). unfold assign_body.
    apply wp_if; intros E; zb.
    + destruct (ze_some ys k ltac:(lia)) as [y Ey].
      apply wp_bind. apply (get_wp (L v (zlen ys)) k y); [lia|simpl; rewrite EV by lia; assumption|].
      apply wp_bind. apply set_wp; [lia|]. apply wp_ok. simpl. split; [|lia].
      split; [lia|]. split; [lia|]. split; [auto|]. split; [zsz; lia|]. split; [|split].
      * intros t Ht. rewrite zn_upd by lia. zcmp; [lia|]. apply I5. lia.
      * intros t Ht. rewrite zn_upd by lia. zcmp; [|apply I6; lia]. rewrite <- Ey. f_equal; lia.
      * intros t Ht. rewrite zn_upd by lia. zcmp; [lia|]. apply I7. lia.
    + apply wp_ok. assert (k = zlen ys) by lia. subst k. split; [|split]; simpl.
      * zsz. lia.
      * zsz. lia.
      * intros t. zsz. intros Ht. rewrite ze_app by lia. zsz. zcmp.
        -- rewrite ze_take by lia. apply I5. lia.
        -- rewrite ze_app by lia. zcmp; [apply I6; lia|].
           rewrite ze_drop by lia. rewrite I7 by lia. f_equal; lia.
  - split; [lia|]. split; [lia|]. split; [auto|]. split; [auto|]. split; [auto|]. split; [|auto].
    intros; lia.
  - lia.
Qed.

(** ** Slice assignment *)
Lemma replace_at_len (xs : list A) p x : 0 <= p < zlen xs -> zlen (replace_at xs p x) = zlen xs.
Proof. intros H. unfold replace_at. zsz. lia. Qed.

Lemma setslice_spec (l o : lst) xs ys s : repr l xs -> repr o ys ->
  zlen xs <= 2^59 -> slice64 s ->
  match set_slice xs s ys with
  | (VExn e, _) => setslice l s o = Raise e
  | (_, zs) => wp (setslice l s o) (fun l' => repr l' zs)
  end.
Proof.
  intros R O HB H64. pose proof (repr_len _ _ R) as HL. pose proof (repr_len _ _ O) as OL.
  pose proof (zlen_nonneg xs) as NN. pose proof (zlen_nonneg ys) as NY.
  unfold set_slice, setslice. szz.
  destruct (full_slice s) eqn:F.
  { apply full_slice_step in F. destruct F as [F1 F2]. destruct (F2 (zlen xs) NN) as [F3 F4].
    rewrite F1. simpl Z.eqb. cbv iota. unfold slice_set_seg. szz. rewrite F3, F4.
    rewrite Z.max_r by lia. rewrite drop_all by lia. rewrite app_nil_r.
    change (take 0 xs) with (@nil A). apply (append_all_spec o (clear l) ys []); auto; [|rewrite OL; lia].
    now apply empty_repr. }
  destruct (Z.eqb_spec (py_step s) 0) as [K0|K0]; [now rewrite adj_zero|].
  rewrite HL, adj by (auto; lia). cbn [bind].
  destruct (Z.eqb_spec (py_step s) 1) as [K1|K1].
  { replace (match sl_step s with Some _ => true | None => true end) with true by (destruct (sl_step s); auto).
    pose proof (py_bounds_pos (zlen xs) s NN ltac:(lia)) as B.
    unfold slice_set_seg. szz. rewrite OL. destruct O as (_ & O2 & O3).
    apply assign_slice_spec; auto; lia. }
  replace (match sl_step s with Some _ => false | None => true end) with false
    by (unfold py_step in K1; destruct (sl_step s); auto; lia).
  rewrite OL. destruct (Z.eqb_spec (zlen ys) (py_count (zlen xs) s)) as [EC|EC]; simpl negb; cbv iota; [|reflexivity].
  set (ps := py_positions (zlen xs) s). set (n := py_count (zlen xs) s) in *.
  assert (Hn0 : 0 <= n) by apply count_nonneg.
  set (i := py_start (zlen xs) s). set (kk := py_step s) in *.
  assert (INB : forall m, 0 <= m < n -> 0 <= i + m * kk < zlen xs).
  { intros m Hm. apply (py_positions_in_bounds (zlen xs) s); auto.
    unfold py_positions. apply progression_in. exists m. split; [exact Hm|reflexivity]. }
  destruct (Z.eqb_spec n 0) as [N0|N0].
  { apply wp_ok. unfold slice_set_ext. szz. fold ps. unfold ps, py_positions. fold n. rewrite N0.
    simpl. assumption. }
  set (part := fun m => fold_left (fun acc '(p, y) => replace_at acc p y)
      (combine (progression i kk m) (take m ys)) xs).
  assert (PS : forall m y, 0 <= m < n -> ze ys m = Some y -> part (m + 1) = replace_at (part m) (i + m * kk) y).
  { intros m y Hm Ey. unfold part. rewrite progression_snoc by lia.
    assert (ET : take (m + 1) ys = take m ys ++ [y]).
    { apply ze_ext; zsz; [lia|]. intros t Ht. rewrite ze_app, ze_cons by lia. zsz.
      rewrite (ze_take (m + 1)) by lia. zcmp; try lia.
      - symmetry. apply ze_take. lia.
      - rewrite <- Ey. f_equal; lia. }
    rewrite ET. assert (CA : forall (p : list Z) (q : list A) a b, length p = length q ->
      combine (p ++ [a]) (q ++ [b]) = combine p q ++ [(a, b)]).
    { clear. induction p as [|x p IH]; intros [|y q] a b H; simpl in *; try discriminate; auto.
      f_equal. apply IH. lia. }
    rewrite CA.
    - rewrite fold_left_app. reflexivity.
    - rewrite progression_length. unfold take. rewrite firstn_length. unfold zlen in *. lia. }
  assert (PL : forall m, 0 <= m <= n -> zlen (part m) = zlen xs).
  { intros m Hm. rewrite <- (Z2Nat.id m) in * by lia. revert Hm. generalize (Z.to_nat m) as w.
    induction w as [|w IH]; intros Hw; [reflexivity|].
    destruct (ze_some ys (Z.of_nat w) ltac:(lia)) as [y Ey].
    replace (Z.of_nat (S w)) with (Z.of_nat w + 1) by lia. rewrite (PS _ y) by (auto; lia).
    rewrite replace_at_len; rewrite IH by lia; auto. apply INB. lia. }
  unfold slice_set_ext. szz. fold ps.
  assert (PF : fold_left (fun acc '(p, y) => replace_at acc p y) (combine ps ys) xs = part n).
  { unfold part. rewrite (take_all n ys) by lia. reflexivity. }
  rewrite PF.
  apply (wp_loop (fun '(l', cur, m) => 0 <= m <= n /\ (m < n -> cur = i + m * kk) /\ repr l' (part m))
    (fun '(l', cur, m) => Z.to_nat (n - m))).
  - intros ((l', cur), m) (I1 & I2 & I3). unfold setslice_body. apply wp_if; intros E; zb.
    + rewrite I2 by lia. destruct (getitem_ok o ys m O ltac:(lia)) as (y & Ey & ->).
      apply wp_bind, wp_ok, wp_bind. pose proof (INB m ltac:(lia)) as IB.
      destruct I3 as (R1 & R2 & R3). rewrite PL in R1, R2, R3 by lia.
      apply set_wp; [lia|]. apply wp_ok. split; [|lia]. split; [lia|]. split.
      * intros Hm. rewrite w64_small; [lia|]. pose proof (INB (m + 1) ltac:(lia)). lia.
      * rewrite (PS m y) by (auto; lia). unfold replace_at.
        assert (PLm := PL m ltac:(lia)). split; [|split]; simpl.
        -- zsz. lia.
        -- zsz. lia.
        -- intros t. zsz. intros Ht. rewrite zn_upd by lia. rewrite ze_app, ze_cons by lia. zsz.
           zcmp; try lia; auto.
           ++ rewrite ze_take by lia. apply R3. lia.
           ++ rewrite ze_drop by lia. rewrite R3 by lia. f_equal; lia.
    + apply wp_ok. now replace n with m by lia.
  - split; [lia|]. split; [intros; lia|]. exact R.
  - lia.
Qed.

Lemma setslice_self_spec (l : lst) xs s : repr l xs -> full_slice s = false ->
  zlen xs <= 2^59 -> slice64 s ->
  match set_slice xs s xs with
  | (VExn e, _) => setslice_self l s = Raise e
  | (_, zs) => wp (setslice_self l s) (fun l' => repr l' zs)
  end.
Proof.
  intros R F HB H64. unfold setslice_self. rewrite F.
  pose proof (copy_spec l xs R) as HC. apply wp_inv in HC. destruct HC as (o & -> & O).
  cbn [bind]. now apply setslice_spec.
Qed.

(** ** Slice deletion *)
Definition kept (xs : list A) (s : slice) (p : Z) : bool :=
  negb (existsb (Z.eqb p) (py_positions (zlen xs) s)).

Lemma kept_false xs s p : kept xs s p = false <-> In p (py_positions (zlen xs) s).
Proof.
  unfold kept. rewrite negb_false_iff, existsb_exists. split.
  - intros (x & H & E). apply Z.eqb_eq in E. now subst.
  - intros H. exists p. split; auto. apply Z.eqb_refl.
Qed.
Lemma kept_true xs s p : ~ In p (py_positions (zlen xs) s) -> kept xs s p = true.
Proof. intros H. destruct (kept xs s p) eqn:E; auto. apply kept_false in E. contradiction. Qed.

Lemma slice_del_kept (xs : list A) s : slice_del xs s = pick xs (filter (kept xs s) (zrange 0 (zlen xs))).
Proof. unfold slice_del. now rewrite positions_zrange. Qed.

Lemma slice_del_seg (xs : list A) s : py_step s = 1 ->
  slice_del xs s = take (py_start (zlen xs) s) xs ++ drop (Z.max (py_start (zlen xs) s) (py_stop (zlen xs) s)) xs.
Proof.
  intros K1. pose proof (zlen_nonneg xs) as NN. pose proof (py_bounds_pos (zlen xs) s NN ltac:(lia)) as B.
  assert (P := slice_get_seg xs s K1).
  rewrite slice_del_kept. set (i := py_start (zlen xs) s) in *. set (j := py_stop (zlen xs) s) in *.
  rewrite (zrange_split 0 i), (zrange_split i (Z.max i j) (zlen xs)) by lia.
  rewrite !filter_app, !pick_app.
  rewrite (filter_all _ (zrange 0 i)), (filter_none _ (zrange i (Z.max i j))), (filter_all _ (zrange (Z.max i j) _)).
  - rewrite !pick_zrange by lia. rewrite Z.sub_0_r, drop_zero. f_equal. simpl.
    apply take_all. zsz. lia.
  - intros x Hx. apply kept_true. rewrite P. apply zrange_in in Hx. rewrite zrange_in. lia.
  - intros x Hx. apply kept_false. rewrite P. assumption.
  - intros x Hx. apply kept_true. rewrite P. apply zrange_in in Hx. rewrite zrange_in. lia.
Qed.

(** The extended deletion, after the direction has been normalised. *)
Section Del.
Context (xs : list A) (s : slice) (start stop step n : Z).
Context (Hstep : 0 < step) (Hn : 0 <= n) (Hs0 : 0 <= start).
Context (Hstop : forall m, 0 <= m -> (start + m * step < stop <-> m < n)).
Context (Hpos : forall p, In p (py_positions (zlen xs) s) <-> exists m, 0 <= m < n /\ p = start + m * step).
Context (Hin : forall m, 0 <= m < n -> start + m * step < zlen xs).
Context (Hfit : start + n * step <= 2^63 - 1) (HB : zlen xs <= 2^59).

Definition K (lo hi : Z) : list Z := filter (kept xs s) (zrange lo hi).

Lemma K_split lo mid hi : lo <= mid <= hi -> K lo hi = K lo mid ++ K mid hi.
Proof. intros H. unfold K. rewrite (zrange_split lo mid hi) by lia. apply filter_app. Qed.

Lemma K_gap m lo hi : 0 <= m <= n -> (m = 0 \/ start + (m - 1) * step < lo) -> 
  (m = n \/ hi <= start + m * step) -> K lo hi = zrange lo hi.
Proof.
  intros Hm H1 H2. apply filter_all. intros x Hx. apply zrange_in in Hx. apply kept_true.
  intros C. apply Hpos in C. destruct C as (q & Hq & ->).
  destruct (Z_lt_le_dec q m).
  - destruct H1; [lia|]. assert (q * step <= (m - 1) * step) by (apply Z.mul_le_mono_nonneg_r; lia). lia.
  - destruct H2; [lia|]. assert (m * step <= q * step) by (apply Z.mul_le_mono_nonneg_r; lia). lia.
Qed.

Lemma K_hit m : 0 <= m < n -> K (start + m * step) (start + m * step + 1) = [].
Proof.
  intros Hm. apply filter_none. intros x Hx. apply zrange_in in Hx. apply kept_false. apply Hpos.
  exists m. split; [lia|]. lia.
Qed.

(** Deleted so far: everything below [hi] is compacted. *)
Lemma K_len m : 0 <= m <= n ->
  zlen (pick xs (K 0 (Z.min (zlen xs) (start + m * step)))) = Z.min (zlen xs) (start + m * step) - m.
Proof.
  intros Hm. rewrite <- (Z2Nat.id m) in * by lia. revert Hm. generalize (Z.to_nat m) as w.
  pose proof (zlen_nonneg xs) as NN.
  induction w as [|w IH]; intros Hw.
  - replace (start + Z.of_nat 0 * step) with start by lia.
    rewrite (K_gap 0) by lia. rewrite pick_zrange by lia. rewrite drop_zero.
    zsz. lia.
  - set (m' := Z.of_nat w) in *. replace (Z.of_nat (S w)) with (m' + 1) in * by lia.
    assert (B := Hin m' ltac:(lia)).
    assert (0 <= m' * step) by nia.
    specialize (IH ltac:(lia)). rewrite Z.min_r in IH by lia.
    set (c := start + m' * step) in *. replace (start + (m' + 1) * step) with (c + step) by lia.
    rewrite (K_split 0 c), (K_split c (c + 1)) by lia. assert (KH := K_hit m' ltac:(lia)). fold c in KH. rewrite KH. simpl app.
    rewrite (K_gap (m' + 1) (c + 1)) by lia. rewrite pick_app, zlen_app, IH.
    rewrite pick_zrange by lia. zsz. lia.
Qed.

Lemma del_loop_spec (l : lst) : repr l xs ->
  wp (loop (S (Z.to_nat (len l))) (delslice_body stop step) (l, start, 0))
     (fun l' => len l' = zlen xs /\ zlen (cells l') = zlen (cells l) /\
        (forall t, 0 <= t < Z.min (zlen xs) (start + n * step) - n ->
            zc (cells l') t = ze (pick xs (K 0 (Z.min (zlen xs) (start + n * step)))) t) /\
        (forall t, start + n * step <= t < zlen xs -> zc (cells l') t = ze xs t)).
Proof.
  intros (HL & HC & HP). pose proof (zlen_nonneg xs) as NN.
  assert (NLE : n <= zlen xs).
  { destruct (Z.eq_dec n 0); [lia|]. pose proof (Hin (n - 1) ltac:(lia)). nia. }
  apply (wp_loop (fun '(l', cur, i) => 0 <= i <= n /\ cur = start + i * step /\
      len l' = zlen xs /\ zlen (cells l') = zlen (cells l) /\
      (forall t, 0 <= t < Z.min (zlen xs) cur - i ->
         zc (cells l') t = ze (pick xs (K 0 (Z.min (zlen xs) cur))) t) /\
      (forall t, cur <= t < zlen xs -> zc (cells l') t = ze xs t))
    (fun '(l', cur, i) => Z.to_nat (n - i))).
  - intros ((l', cur), i) (I1 & I2 & I3 & I4 & I5 & I6). unfold delslice_body. apply wp_if; intros E; zb.
    + rewrite I2 in E. apply Hstop in E; [|lia]. assert (B := Hin i ltac:(lia)). rewrite <- I2 in B.
      assert (0 <= i * step) by nia.
      assert (Hi0 : i <= i * step) by nia.
      assert (F : (i + 1) * step <= n * step) by (apply Z.mul_le_mono_nonneg_r; lia).
      rewrite (w64_small (cur + step)) by lia. rewrite (w64_small (step - 1)) by lia. cbv zeta. rewrite I3.
      set (lim := if zlen xs <? cur + step then zlen xs - cur - 1 else step - 1).
      assert (Hlim : lim = Z.min (zlen xs) (cur + step) - cur - 1) by (unfold lim; zcmp; lia).
      apply wp_bind. eapply wp_conseq; [apply memmove_spec; lia|]. intros c (Lc & Ec).
      apply wp_ok. split; [|lia]. simpl. split; [lia|]. split; [lia|]. split; [auto|]. split; [lia|].
      set (hi := Z.min (zlen xs) (cur + step)) in *.
      rewrite Z.min_r in I5 by lia.
      assert (KL := K_len i ltac:(lia)). rewrite <- I2 in KL. rewrite Z.min_r in KL by lia.
      assert (KS : pick xs (K 0 hi) = pick xs (K 0 cur) ++ take (hi - (cur + 1)) (drop (cur + 1) xs)).
      { rewrite (K_split 0 cur), (K_split cur (cur + 1)) by lia. assert (KH := K_hit i ltac:(lia)). rewrite <- I2 in KH. rewrite KH.
        rewrite (K_gap (i + 1) (cur + 1)) by lia. rewrite !pick_app. simpl. now rewrite pick_zrange by lia. }
      split.
      * intros t Ht. rewrite KS, ze_app, KL, Ec by lia.
        destruct (Z.ltb_spec t (cur - i)).
        -- replace ((cur - i <=? t) && (t <? cur - i + lim)) with false by lia. apply I5. lia.
        -- replace ((cur - i <=? t) && (t <? cur - i + lim)) with true by lia.
           rewrite ze_take, ze_drop by lia. rewrite I6 by lia. f_equal; lia.
      * intros t Ht. rewrite Ec by lia.
        replace ((cur - i <=? t) && (t <? cur - i + lim)) with false by lia. apply I6. lia.
    + apply wp_ok. assert (i = n).
      { destruct (Z.eq_dec i n); auto. exfalso. assert (G : start + i * step < stop) by (apply Hstop; lia). lia. }
      subst i cur. auto.
  - split; [lia|]. split; [lia|]. split; [auto|]. split; [auto|]. split.
    + intros t Ht.
      rewrite (K_gap 0) by lia. rewrite pick_zrange by lia. rewrite drop_zero, ze_take by lia. apply HP. lia.
    + intros t Ht. apply HP. lia.
  - lia.
Qed.

Lemma del_tail_spec (l : lst) : repr l xs ->
  wp (bind (loop (S (Z.to_nat (len l))) (delslice_body stop step) (l, start, 0)) (fun l1 =>
      let cur := w64 (start + w64 (n * step)) in
      bind (if cur <? len l1 then
               bind (memmove (cells l1) (cur - n) (cells l1) cur (len l1 - cur)) (fun c =>
               Ok (L c (len l1)))
             else Ok l1) (fun l2 =>
      Ok (L (cells l2) (len l2 - n))))) (fun l' => repr l' (slice_del xs s)).
Proof.
  intros R. pose proof (zlen_nonneg xs) as NN. apply wp_bind.
  eapply wp_conseq; [apply del_loop_spec; auto|]. intros l1 (E1 & E2 & E3 & E4). cbv zeta.
  destruct R as (HL & HC & HP).
  assert (0 <= n * step) by nia.
  rewrite w64_add_r. rewrite w64_small by lia. set (cur := start + n * step) in *.
  rewrite E1. assert (KL := K_len n ltac:(lia)). fold cur in KL.
  assert (NLE : n <= zlen xs).
  { destruct (Z.eq_dec n 0); [lia|]. pose proof (Hin (n - 1) ltac:(lia)). nia. }
  assert (NC : n <= Z.min (zlen xs) cur) by (unfold cur; nia).
  rewrite slice_del_kept. fold (K 0 (zlen xs)).
  destruct (Z.ltb_spec cur (zlen xs)) as [C|C].
  - rewrite Z.min_r in * by lia.
    assert (KS : pick xs (K 0 (zlen xs)) = pick xs (K 0 cur) ++ drop cur xs).
    { rewrite (K_split 0 cur) by lia. rewrite (K_gap n cur) by lia. rewrite pick_app, pick_zrange by lia.
      f_equal. apply take_all. zsz. lia. }
    apply wp_bind, wp_bind. eapply wp_conseq; [apply memmove_spec; lia|]. intros c (Lc & Ec).
    apply wp_ok, wp_ok. rewrite KS. split; [|split]; simpl.
    + zsz. lia.
    + zsz. lia.
    + intros t. zsz. intros Ht. rewrite ze_app, KL by lia. rewrite Ec by lia.
      destruct (Z.ltb_spec t (cur - n)).
      * replace ((cur - n <=? t) && (t <? cur - n + (zlen xs - cur))) with false by lia. apply E3. lia.
      * replace ((cur - n <=? t) && (t <? cur - n + (zlen xs - cur))) with true by lia.
        rewrite ze_drop by lia. rewrite E4 by lia. f_equal; lia.
  - rewrite Z.min_l in * by lia. apply wp_bind, wp_ok, wp_ok. split; [|split]; simpl.
    + lia.
    + lia.
    + intros t. rewrite KL. intros Ht. apply E3. lia.
Qed.
End Del.

Lemma delslice_spec (l : lst) xs s : repr l xs -> zlen xs <= 2^59 -> slice64 s ->
  py_step s <> 0 -> Z.abs (py_step s) <= 2^63 - 1 - zlen xs ->
  wp (delslice l s) (fun l' => repr l' (slice_del xs s)).
Proof.
  intros R HB H64 Hk Hfit. pose proof (repr_len _ _ R) as HL. pose proof (zlen_nonneg xs) as NN.
  unfold delslice. destruct (full_slice s) eqn:F.
  { apply full_slice_step in F. destruct F as [F1 F2]. destruct (F2 (zlen xs) NN) as [F3 F4].
    rewrite slice_del_seg by auto. rewrite F3, F4. rewrite Z.max_r by lia. rewrite drop_all by lia.
    rewrite app_nil_r. apply wp_ok. now apply empty_repr. }
  rewrite HL, adj by (auto; lia). cbn [bind].
  destruct (Z.eq_dec (py_step s) 1) as [K1|K1].
  { replace (match sl_step s with Some _ => py_step s =? 1 | None => true end) with true
      by (destruct (sl_step s); auto; rewrite K1; auto).
    pose proof (py_bounds_pos (zlen xs) s NN ltac:(lia)) as B.
    rewrite slice_del_seg by auto.
    exact (assign_slice_spec l xs _ _ [] [] R (proj1 B) (proj2 B) (Z.le_refl 0)
             (fun k Hk0 => ltac:(change (zlen (@nil A)) with 0 in Hk0; lia))). }
  replace (match sl_step s with Some _ => py_step s =? 1 | None => true end) with false
    by (unfold py_step in K1 |- *; destruct (sl_step s); lia).
  set (n := py_count (zlen xs) s).
  assert (Hn0 : 0 <= n) by apply count_nonneg. replace (n <? 0) with false by lia.
  assert (INB : forall m, 0 <= m < n -> 0 <= py_start (zlen xs) s + m * py_step s < zlen xs).
  { intros m Hm. apply (py_positions_in_bounds (zlen xs) s); auto.
    unfold py_positions. apply progression_in. exists m. split; [exact Hm|reflexivity]. }
  assert (IN : forall p, In p (py_positions (zlen xs) s) <->
     exists m, 0 <= m < n /\ p = py_start (zlen xs) s + m * py_step s)
    by (intros p; apply progression_in).
  set (i := py_start (zlen xs) s) in *. set (j := py_stop (zlen xs) s). set (k := py_step s) in *.
  assert (FIT : 0 < n -> i + (n - 1) * k < zlen xs /\ 0 <= i + (n - 1) * k).
  { intros. pose proof (INB (n - 1) ltac:(lia)). lia. }
  destruct (Z.ltb_spec k 0) as [KN|KP].
  - pose proof (py_bounds_neg (zlen xs) s NN ltac:(fold k; lia)) as B. fold i j in B.
    rewrite w64_add_r, w64_sub_l.
    assert (FE : 0 <= i + (n - 1) * k <= zlen xs - 1 - k).
    { destruct (Z.eq_dec n 0) as [->|]; [lia|]. specialize (FIT ltac:(lia)). lia. }
    rewrite (w64_small (i + 1 + k * (n - 1) - 1)) by lia.
    rewrite (w64_small (- k)) by lia.
    replace (i + 1 + k * (n - 1) - 1) with (i + (n - 1) * k) by lia.
    rewrite <- HL. apply (del_tail_spec xs s (i + (n - 1) * k) (i + 1) (- k) n); auto; try lia.
    + intros m Hm. split; intros.
      * apply Z.nle_gt. intros C. assert (n * k >= m * k) by nia. lia.
      * assert (m * k >= (n - 1) * k) by nia. lia.
    + intros p. rewrite IN. split; intros (m & Hm & ->); exists (n - 1 - m); lia.
    + intros m Hm. pose proof (INB (n - 1 - m) ltac:(lia)). lia.
  - pose proof (py_bounds_pos (zlen xs) s NN ltac:(fold k; lia)) as B. fold i j in B.
    rewrite <- HL. apply (del_tail_spec xs s i j k n); auto; try lia.
    + intros m Hm. unfold n, py_count. fold i j k. symmetry. apply count_pos; lia.
    + intros m Hm. pose proof (INB m Hm). lia.
Qed.
End S.
