(** Order, concatenation, slices, padding, tabs, translation and [repr]. *)
From Coq Require Import List ZArith Lia Bool.
From Verif.Common Require Import Result Int64.
From Verif.List Require Import SliceSpec SliceModel SliceProofs.
From Verif.Parser Require Import Escape.
From Verif.Str Require Import Model Spec Basic WordProofs SearchProofs.
Import ListNotations.
Local Open Scope Z_scope.

(** ** Order *)
Lemma cmp_cons x y s t : cmp (x :: s) (y :: t) = if x =? y then cmp s t else x - y.
Proof.
  unfold cmp. cbn [length Nat.min cmp_loop]. destruct (x =? y); cbn [negb]; auto.
  rewrite !len_cons. destruct (cmp_loop _ s t); auto. lia.
Qed.
Lemma cmp_lt s : forall t, cmp s t < 0 <-> lex_lt s t.
Proof.
  induction s as [|x s IH]; intros [|y t].
  - cbn. split; [lia|inversion 1].
  - unfold cmp. cbn [length Nat.min cmp_loop]. rewrite len_cons, len_nil. pose proof (len_nonneg t).
    split; [constructor|lia].
  - unfold cmp. cbn [length Nat.min cmp_loop]. rewrite len_cons, len_nil. pose proof (len_nonneg s).
    split; [lia|inversion 1].
  - rewrite cmp_cons. destruct (Z.eqb_spec x y) as [->|E].
    + rewrite IH. split; [apply lex_same|]. inversion 1; subst; auto. lia.
    + split; [intros; apply lex_less; lia|]. inversion 1; subst; lia.
Qed.
Lemma cmp_opp s : forall t, cmp t s = - cmp s t.
Proof.
  induction s as [|x s IH]; intros [|y t].
  - reflexivity.
  - unfold cmp. cbn [length Nat.min cmp_loop]. lia.
  - unfold cmp. cbn [length Nat.min cmp_loop]. lia.
  - rewrite !cmp_cons. rewrite (Z.eqb_sym y x). destruct (x =? y); auto. lia.
Qed.
Lemma cmp_eq s : forall t, cmp s t = 0 <-> s = t.
Proof.
  induction s as [|x s IH]; intros [|y t].
  - split; reflexivity.
  - unfold cmp. cbn [length Nat.min cmp_loop]. rewrite len_cons, len_nil. pose proof (len_nonneg t).
    split; [lia|congruence].
  - unfold cmp. cbn [length Nat.min cmp_loop]. rewrite len_cons, len_nil. pose proof (len_nonneg s).
    split; [lia|congruence].
  - rewrite cmp_cons. destruct (Z.eqb_spec x y) as [->|E].
    + rewrite IH. split; congruence.
    + split; [lia|congruence].
Qed.
Theorem compare_ok s t :
  (str_lt s t = true <-> lex_lt s t) /\ (str_gt s t = true <-> lex_lt t s) /\
  (str_le s t = true <-> lex_lt s t \/ s = t) /\ (str_ge s t = true <-> lex_lt t s \/ s = t) /\
  (str_eq s t = true <-> s = t).
Proof.
  rewrite <- !cmp_lt, <- (cmp_eq s t), str_eq_eq, <- (cmp_eq s t). rewrite (cmp_opp s t).
  unfold str_lt, str_gt, str_le, str_ge. rewrite !Z.ltb_lt, !Z.leb_le. lia.
Qed.
Lemma lex_irrefl s : ~ lex_lt s s.
Proof. rewrite <- cmp_lt. rewrite (proj2 (cmp_eq s s) eq_refl). lia. Qed.
Lemma lex_trans s : forall t u, lex_lt s t -> lex_lt t u -> lex_lt s u.
Proof.
  induction s as [|x s IH]; intros t u H1 H2.
  - inversion H1; subst. inversion H2; subst; constructor.
  - inversion H1; subst; inversion H2; subst; try (apply lex_less; lia). apply lex_same. eauto.
Qed.

(** ** Concatenation and repetition *)
Theorem add_ok s t : str_add s t = Ok (s ++ t).
Proof.
  unfold str_add. pose proof (len_nonneg s). pose proof (len_nonneg t). cbv zeta.
  rewrite alloc_ok by lia. cbn [bind]. rewrite put_ok by (rewrite len_nil; lia). cbn [bind app].
  rewrite put_ok by lia. cbn [bind]. apply full_ok. apply len_app.
Qed.
Lemma put_times_ok s cap : forall n out, len out + Z.of_nat n * len s <= cap ->
  put_times n cap out s = Ok (out ++ concat (repeat s n)).
Proof.
  induction n as [|n IH]; intros out H; cbn [put_times repeat concat]; [now rewrite app_nil_r|].
  pose proof (len_nonneg s). rewrite put_ok by nia. cbn [bind]. rewrite IH; [now rewrite <- app_assoc|].
  rewrite len_app. nia.
Qed.
Lemma len_copies s n : len (concat (repeat s n)) = Z.of_nat n * len s.
Proof.
  induction n as [|n IH]; [reflexivity|]. cbn [repeat concat]. rewrite len_app, IH. lia.
Qed.
Theorem mul_ok s x : 0 <= x -> x * len s <= MAX -> str_mul s x = Ok (concat (repeat s (Z.to_nat x))).
Proof.
  intros Hx H. pose proof (len_nonneg s). unfold str_mul, MAX, max64 in *.
  rewrite w64_id by (rewrite in64_bounds; nia). cbv zeta. rewrite alloc_ok by nia. cbn [bind].
  rewrite put_times_ok by (rewrite len_nil; lia). cbn [bind app].
  apply full_ok. rewrite len_copies. lia.
Qed.

(** ** Items and slices *)
Theorem getitem_ok s i : len s < MAX -> in64 i ->
  str_getitem s i = if (- len s <=? i) && (i <? len s) then Ok [byte s (if i <? 0 then i + len s else i)]
                    else Raise IndexError.
Proof.
  intros Hs Hi. pose proof (len_nonneg s). rewrite in64_bounds in Hi. unfold MAX, max64 in Hs. unfold str_getitem.
  assert (W : (if i <? 0 then w64 (i + len s) else i) = if i <? 0 then i + len s else i).
  { destruct (Z.ltb_spec i 0); auto. apply w64_id. rewrite in64_bounds. lia. }
  rewrite W. cbv zeta. set (j := if i <? 0 then i + len s else i).
  replace ((- len s <=? i) && (i <? len s)) with ((0 <=? j) && (j <? len s)).
  2:{ unfold j. destruct (Z.ltb_spec i 0); lia. }
  destruct ((0 <=? j) && (j <? len s)) eqn:E; cbn [negb]; auto.
  rewrite slice_ok by lia. rewrite sub_cons, sub_empty by lia. reflexivity.
Qed.

Lemma put_range_ok s step cap : forall n i out,
  (forall m, 0 <= m < Z.of_nat n -> 0 <= i + m * step < len s) -> len out + Z.of_nat n <= cap ->
  put_range n s i step cap out = Ok (out ++ map (byte s) (progression i step (Z.of_nat n))).
Proof.
  induction n as [|n IH]; intros i out H Hc; cbn [put_range]; [now rewrite app_nil_r|].
  pose proof (H 0 ltac:(lia)). rewrite get_ok by lia. cbn [bind].
  rewrite put_ok by (rewrite len_cons, len_nil; lia). cbn [bind]. rewrite IH.
  - rewrite (progression_cons i) by lia. replace (Z.of_nat (S n) - 1) with (Z.of_nat n) by lia.
    cbn [map]. rewrite <- app_assoc. reflexivity.
  - intros m Hm. specialize (H (m + 1) ltac:(lia)). nia.
  - autorewrite with len. lia.
Qed.
Lemma py_count_nonneg n s : 0 <= py_count n s.
Proof. unfold py_count, progression_count. lia. Qed.
Lemma sub_progression s i n : 0 <= i -> 0 <= n -> i + n <= len s -> sub s i (i + n) = map (byte s) (progression i 1 n).
Proof.
  intros Hi Hn H. revert i Hi H. pattern n. apply natlike_ind; auto.
  - intros. rewrite Z.add_0_r, sub_empty. reflexivity.
  - intros m Hm IH i Hi H. rewrite progression_cons by lia. cbn [map].
    rewrite sub_cons by lia. f_equal. replace (Z.succ m - 1) with m by lia.
    replace (i + Z.succ m) with (i + 1 + m) by lia. apply IH; lia.
Qed.
Definition slice64 (sl : slice) : Prop :=
  (forall v, sl_start sl = Some v -> in64 v) /\ (forall v, sl_stop sl = Some v -> in64 v) /\
  (forall v, sl_step sl = Some v -> in64 v).
Theorem slice_str_ok s sl : len s <= 2^62 -> slice64 sl ->
  str_slice s sl = if py_step sl =? 0 then Raise ValueError else Ok (map (byte s) (py_positions (len s) sl)).
Proof.
  intros Hs (S1 & S2 & S3). pose proof (len_nonneg s). pose proof (py_count_nonneg (len s) sl) as Hc.
  assert (HB : py_step sl <> 0 -> forall k, 0 <= k < py_count (len s) sl -> 0 <= py_start (len s) sl + k * py_step sl < len s).
  { intros Hk k Hk2. apply (py_positions_in_bounds (len s) sl); auto. unfold py_positions. apply progression_in. eauto. }
  assert (A : py_step sl <> 0 -> adjust_indices sl (len s) =
     Ok (py_start (len s) sl, py_stop (len s) sl, py_step sl, py_count (len s) sl)).
  { intros. apply adjust_indices_spec; auto; lia. }
  assert (Zr : py_step sl = 0 -> adjust_indices sl (len s) = Raise ValueError).
  { unfold py_step, adjust_indices. intros ->. reflexivity. }
  assert (General : bind (adjust_indices sl (len s)) (fun '(start, stop, step, length) =>
      bind (alloc length) (fun _ => bind (put_range (Z.to_nat length) s start step length []) (fun p => full length p)))
      = if py_step sl =? 0 then Raise ValueError else Ok (map (byte s) (py_positions (len s) sl))).
  { destruct (Z.eqb_spec (py_step sl) 0) as [E|E]; [now rewrite Zr|].
    rewrite A by auto. cbn [bind]. rewrite alloc_ok by lia. cbn [bind]. rewrite put_range_ok.
    - cbn [bind app]. rewrite Z2Nat.id by lia. apply full_ok. unfold py_positions. match goal with |- len ?x = _ => change (len x) with (Z.of_nat (length x)) end. rewrite map_length, progression_length. lia.
    - intros m Hm. apply HB; auto. lia.
    - rewrite len_nil. lia. }
  assert (Plain : sl_step sl = None ->
     bind (adjust_indices sl (len s)) (fun '(start, _, _, length) => slice_ s start (start + length)) =
     if py_step sl =? 0 then Raise ValueError else Ok (map (byte s) (py_positions (len s) sl))).
  { intros E. assert (P : py_step sl = 1) by (unfold py_step; now rewrite E).
    rewrite A by lia. rewrite P. cbn [bind Z.eqb]. unfold py_positions. rewrite P in *.
    pose proof (py_bounds_pos (len s) sl ltac:(lia) ltac:(lia)) as [B1 B2].
    assert (0 <= py_start (len s) sl + py_count (len s) sl <= len s).
    { destruct (Z.eq_dec (py_count (len s) sl) 0) as [->|]; [lia|].
      specialize (HB ltac:(lia) (py_count (len s) sl - 1) ltac:(lia)). lia. }
    rewrite slice_ok by lia. rewrite sub_progression by lia. reflexivity. }
  unfold str_slice. destruct sl as [[a|] [b|] [c|]]; cbn [sl_start sl_stop sl_step] in *; auto.
  (* the whole string *)
  unfold py_positions, py_count, py_start, py_stop, py_step, progression_count. cbn.
  rewrite Z.div_1_r. replace (Z.max 0 (- - len s)) with (len s) by lia.
  f_equal. rewrite <- sub_progression by lia. rewrite Z.add_0_l. symmetry. apply sub_all.
Qed.

(** ** Padding *)
Lemma build_ok left c s right : 0 <= left -> 0 <= right -> left + len s + right <= MAX ->
  build left [c] s right = Ok (repeat c (Z.to_nat left) ++ s ++ repeat c (Z.to_nat right)).
Proof.
  intros Hl Hr H. pose proof (len_nonneg s). unfold build, MAX, max64 in *. rewrite len_cons, len_nil.
  rewrite (w64_id ((1 + 0) * left + len s)) by (rewrite in64_bounds; lia).
  rewrite w64_id by (rewrite in64_bounds; lia). cbv zeta. rewrite alloc_ok by lia. cbn [bind].
  assert (R : forall n, concat (repeat [c] n) = repeat c n).
  { induction n as [|n IH]; cbn [repeat concat app]; congruence. }
  rewrite put_times_ok by (autorewrite with len; lia). cbn [bind app].
  rewrite put_ok by (rewrite len_copies; autorewrite with len; lia). cbn [bind].
  rewrite put_times_ok by (rewrite len_app, len_copies; autorewrite with len; lia). cbn [bind].
  rewrite !R, <- app_assoc. apply full_ok. rewrite !len_app, !len_repeat. lia.
Qed.
Theorem ljust_ok s width c : len s < MAX -> in64 width ->
  str_ljust s width [c] = Ok (s ++ repeat c (Z.to_nat (width - len s))).
Proof.
  intros Hs Hw. unfold str_ljust. rewrite len_cons, len_nil. cbn [Z.eqb negb Z.add Pos.eqb].
  rewrite in64_bounds in Hw. destruct (Z.leb_spec width (len s)).
  - replace (Z.to_nat (width - len s)) with 0%nat by lia. now rewrite app_nil_r.
  - rewrite build_ok by (unfold MAX, max64; lia). reflexivity.
Qed.
Theorem rjust_ok s width c : len s < MAX -> in64 width ->
  str_rjust s width [c] = Ok (repeat c (Z.to_nat (width - len s)) ++ s).
Proof.
  intros Hs Hw. unfold str_rjust. rewrite len_cons, len_nil. cbn [Z.eqb negb Z.add Pos.eqb].
  rewrite in64_bounds in Hw. destruct (Z.leb_spec width (len s)).
  - replace (Z.to_nat (width - len s)) with 0%nat by lia. reflexivity.
  - rewrite build_ok by (unfold MAX, max64; lia). cbn [Z.to_nat repeat]. now rewrite app_nil_r.
Qed.
Theorem center_ok s width c : len s < MAX -> in64 width ->
  str_center s width [c] =
    Ok (repeat c (Z.to_nat ((width - len s) / 2)) ++ s ++
        repeat c (Z.to_nat (width - len s) - Z.to_nat ((width - len s) / 2))).
Proof.
  intros Hs Hw. unfold str_center. rewrite len_cons, len_nil. cbn [Z.eqb negb Z.add Pos.eqb].
  rewrite in64_bounds in Hw. destruct (Z.leb_spec width (len s)).
  - assert ((width - len s) / 2 <= 0) by (apply Z.div_le_upper_bound; lia).
    replace (Z.to_nat ((width - len s) / 2)) with 0%nat by lia. replace (Z.to_nat (width - len s)) with 0%nat by lia.
    cbn. now rewrite app_nil_r.
  - cbv zeta. rewrite Z.quot_div_nonneg by lia.
    assert (0 <= (width - len s) / 2) by (apply Z.div_pos; lia).
    assert ((width - len s) / 2 <= width - len s) by (apply Z.div_le_upper_bound; lia).
    rewrite build_ok by (unfold MAX, max64; lia). do 4 f_equal. lia.
Qed.
Theorem pad_fill_ok s width fillchar : len fillchar <> 1 ->
  str_ljust s width fillchar = Raise ValueError /\ str_rjust s width fillchar = Raise ValueError /\
  str_center s width fillchar = Raise ValueError.
Proof.
  intros H. unfold str_ljust, str_rjust, str_center. replace (len fillchar =? 1) with false by lia. auto.
Qed.
Theorem zfill_ok s width : len s < MAX -> in64 width ->
  str_zfill s width = Ok (zeros_after_sign (Z.to_nat (width - len s)) s).
Proof.
  intros Hs Hw. unfold str_zfill. destruct (Z.leb_spec width (len s)) as [L|L].
  - replace (Z.to_nat (width - len s)) with 0%nat by lia. destruct s as [|c t]; auto.
    cbn. now destruct ((c =? 43) || (c =? 45)).
  - rewrite rjust_ok by auto. cbn [bind]. set (n := Z.to_nat (width - len s)).
    assert (Hn : (1 <= n)%nat /\ Z.of_nat n = width - len s) by lia. clearbody n.
    destruct s as [|c t].
    + rewrite len_nil. cbn [Z.ltb Z.compare]. now rewrite app_nil_r.
    + rewrite len_cons in *. pose proof (len_nonneg t). replace (0 <? 1 + len t) with true by lia.
      rewrite get_ok by (rewrite len_app, len_repeat, len_cons; lia). cbn [bind].
      rewrite byte_app_r by (rewrite len_repeat; lia). rewrite len_repeat.
      replace (width - (1 + len t) - Z.of_nat n) with 0 by lia. change (byte_at (c :: t) 0) with c.
      cbn [zeros_after_sign]. destruct ((c =? 43) || (c =? 45)); [|reflexivity].
      destruct n as [|n]; [lia|]. unfold Model.set at 1. rewrite len_app, len_repeat, len_cons.
      remember (Z.of_nat (S n)) as z eqn:Ez. replace ((0 <=? 0) && (0 <? z + (1 + len t))) with true by lia.
      cbn [Z.to_nat firstn app repeat skipn bind]. unfold Model.set. rewrite len_cons, len_app, len_repeat, len_cons.
      replace ((0 <=? width - (1 + len t)) && (width - (1 + len t) <? 1 + (Z.of_nat n + (1 + len t)))) with true by lia.
      replace (Z.to_nat (width - (1 + len t))) with (S n) by lia. f_equal.
      assert (F : firstn (S n) (c :: repeat 48 n ++ c :: t) = c :: repeat 48 n).
      { cbn [firstn]. f_equal. rewrite firstn_app, repeat_length, Nat.sub_diag. cbn [firstn].
        rewrite app_nil_r. apply firstn_all2. rewrite repeat_length. lia. }
      assert (K : skipn (S (S n)) (c :: repeat 48 n ++ c :: t) = t).
      { change (skipn (S n) (repeat 48 n ++ [c] ++ t) = t). rewrite app_assoc. rewrite skipn_app.
        rewrite skipn_all2 by (rewrite app_length, repeat_length; cbn; lia).
        rewrite app_length, repeat_length. cbn [length app]. now replace (S n - (n + 1))%nat with 0%nat by lia. }
      rewrite F, K. change (48 :: repeat 48 n) with (repeat 48 (S n)).
      cbn [app]. f_equal. change (48 :: t) with ([48] ++ t). rewrite app_assoc. f_equal.
      clear. induction n; cbn; congruence.
Qed.

(** ** Tabs *)
Lemma expand_nonneg tab s : forall col, 0 <= col -> 0 <= len (expand tab col s).
Proof. intros. apply len_nonneg. Qed.
Lemma tab_step tab j : 0 < tab -> 0 <= j -> 0 < tab - j mod tab <= tab.
Proof. intros. pose proof (Z.mod_pos_bound j tab ltac:(lia)). lia. Qed.
Lemma tab_len_ok tab s : forall i j, 0 <= i -> 0 <= j -> j <= MAX -> tab <= MAX ->
  tab_len s tab i j = if i + j + len (expand tab j s) <=? MAX then Ok (i + j + len (expand tab j s)) else Raise OverflowError.
Proof.
  induction s as [|c s IH]; intros i j Hi Hj Hm Ht.
  - cbn [tab_len expand]. rewrite len_nil, Z.add_0_r. destruct (Z.ltb_spec (MAX - j) i).
    + now replace (i + j <=? MAX) with false by lia.
    + now replace (i + j <=? MAX) with true by lia.
  - cbn [tab_len expand]. destruct (Z.eqb_spec c 9) as [->|Ec].
    + destruct (Z.ltb_spec 0 tab) as [Tp|Tp].
      * replace (tab <=? 0) with false by lia. cbv zeta. rewrite Z.rem_mod_nonneg by lia.
        pose proof (tab_step tab j Tp Hj). set (w := tab - j mod tab) in *. clearbody w.
        rewrite len_app, len_repeat, Z2Nat.id by lia. pose proof (len_nonneg (expand tab (j + w) s)).
        destruct (Z.ltb_spec (MAX - w) j).
        -- replace (i + j + (w + len (expand tab (j + w) s)) <=? MAX) with false by lia. reflexivity.
        -- rewrite IH by lia. replace (i + (j + w) + len (expand tab (j + w) s)) with (i + j + (w + len (expand tab (j + w) s))) by lia.
           reflexivity.
      * replace (tab <=? 0) with true by lia. now apply IH.
    + rewrite len_cons. unfold is_break.
      destruct (Z.ltb_spec (MAX - 1) j).
      * match goal with |- context [len (expand tab ?cc s)] => pose proof (len_nonneg (expand tab cc s)) as N; set (L := len (expand tab cc s)) in * end.
        now replace (i + j + (1 + L) <=? MAX) with false by lia.
      * rewrite (orb_comm (c =? 10)). destruct ((c =? 13) || (c =? 10)).
        -- pose proof (len_nonneg (expand tab 0 s)). destruct (Z.ltb_spec (MAX - (j + 1)) i).
           ++ now replace (i + j + (1 + len (expand tab 0 s)) <=? MAX) with false by lia.
           ++ rewrite IH by (unfold MAX, max64 in *; lia).
              replace (i + (j + 1) + 0 + len (expand tab 0 s)) with (i + j + (1 + len (expand tab 0 s))) by lia. reflexivity.
        -- rewrite IH by lia. replace (i + (j + 1) + len (expand tab (j + 1) s)) with (i + j + (1 + len (expand tab (j + 1) s))) by lia.
           reflexivity.
Qed.
Lemma tab_put_ok tab cap s : forall j out, 0 <= j -> len out + len (expand tab j s) <= cap ->
  tab_put s tab j cap out = Ok (out ++ expand tab j s).
Proof.
  induction s as [|c s IH]; intros j out Hj H.
  - cbn. now rewrite app_nil_r.
  - cbn [tab_put expand] in *. destruct (Z.eqb_spec c 9) as [->|Ec].
    + destruct (Z.ltb_spec 0 tab) as [Tp|Tp].
      * replace (tab <=? 0) with false in * by lia. cbv zeta in *. rewrite Z.rem_mod_nonneg by lia.
        pose proof (tab_step tab j Tp Hj). set (w := tab - j mod tab) in *. clearbody w.
        rewrite len_app, len_repeat, Z2Nat.id in H by lia. pose proof (len_nonneg (expand tab (j + w) s)).
        rewrite put_times_ok by (autorewrite with len; lia). cbn [bind].
        assert (R : forall n, concat (repeat [32] n) = repeat 32 n).
        { induction n as [|n IHn]; cbn [repeat concat app]; congruence. }
        rewrite R. rewrite IH by (rewrite ?len_app, ?len_repeat; lia). now rewrite <- app_assoc.
      * replace (tab <=? 0) with true in * by lia. now apply IH.
    + rewrite len_cons in H. unfold is_break. rewrite (orb_comm (c =? 10)) in *.
      set (j' := if (c =? 13) || (c =? 10) then 0 else j + 1) in *.
      assert (0 <= j') by (unfold j'; destruct ((c =? 13) || (c =? 10)); lia). clearbody j'.
      pose proof (len_nonneg (expand tab j' s)).
      rewrite put_ok by (autorewrite with len; lia). cbn [bind]. rewrite IH by (autorewrite with len; lia).
      now rewrite <- app_assoc.
Qed.
Theorem expandtabs_ok s tab : in64 tab ->
  str_expandtabs s tab = if len (expand tab 0 s) <=? MAX then Ok (expand tab 0 s) else Raise OverflowError.
Proof.
  intros Ht. rewrite in64_bounds in Ht. unfold str_expandtabs.
  rewrite tab_len_ok by (unfold MAX, max64; lia). rewrite !Z.add_0_l.
  destruct (len (expand tab 0 s) <=? MAX); auto. cbn [bind].
  rewrite alloc_ok by apply len_nonneg. cbn [bind]. rewrite tab_put_ok by (rewrite ?len_nil; lia). cbn [bind app].
  now apply full_ok.
Qed.

(** ** Translation *)
Definition translated (map : Z -> option (option (list Z))) (s : list Z) : list Z :=
  flat_map (fun c => match map c with None => [c] | Some None => [] | Some (Some v) => v end) s.
Lemma translate_len_ok map s : translate_len map s = len (translated map s).
Proof.
  induction s as [|c s IH]; [reflexivity|]. cbn [translate_len translated flat_map].
  fold (translated map s). rewrite len_app, IH. destruct (map c) as [[v|]|]; autorewrite with len; lia.
Qed.
Lemma translate_put_ok map cap s : forall out, len out + len (translated map s) <= cap ->
  translate_put map s cap out = Ok (out ++ translated map s).
Proof.
  induction s as [|c s IH]; intros out H; [cbn; now rewrite app_nil_r|].
  cbn [translate_put translated flat_map] in *. fold (translated map s) in *. rewrite len_app in H.
  pose proof (len_nonneg (translated map s)).
  destruct (map c) as [[v|]|]; autorewrite with len in H.
  - rewrite put_ok by lia. cbn [bind]. rewrite IH by (autorewrite with len; lia). now rewrite <- app_assoc.
  - cbn [bind]. rewrite IH by lia. reflexivity.
  - rewrite put_ok by (autorewrite with len; lia). cbn [bind]. rewrite IH by (autorewrite with len; lia). now rewrite <- app_assoc.
Qed.
Theorem translate_ok map s : str_translate s map = Ok (translated map s).
Proof.
  unfold str_translate. rewrite translate_len_ok. rewrite alloc_ok by apply len_nonneg. cbn [bind].
  rewrite translate_put_ok by (rewrite len_nil; lia). cbn [bind app]. now apply full_ok.
Qed.

(** ** [repr] *)
Definition is_byte (c : Z) : Prop := 0 <= c < 256.
Definition is_quote (q : Z) : Prop := q = 34 \/ q = 39.
Lemma quote_of_ok s : is_quote (quote_of s).
Proof. unfold quote_of, is_quote. destruct (_ && _); auto. Qed.

Lemma hexdigit_range d : 0 <= d < 16 -> 48 <= hexdigit d <= 57 \/ 97 <= hexdigit d <= 102.
Proof. intros. unfold hexdigit. destruct (Z.ltb_spec d 10); lia. Qed.
Lemma repr_byte_literal q c t : is_quote q -> is_byte c -> literal_body q t -> literal_body q (repr_byte q c ++ t).
Proof.
  intros Hq Hc H. unfold repr_byte.
  destruct (Z.eqb_spec c 10); [cbn; now constructor|].
  destruct (Z.eqb_spec c 13); [cbn; now constructor|].
  destruct (Z.eqb_spec c 9); [cbn; now constructor|].
  destruct (Z.eqb_spec c 92); [cbn; now constructor|].
  destruct (Z.eqb_spec c q); [cbn; now constructor|].
  destruct (negb ((32 <=? c) && (c <=? 126))); cbn [app].
  - unfold is_byte in Hc. unfold is_quote in Hq.
    assert (0 <= c / 16 < 16) by (split; [apply Z.div_pos; lia|apply Z.div_lt_upper_bound; lia]).
    pose proof (Z.mod_pos_bound c 16 ltac:(lia)).
    pose proof (hexdigit_range (c / 16) ltac:(lia)). pose proof (hexdigit_range (c mod 16) ltac:(lia)).
    constructor. constructor; try lia. constructor; try lia. auto.
  - constructor; auto.
Qed.
Lemma repr_byte_printable q c : is_quote q -> is_byte c -> Forall (fun d => 32 <= d <= 126) (repr_byte q c).
Proof.
  intros Hq Hc. unfold repr_byte, is_quote, is_byte in *.
  assert (H1 : 0 <= c / 16 < 16) by (split; [apply Z.div_pos; lia|apply Z.div_lt_upper_bound; lia]).
  pose proof (hexdigit_range (c / 16) H1) as R1.
  pose proof (Z.mod_pos_bound c 16 ltac:(lia)) as H2. pose proof (hexdigit_range (c mod 16) H2) as R2.
  repeat match goal with |- context [if ?b then _ else _] => destruct b eqn:? end;
    repeat (apply Forall_cons; [lia|]); apply Forall_nil.
Qed.

Lemma digit_hex d : 0 <= d < 16 -> digit 16 (hexdigit d) = Some d.
Proof.
  intros. unfold digit, hexdigit. destruct (Z.ltb_spec d 10).
  - replace ((48 <=? 48 + d) && (48 + d <=? 57)) with true by lia. replace (48 + d - 48) with d by lia.
    now replace (d <? 16) with true by lia.
  - replace ((48 <=? 87 + d) && (87 + d <=? 57)) with false by lia.
    replace ((97 <=? 87 + d) && (87 + d <=? 122)) with true by lia. replace (87 + d - 87) with d by lia.
    now replace (d <? 16) with true by lia.
Qed.
Lemma stoi_hex c : is_byte c -> stoi 16 [hexdigit (c / 16); hexdigit (c mod 16)] = Ok (c, 2%nat).
Proof.
  intros Hc. unfold is_byte in Hc.
  assert (H1 : 0 <= c / 16 < 16) by (split; [apply Z.div_pos; lia|apply Z.div_lt_upper_bound; lia]).
  pose proof (Z.mod_pos_bound c 16 ltac:(lia)) as H2.
  pose proof (hexdigit_range (c / 16) H1) as R1.
  unfold stoi. cbn [skip]. unfold space.
  replace ((hexdigit (c / 16) =? 32) || ((9 <=? hexdigit (c / 16)) && (hexdigit (c / 16) <=? 13))) with false by lia.
  replace (hexdigit (c / 16) =? 45) with false by lia. replace (hexdigit (c / 16) =? 43) with false by lia.
  cbn [digits]. rewrite (digit_hex (c / 16) H1). cbn [digits]. rewrite (digit_hex (c mod 16) H2).
  cbn [Nat.add]. f_equal. f_equal. pose proof (Z.div_mod c 16 ltac:(lia)). lia.
Qed.
Lemma unescape_repr_byte q c t f r : is_quote q -> is_byte c -> unescape_ f t = Ok r ->
  unescape_ (S f) (repr_byte q c ++ t) = Ok (c :: r).
Proof.
  intros Hq Hc H. unfold repr_byte.
  destruct (Z.eqb_spec c 10) as [->|]; [cbn [app unescape_ Z.eqb Pos.eqb BSL]; change (92 =? BSL) with true; cbn; now rewrite H|].
  destruct (Z.eqb_spec c 13) as [->|]; [cbn [app unescape_]; cbn; now rewrite H|].
  destruct (Z.eqb_spec c 9) as [->|]; [cbn [app unescape_]; cbn; now rewrite H|].
  destruct (Z.eqb_spec c 92) as [->|]; [cbn [app unescape_]; cbn; now rewrite H|].
  destruct (Z.eqb_spec c q) as [->|].
  { cbn [app unescape_]. destruct Hq as [->| ->]; cbn; now rewrite H. }
  destruct (negb ((32 <=? c) && (c <=? 126))) eqn:P.
  - cbn [app]. cbn [unescape_]. change (92 =? BSL) with true. change (simple 120) with (@None Z). cbv iota.
    change (120 =? 120) with true. cbv iota. cbn [firstn]. rewrite stoi_hex by auto. cbn [bind skipn].
    rewrite H. cbn [bind]. unfold Escape.byte. unfold is_byte in Hc. now rewrite Z.mod_small by lia.
  - cbn [app]. destruct t as [|d t].
    + cbn. destruct f; cbn in H; [discriminate|]. now inversion H.
    + cbn [unescape_]. change BSL with 92. replace (c =? 92) with false by lia. rewrite H. reflexivity.
Qed.
Lemma repr_byte_len q c : (1 <= length (repr_byte q c))%nat.
Proof. unfold repr_byte. repeat match goal with |- context [if ?b then _ else _] => destruct b end; cbn; lia. Qed.
Lemma unescape_repr q s : is_quote q -> Forall is_byte s -> forall f, (length s < f)%nat ->
  unescape_ f (flat_map (repr_byte q) s) = Ok s.
Proof.
  intros Hq. induction 1 as [|c s Hc _ IH]; intros f Hf; cbn [length flat_map] in *.
  - destruct f; [lia|reflexivity].
  - destruct f as [|f]; [lia|]. apply unescape_repr_byte; auto. apply IH. lia.
Qed.
Theorem repr_ok s : Forall is_byte s -> exists q body,
  str_repr s = [q] ++ body ++ [q] /\ (q = 34 \/ q = 39) /\ literal_body q body /\
  Forall (fun d => 32 <= d <= 126) body /\ unescape body = Ok s.
Proof.
  intros H. exists (quote_of s), (flat_map (repr_byte (quote_of s)) s).
  pose proof (quote_of_ok s) as Hq. split; [reflexivity|]. split; [exact Hq|]. repeat split.
  - revert Hq. generalize (quote_of s) as q. intros q Hq. clear - H Hq. induction H as [|c s Hc _ IH]; [constructor|].
    cbn [flat_map]. now apply repr_byte_literal.
  - revert Hq. generalize (quote_of s) as q. intros q Hq. clear - H Hq. induction H as [|c s Hc _ IH]; [constructor|].
    cbn [flat_map]. apply Forall_app. split; auto. now apply repr_byte_printable.
  - unfold unescape. apply unescape_repr; auto.
    generalize (quote_of s) as q. intros q. clear. induction s as [|c s IH]; cbn [flat_map length]; [lia|].
    rewrite app_length. pose proof (repr_byte_len q c). lia.
Qed.
