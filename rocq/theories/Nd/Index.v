(** Proofs about basic indexing and broadcasting. *)
From Coq Require Import List ZArith Lia Bool Permutation.
From Verif.Common Require Import Result Int64.
From Verif.List Require Import SliceSpec SliceModel SliceProofs.
From Verif.Nd Require Import Spec Model Grid Copy Reshape Views IndexModel.
Import ListNotations.
Local Open Scope Z_scope.

(** ** Expansion of the index tuple *)

Lemma items_count items :
  length items = (axes_used items + length (filter is_new items) + length (filter is_dots items))%nat.
Proof.
  unfold axes_used. induction items as [|[i|s| |] items IH]; simpl; lia.
Qed.

Lemma dots_filter items : dots items = length (filter is_dots items).
Proof. reflexivity. Qed.

Lemma expand_flat items n k : (k <> 0)%nat ->
  expand_ellipsis items n k =
  flat_map (fun it => match it with IDots => repeat (ISlice full) n | it => [it] end) items.
Proof.
  intros H. induction items as [|it items IH]; simpl; apply Nat.eqb_neq in H; rewrite H; [reflexivity|].
  destruct it; simpl; now rewrite IH.
Qed.

Lemma spread_length items n (rest := repeat (ISlice full) n) :
  length (flat_map (fun it => match it with IDots => rest | it => [it] end) items) =
  (axes_used items + length (filter is_new items) + dots items * n)%nat.
Proof.
  unfold axes_used, dots, rest. induction items as [|it items IH]; [reflexivity|].
  cbn [flat_map]. rewrite app_length, IH. destruct it; simpl; rewrite ?repeat_length; lia.
Qed.

Lemma expand_spread items nd : (dots items <= 1)%nat -> (axes_used items <= nd)%nat ->
  let news := length (filter is_new items) in
  let ds := length (filter is_dots items) in
  let items1 := expand_ellipsis items (nd - (length items - news - ds)) ds in
  expand_remainder items1 (nd + news - length items1) = spread items nd.
Proof.
  intros D U. cbv zeta. unfold spread, expand_remainder.
  pose proof (items_count items) as E. rewrite <- (dots_filter items) in *.
  replace (length items - length (filter is_new items) - dots items)%nat with (axes_used items) by lia.
  destruct (Nat.eqb_spec (dots items) 0) as [Z|Z].
  - rewrite Z. replace (expand_ellipsis items (nd - axes_used items) 0) with items by (destruct items; reflexivity).
    f_equal. f_equal. lia.
  - rewrite expand_flat by assumption.
    rewrite spread_length. replace (nd + _ - _)%nat with O by (replace (dots items) with 1%nat by lia; lia).
    apply app_nil_r.
Qed.

Lemma spread_nodots items nd : (dots items <= 1)%nat -> dots (spread items nd) = 0%nat.
Proof.
  intros D. unfold spread. destruct (Nat.eqb_spec (dots items) 0) as [Z|Z].
  - unfold dots in *. rewrite filter_app, app_length, Z. simpl.
    induction (nd - axes_used items)%nat; auto.
  - clear. generalize (nd - axes_used items)%nat as n. intros n.
    unfold dots. induction items as [|it items IH]; [reflexivity|]. simpl flat_map.
    rewrite filter_app, app_length, IH. destruct it; simpl; auto.
    rewrite Nat.add_0_r. clear. induction n; auto.
Qed.

Lemma used_app a b : axes_used (a ++ b) = (axes_used a + axes_used b)%nat.
Proof. unfold axes_used. now rewrite filter_app, app_length. Qed.

Lemma used_rest n : axes_used (repeat (ISlice full) n) = n.
Proof. unfold axes_used. induction n; simpl; auto. Qed.

Lemma spread_used items nd : (dots items <= 1)%nat -> (axes_used items <= nd)%nat ->
  axes_used (spread items nd) = nd.
Proof.
  intros D U. unfold spread. destruct (Nat.eqb_spec (dots items) 0) as [Z|Z].
  - rewrite used_app, used_rest. lia.
  - set (n := (nd - axes_used items)%nat).
    assert (G : forall l, axes_used (flat_map (fun it => match it with IDots => repeat (ISlice full) n | it => [it] end) l)
                = (axes_used l + dots l * n)%nat).
    { induction l as [|it l IH]; [reflexivity|]. cbn [flat_map]. rewrite used_app, IH.
      destruct it; unfold axes_used, dots; simpl; try lia.
      fold (axes_used (repeat (ISlice full) n)). rewrite used_rest. lia. }
    rewrite G. subst n. replace (dots items) with 1%nat by lia. lia.
Qed.

(** ** The view *)

Definition slice64 (s : slice) : Prop :=
  (forall v, sl_start s = Some v -> in64 v) /\ (forall v, sl_stop s = Some v -> in64 v) /\
  (forall v, sl_step s = Some v -> in64 v).

Definition items64 (l : list item) : Prop :=
  forall s, In (ISlice s) l -> slice64 s.

Lemma full64 : slice64 full.
Proof. repeat split; simpl; discriminate. Qed.

Lemma spread64 items nd : items64 items -> items64 (spread items nd).
Proof.
  intros H s Hs. unfold spread in Hs. destruct (dots items =? 0)%nat.
  - apply in_app_or in Hs. destruct Hs as [Hs|Hs]; [auto|]. apply repeat_spec in Hs.
    injection Hs as ->. apply full64.
  - apply in_flat_map in Hs. destruct Hs as (it & Hi & Hs). destruct it.
    + destruct Hs as [Hs|[]]; discriminate.
    + destruct Hs as [Hs|[]]. injection Hs as <-. auto.
    + destruct Hs as [Hs|[]]; discriminate.
    + apply repeat_spec in Hs. injection Hs as ->. apply full64.
Qed.

Lemma keep_shift l k : keep_axes l (S k) = map S (keep_axes l k).
Proof.
  revert k. induction l as [|it l IH]; intros k; [reflexivity|]. destruct it; simpl; now rewrite IH.
Qed.

Lemma new_shape_shift m mi keep : new_shape (m :: mi) (map S keep) = new_shape mi keep.
Proof. unfold new_shape. now rewrite map_map. Qed.

Lemma new_strides_shift m mi s st keep : new_strides (m :: mi) (s :: st) (map S keep) = new_strides mi st keep.
Proof. unfold new_strides. now rewrite map_map. Qed.

Lemma new_shape_cons m mi keep : new_shape (m :: mi) (O :: map S keep) = m_count m :: new_shape mi keep.
Proof. unfold new_shape. simpl. now rewrite map_map. Qed.

Lemma new_strides_cons m mi s st keep :
  new_strides (m :: mi) (s :: st) (O :: map S keep) = m_step m * s :: new_strides mi st keep.
Proof. unfold new_strides. simpl. now rewrite map_map. Qed.

Lemma adjust_full1 : adjust_indices full 1 = Ok (0, 1, 1, 1).
Proof. reflexivity. Qed.

Lemma normalize_index_spec i n : 0 <= n ->
  normalize_index i n = if (- n <=? i) && (i <? n) then Ok (wrap n i) else Raise IndexError.
Proof.
  intros H. unfold normalize_index, wrap.
  destruct (Z.ltb_spec i 0), (Z.leb_spec (- n) i), (Z.ltb_spec i n); simpl; try lia;
  repeat match goal with |- context [?a <? ?b] => destruct (Z.ltb_spec a b) end;
  repeat match goal with |- context [?a <=? ?b] => destruct (Z.leb_spec a b) end; simpl; try reflexivity; lia.
Qed.

Definition dims_ok (sh : list Z) : Prop := Forall (fun d => 0 <= d <= 2 ^ 62) sh.

Lemma view_walk items : forall sh st, dots items = 0%nat -> axes_used items = length sh ->
  length st = length sh -> dims_ok sh -> items64 items ->
  let '(i3, sh3, st3) := expand_newaxis items sh st in
  (sel_ok items sh /\ exists mi, multiindex i3 sh3 = Ok mi /\
     new_shape mi (keep_axes i3 0) = sel_shape items sh /\
     length (new_strides mi st3 (keep_axes i3 0)) = length (sel_shape items sh) /\
     Forall (fun d => 0 <= d) (sel_shape items sh) /\
     forall c, inside (sel_shape items sh) c ->
       inside sh (sel_from items sh c) /\
       base_offset mi st3 + dot c (new_strides mi st3 (keep_axes i3 0)) = dot (sel_from items sh c) st) \/
  (~ sel_ok items sh /\ exists e, multiindex i3 sh3 = Raise e).
Proof.
  induction items as [|it items IH]; intros sh st D U L F I.
  - destruct sh; [|discriminate]. destruct st; [|discriminate]. simpl. left. split; [constructor|].
    exists []. do 4 (split; [reflexivity || constructor|]). intros c Hc. inversion Hc. split; [constructor|reflexivity].
  - assert (I' : items64 items) by (intros s Hs; apply I; simpl; auto).
    destruct it as [i|s| |]; try discriminate.
    + destruct sh as [|n sh]; [discriminate|]. destruct st as [|t st]; [discriminate|].
      inversion F as [|? ? Hn F']; subst. cbn [expand_newaxis tl hd].
      specialize (IH sh st D ltac:(simpl in *; unfold axes_used in *; simpl in *; lia) ltac:(simpl in *; lia) F' I').
      destruct (expand_newaxis items sh st) as [[i3 sh3] st3]. cbn [multiindex keep_axes sel_ok sel_shape sel_from].
      destruct IH as [(Hok & mi & E & Hs & Hl & Hp & Hc)|(Hno & e & E)]; rewrite E; cbn [bind].
      2:{ right. split; [tauto|eauto]. }
      rewrite normalize_index_spec by lia.
      destruct (Z.leb_spec (- n) i), (Z.ltb_spec i n); cbn [andb bind]; try (right; split; [lia|eauto]; fail).
      left. split; [split; [lia|assumption]|]. eexists. split; [reflexivity|].
      rewrite keep_shift, new_shape_shift, new_strides_shift. split; [assumption|]. split; [assumption|].
      split; [assumption|]. intros c Hcc. destruct (Hc c Hcc) as [H1 H2]. split.
      * constructor; [|assumption]. unfold wrap. destruct (Z.ltb_spec i 0); lia.
      * cbn [base_offset dot m_start]. unfold m_start. simpl. lia.
    + destruct sh as [|n sh]; [discriminate|]. destruct st as [|t st]; [discriminate|].
      inversion F as [|? ? Hn F']; subst. cbn [expand_newaxis tl hd].
      specialize (IH sh st D ltac:(simpl in *; unfold axes_used in *; simpl in *; lia) ltac:(simpl in *; lia) F' I').
      destruct (expand_newaxis items sh st) as [[i3 sh3] st3]. cbn [multiindex keep_axes sel_ok sel_shape sel_from].
      destruct IH as [(Hok & mi & E & Hs & Hl & Hp & Hc)|(Hno & e & E)]; rewrite E; cbn [bind].
      2:{ right. split; [tauto|eauto]. }
      destruct (Z.eq_dec (py_step s) 0) as [Z|Z].
      { right. split; [tauto|]. unfold adjust_indices. fold (py_step s). rewrite Z. cbn. eauto. }
      left. split; [split; assumption|].
      destruct (I s ltac:(simpl; auto)) as (S1 & S2 & S3).
      rewrite adjust_indices_spec by assumption. cbn [bind]. eexists. split; [reflexivity|].
      rewrite keep_shift, new_shape_cons, new_strides_cons. split; [now rewrite Hs|]. split; [simpl; congruence|].
      split; [constructor; [apply count_nonneg|assumption]|].
      intros c Hcc. inversion Hcc as [|? k ? c' Hk Hc']; subst. destruct (Hc c' Hc') as [H1 H2].
      assert (E1 : nth (Z.to_nat k) (py_positions n s) 0 = py_start n s + k * py_step s).
      { unfold py_positions. rewrite progression_nth by lia. rewrite Z2Nat.id by lia. reflexivity. }
      rewrite E1. split.
      * constructor; [|assumption]. apply (py_positions_in_bounds n s); auto; [lia|].
        unfold py_positions. apply progression_in. eauto.
      * cbn [base_offset dot]. unfold m_start, m_step. simpl fst. simpl snd. lia.
    + cbn [expand_newaxis].
      specialize (IH sh st D U L F I').
      destruct (expand_newaxis items sh st) as [[i3 sh3] st3]. cbn [multiindex keep_axes sel_ok sel_shape sel_from].
      destruct IH as [(Hok & mi & E & Hs & Hl & Hp & Hc)|(Hno & e & E)]; rewrite E; cbn [bind].
      2:{ right. split; [tauto|eauto]. }
      rewrite adjust_full1. cbn [bind]. left. split; [assumption|].
      eexists. split; [reflexivity|].
      rewrite keep_shift, new_shape_cons, new_strides_cons. split; [now rewrite Hs|]. split; [simpl; congruence|].
      split; [constructor; [lia|assumption]|].
      intros c Hcc. inversion Hcc as [|? k ? c' Hk Hc']; subst. destruct (Hc c' Hc') as [H1 H2].
      split; [assumption|]. cbn [base_offset dot]. unfold m_start, m_step. simpl fst. simpl snd. lia.
Qed.

Theorem index_view_ok a items (its := spread items (ndim a)) : wf a -> dims_ok (shape a) ->
  (dots items <= 1)%nat -> (axes_used items <= ndim a)%nat -> items64 items ->
  (sel_ok its (shape a) /\ exists r some, index_view a items = Ok (r, some) /\ wf r /\ blk r = blk a /\
     shape r = sel_shape its (shape a) /\ (some = false <-> shape r = []) /\
     forall c, inside (shape r) c ->
       inside (shape a) (sel_from its (shape a) c) /\ ptr r c = ptr a (sel_from its (shape a) c)) \/
  (~ sel_ok its (shape a) /\ exists e, index_view a items = Raise e).
Proof.
  intros W F D U I. pose proof W as [L _ P]. unfold index_view.
  pose proof (items_count items) as IC. rewrite <- dots_filter in IC.
  rewrite <- dots_filter.
  destruct (Nat.ltb_spec 1 (dots items)); [lia|].
  destruct (Nat.ltb_spec (ndim a) (length items - length (filter is_new items) - dots items)); [lia|].
  rewrite (dots_filter items). rewrite (expand_spread items (ndim a) D U). fold its.
  pose proof (view_walk its (shape a) (strides a) (spread_nodots items (ndim a) D)
    (spread_used items (ndim a) D U) L F (spread64 items (ndim a) I)) as V.
  destruct (expand_newaxis its (shape a) (strides a)) as [[i3 sh3] st3].
  destruct V as [(Hok & mi & E & Hs & Hl & Hp & Hc)|(Hno & e & E)]; rewrite E; cbn [bind]; [left|right; split; [assumption|eauto]].
  split; [assumption|]. eexists. eexists. split; [reflexivity|]. rewrite Hs.
  split; [split; cbn [strides shape isz]; auto|]. split; [reflexivity|]. split; [reflexivity|]. split.
  - cbn [shape]. rewrite <- Hs. unfold new_shape.
    destruct (keep_axes i3 0); simpl; split; congruence.
  - cbn [shape]. intros c Hcc. destruct (Hc c Hcc) as [H1 H2]. split; [assumption|].
    unfold ptr. cbn [blk base strides]. f_equal. lia.
Qed.

(** Different coordinates of the result come from different coordinates. *)
Lemma sel_from_inj items : forall sh c d, sel_ok items sh ->
  inside (sel_shape items sh) c -> inside (sel_shape items sh) d ->
  sel_from items sh c = sel_from items sh d -> c = d.
Proof.
  induction items as [|it items IH]; intros sh c d Hok Hc Hd E.
  - destruct sh; inversion Hc; inversion Hd; reflexivity.
  - destruct it as [i|s| |]; cbn [sel_ok sel_shape sel_from] in *.
    + destruct sh as [|n sh]; [contradiction|]. destruct Hok as [_ Hok]. injection E as E. eauto.
    + destruct sh as [|n sh]; [contradiction|]. destruct Hok as [Z Hok].
      inversion Hc as [|? k ? c' Hk Hc']; subst. inversion Hd as [|? m ? d' Hm Hd']; subst.
      injection E as E1 E2. f_equal; [|eauto].
      unfold py_positions in E1. rewrite !progression_nth, !Z2Nat.id in E1 by lia. nia.
    + inversion Hc as [|? k ? c' Hk Hc']; subst. inversion Hd as [|? m ? d' Hm Hd']; subst.
      f_equal; [lia|]. eapply IH; eauto.
    + contradiction.
Qed.

(** ** Broadcasting *)

Lemma from_end_nth k (sh : list Z) : (k < length sh)%nat -> from_end k sh = nth_error sh (length sh - 1 - k).
Proof.
  intros H. unfold from_end. revert k H. induction sh as [|x sh IH]; intros k H; simpl in *; [lia|].
  destruct (Nat.eq_dec k (length sh)) as [->|N].
  - rewrite nth_error_app2, rev_length, Nat.sub_diag by (rewrite rev_length; lia).
    replace (length sh - 0 - length sh)%nat with O by lia. reflexivity.
  - rewrite nth_error_app1 by (rewrite rev_length; lia). rewrite IH by lia.
    replace (length sh - 0 - k)%nat with (S (length sh - 1 - k)) by lia. reflexivity.
Qed.

Lemma from_end_some k (sh : list Z) : (k < length sh)%nat <-> exists d, from_end k sh = Some d.
Proof.
  unfold from_end. rewrite <- (rev_length sh). split.
  - intros H. apply nth_error_Some in H. destruct (nth_error (rev sh) k); [eauto|congruence].
  - intros [d E]. apply nth_error_Some. congruence.
Qed.


Lemma list_ext (l1 l2 : list Z) : length l1 = length l2 ->
  (forall k d e, nth_error l1 k = Some d -> nth_error l2 k = Some e -> d = e) -> l1 = l2.
Proof.
  revert l2. induction l1 as [|x l1 IH]; intros [|y l2] L H; simpl in *; try discriminate; [reflexivity|].
  f_equal; [now apply (H O)|]. apply IH; [lia|]. intros k. apply (H (S k)).
Qed.

Theorem broadcasts_unique shapes o1 o2 : broadcasts shapes o1 -> broadcasts shapes o2 -> o1 = o2.
Proof.
  intros (A1 & (s1 & I1 & L1) & B1) (A2 & (s2 & I2 & L2) & B2).
  assert (L : length o1 = length o2).
  { pose proof (A1 s2 I2). pose proof (A2 s1 I1). lia. }
  rewrite <- (rev_involutive o1), <- (rev_involutive o2). f_equal.
  apply list_ext; [now rewrite !rev_length|]. intros k d e E1 E2.
  destruct (B1 k d E1) as [(t1 & J1 & F1) G1]. destruct (B2 k e E2) as [(t2 & J2 & F2) G2].
  destruct (G1 t2 e J2 F2), (G2 t1 d J1 F1); congruence.
Qed.

(** What the merge has found out: [ans] (reversed) for the arguments seen. *)
Definition merged (t : list Z) (seen : list (list Z)) (ans : list Z) : Prop :=
  length ans = length t /\
  forall k d, nth_error ans k = Some d ->
    (exists sh, (sh = t \/ In sh seen) /\ from_end k sh = Some d) /\
    (forall sh e, In sh seen -> from_end k sh = Some e -> e = 1 \/ e = d) /\
    (forall e, from_end k t = Some e -> e = 1 \/ e = d).

Lemma merge_shape_spec ans a : (length a <= length ans)%nat ->
  (exists r, merge_shape ans a = Ok r /\ length r = length ans /\
     forall k d, nth_error r k = Some d ->
       exists y, nth_error ans k = Some y /\
       match nth_error a k with
       | Some x => (y = 1 /\ d = x) \/ (y <> 1 /\ d = y /\ (x = 1 \/ x = y))
       | None => d = y
       end) \/
  (merge_shape ans a = Raise ValueError /\
   exists k x y, nth_error ans k = Some y /\ nth_error a k = Some x /\ y <> 1 /\ x <> 1 /\ x <> y).
Proof.
  revert ans. induction a as [|x a IH]; intros ans L.
  - left. exists ans. split; [destruct ans; reflexivity|]. split; [reflexivity|].
    intros k d E. exists d. split; [assumption|]. now destruct k.
  - destruct ans as [|y ans]; simpl in L; [lia|]. specialize (IH ans ltac:(lia)). cbn [merge_shape].
    destruct (Z.eqb_spec y 1) as [->|Y].
    + destruct IH as [(r & -> & Lr & H)|(-> & k & x' & y' & E)]; cbn [bind].
      * left. eexists. split; [reflexivity|]. split; [simpl; congruence|].
        intros [|k] d E; simpl in *; [|now apply H]. exists 1. split; [reflexivity|]. left. split; congruence.
      * right. split; [reflexivity|]. exists (S k), x', y'. exact E.
    + destruct (Z.eqb_spec x 1) as [X|X]; cbn [negb andb].
      2: destruct (Z.eqb_spec x y) as [X'|X']; cbn [negb andb].
      1,2: destruct IH as [(r & -> & Lr & H)|(-> & k & x' & y' & E)]; cbn [bind];
        [left; eexists; split; [reflexivity|]; split; [simpl; congruence|];
         intros [|k] d E; simpl in *; [|now apply H]; exists y; split; [reflexivity|]; right;
         split; [assumption|]; split; [congruence|auto]
        |right; split; [reflexivity|]; exists (S k), x', y'; exact E].
      right. split; [reflexivity|]. exists O, x, y. simpl. auto.
Qed.

Lemma merge_step t seen ans a : merged t seen ans -> (length a <= length t)%nat ->
  (exists r, merge_shape ans (rev a) = Ok r /\ merged t (seen ++ [a]) r) \/
  (merge_shape ans (rev a) = Raise ValueError /\
   exists k d sh x, (sh = t \/ In sh seen) /\ from_end k sh = Some d /\ from_end k a = Some x /\ d <> 1 /\ x <> 1 /\ x <> d).
Proof.
  intros [L M] La.
  destruct (merge_shape_spec ans (rev a)) as [(r & E & Lr & H)|(E & k & x & y & E1 & E2 & N1 & N2 & N3)].
  - rewrite rev_length. lia.
  - left. exists r. split; [assumption|]. split; [congruence|]. intros k d Ek.
    destruct (H k d Ek) as (y & Ey & C). destruct (M k y Ey) as (M1 & M2 & M3).
    change (nth_error (rev a) k) with (from_end k a) in C.
    destruct (from_end k a) as [x|] eqn:Ea.
    + destruct C as [[-> ->]|(Y & -> & X)].
      * split; [exists a; split; [right; apply in_or_app; simpl; auto|assumption]|]. split.
        -- intros sh e Hi He. apply in_app_or in Hi. destruct Hi as [Hi|[<-|[]]]; [|right; congruence].
           destruct (M2 sh e Hi He); auto.
        -- intros e He. destruct (M3 e He); auto.
      * split; [destruct M1 as (sh & [->|Hi] & Hs); [exists t|exists sh]; (split; [|assumption]); auto; right; apply in_or_app; auto|].
        split; [|assumption]. intros sh e Hi He. apply in_app_or in Hi. destruct Hi as [Hi|[<-|[]]]; [eauto|].
        rewrite Ea in He. injection He as <-. assumption.
    + subst d. split; [destruct M1 as (sh & [->|Hi] & Hs); [exists t|exists sh]; (split; [|assumption]); auto; right; apply in_or_app; auto|].
      split; [|assumption]. intros sh e Hi He. apply in_app_or in Hi. destruct Hi as [Hi|[<-|[]]]; [eauto|congruence].
  - right. split; [assumption|]. destruct (M k y E1) as ((sh & Hs & He) & _).
    exists k, y, sh, x. split; [exact Hs|]. split; [exact He|]. split; [exact E2|auto].
Qed.

Lemma merge_all t args : forall seen ans, merged t seen ans ->
  (forall a, In a args -> (length a <= length t)%nat) ->
  (exists r, merge_shapes ans args = Ok r /\ merged t (seen ++ args) r) \/
  (merge_shapes ans args = Raise ValueError /\
   exists k d x s1 s2, (s1 = t \/ In s1 (seen ++ args)) /\ In s2 (seen ++ args) /\
     from_end k s1 = Some d /\ from_end k s2 = Some x /\ d <> 1 /\ x <> 1 /\ x <> d).
Proof.
  induction args as [|a args IH]; intros seen ans M La.
  - left. exists ans. rewrite app_nil_r. auto.
  - cbn [merge_shapes].
    destruct (merge_step t seen ans a M (La a (or_introl eq_refl))) as [(r & E & M')|(E & k & d & sh & x & H & H')]; rewrite E; cbn [bind].
    + specialize (IH (seen ++ [a]) r M' (fun b Hb => La b (or_intror Hb))). now rewrite <- app_assoc in IH.
    + right. split; [reflexivity|]. exists k, d, x, sh, a. split; [|split; [apply in_or_app; simpl; auto|tauto]].
      destruct H; [auto|]. right. apply in_or_app. auto.
Qed.

Lemma largest_spec args : forall t, In (largest t args) (t :: args) /\
  forall a, In a (t :: args) -> (length a <= length (largest t args))%nat.
Proof.
  induction args as [|a args IH]; intros t; cbn [largest].
  - split; [simpl; auto|]. intros a [<-|[]]. lia.
  - destruct (IH a) as [I B]. destruct (Nat.ltb_spec (length t) (length (largest a args))).
    + split; [right; exact I|]. intros b [<-|Hb]; [lia|auto].
    + split; [left; reflexivity|]. intros b [<-|Hb]; [lia|]. specialize (B b Hb). lia.
Qed.

Theorem broadcast_shapes_ok args : args <> [] -> (forall a, In a args -> Forall (fun d => 0 <= d) a) ->
  (exists out, broadcast_shapes args = Ok out /\ broadcasts args out /\ Forall (fun d => 0 <= d) out) \/
  (broadcast_shapes args = Raise ValueError /\ forall out, ~ broadcasts args out).
Proof.
  intros NE NN. destruct args as [|a args]; [congruence|]. unfold broadcast_shapes.
  assert (EX : existsb (existsb (fun i => i <? 0)) (a :: args) = false).
  { destruct (existsb _ (a :: args)) eqn:E; [|reflexivity]. apply existsb_exists in E.
    destruct E as (b & Hb & E). apply existsb_exists in E. destruct E as (i & Hi & E).
    specialize (NN b Hb). rewrite Forall_forall in NN. specialize (NN i Hi). simpl in NN. apply Z.ltb_lt in E. lia. }
  rewrite EX. destruct (largest_spec args a) as [It Bt]. set (t := largest a args) in *.
  assert (M0 : merged t [] (rev t)).
  { split; [apply rev_length|]. intros k d E. split; [exists t; auto|]. split; [contradiction|].
    intros e He. unfold from_end in He. right. congruence. }
  destruct (merge_all t (a :: args) [] (rev t) M0 Bt) as [(r & E & L & M)|(E & k & d & x & s1 & s2 & I1 & I2 & F1 & F2 & N1 & N2 & N3)];
    rewrite E; cbn [bind]; [left|right].
  - exists (rev r). split; [reflexivity|]. simpl app in M.
    assert (B : broadcasts (a :: args) (rev r)).
    { split; [intros sh Hs; rewrite rev_length, L; now apply Bt|]. split; [exists t; rewrite rev_length; auto|].
      intros k d Ek. unfold from_end in Ek. rewrite rev_involutive in Ek. destruct (M k d Ek) as ((sh & Hs & He) & M2 & _).
      split; [exists sh; split; [destruct Hs as [->|Hs]; assumption|assumption]|exact M2]. }
    split; [assumption|]. apply Forall_rev, Forall_forall. intros d Hd. apply In_nth_error in Hd. destruct Hd as [k Ek].
    destruct (M k d Ek) as ((sh & Hs & He) & _).
    assert (Hin : In sh (a :: args)) by (destruct Hs as [->|Hs]; assumption).
    specialize (NN sh Hin). rewrite Forall_forall in NN. apply NN.
    unfold from_end in He. apply nth_error_In in He. now apply in_rev.
  - split; [reflexivity|]. intros out (A & _ & B). simpl app in *.
    assert (J1 : In s1 (a :: args)) by (destruct I1 as [->|I1]; assumption).
    assert (K : (k < length out)%nat).
    { pose proof (A s2 I2). assert (k < length s2)%nat by (apply from_end_some; eauto). lia. }
    apply from_end_some in K. destruct K as [e Ee]. destruct (B k e Ee) as [_ G].
    destruct (G s1 d J1 F1), (G s2 x I2 F2); congruence.
Qed.

(** ** broadcast_to *)

Definition fits (xs sh : list Z) : Prop :=
  (length xs <= length sh)%nat /\ Forall2 (fun a b => a = b \/ a = 1) xs (skipn (length sh - length xs) sh).

Lemma Forall2_nth_error {A B} (R : A -> B -> Prop) l1 l2 : length l1 = length l2 ->
  (forall k x y, nth_error l1 k = Some x -> nth_error l2 k = Some y -> R x y) -> Forall2 R l1 l2.
Proof.
  revert l2. induction l1 as [|x l1 IH]; intros [|y l2] L H; simpl in *; try discriminate; constructor.
  - now apply (H O).
  - apply IH; [lia|]. intros k. apply (H (S k)).
Qed.

Lemma Forall2_nth_inv {A B} (R : A -> B -> Prop) l1 l2 k x y : Forall2 R l1 l2 ->
  nth_error l1 k = Some x -> nth_error l2 k = Some y -> R x y.
Proof.
  intros H. revert k. induction H; intros [|k] E1 E2; simpl in *; try discriminate; [congruence|eauto].
Qed.

Lemma nth_error_skipn {A} n (l : list A) k : nth_error (skipn n l) k = nth_error l (n + k).
Proof. revert l. induction n; intros [|x l]; simpl; auto. now destruct k. Qed.

Lemma fits_broadcasts xs sh : fits xs sh <-> broadcasts [xs; sh] sh.
Proof.
  split.
  - intros [L F]. split; [intros s [<-|[<-|[]]]; lia|]. split; [exists sh; simpl; auto|].
    intros k d E. split; [exists sh; simpl; auto|]. intros s e [<-|[<-|[]]] He; [|right; congruence].
    assert (K1 : (k < length xs)%nat) by (apply from_end_some; eauto).
    rewrite from_end_nth in He by lia. rewrite from_end_nth in E by lia.
    assert (E' : nth_error (skipn (length sh - length xs) sh) (length xs - 1 - k) = Some d).
    { rewrite nth_error_skipn. rewrite <- E. f_equal. lia. }
    destruct (Forall2_nth_inv _ _ _ _ _ _ F He E'); auto.
  - intros (A & _ & B). assert (L : (length xs <= length sh)%nat) by (apply A; simpl; auto).
    split; [assumption|]. apply Forall2_nth_error; [rewrite skipn_length; lia|].
    intros k x y Ex Ey. assert (K : (k < length xs)%nat) by (apply nth_error_Some; congruence).
    rewrite nth_error_skipn in Ey.
    destruct (B (length xs - 1 - k)%nat y) as [_ G].
    { rewrite from_end_nth by lia. rewrite <- Ey. f_equal. lia. }
    destruct (G xs x); [simpl; auto|rewrite from_end_nth by lia; rewrite <- Ex; f_equal; lia| |]; auto.
Qed.

Lemma bcast_strides_ok xs : forall st sh, length st = length xs -> length sh = length xs ->
  (Forall2 (fun a b => a = b \/ a = 1) xs sh /\ exists r, bcast_strides xs st sh = Ok r /\ length r = length xs /\
     forall c, inside sh c ->
       let d := map (fun '(n, i) => if n =? 1 then 0 else i) (combine xs c) in
       inside xs d /\ dot c r = dot d st) \/
  (~ Forall2 (fun a b => a = b \/ a = 1) xs sh /\ bcast_strides xs st sh = Raise ValueError).
Proof.
  induction xs as [|a xs IH]; intros [|s st] [|b sh] L1 L2; simpl in *; try discriminate.
  - left. split; [constructor|]. exists []. repeat split. constructor. now rewrite dot_nil_r.
  - specialize (IH st sh ltac:(lia) ltac:(lia)).
    destruct (Z.eqb_spec a b) as [E|E]; [|destruct (Z.eqb_spec a 1) as [E1|E1]].
    1,2: destruct IH as [(F & r & -> & Lr & H)|(F & ->)]; cbn [bind];
      [left; split; [constructor; auto|]; eexists; split; [reflexivity|]; split; [simpl; congruence|];
       intros c Hc; inversion Hc as [|? i ? c' Hi Hc']; subst; destruct (H c' Hc') as [H1 H2]; cbn [combine map];
       split; [constructor; [|assumption]|]
      |right; split; [intros X; inversion X; contradiction|reflexivity]].
    + destruct (Z.eqb_spec b 1); lia.
    + cbn [dot]. rewrite H2. destruct (Z.eqb_spec b 1); [|reflexivity]. replace i with 0 by lia. reflexivity.
    + simpl. lia.
    + cbn [dot]. rewrite H2. simpl. lia.
    + right. split; [|reflexivity]. intros X. inversion X; subst. tauto.
Qed.

Lemma inside_skipn sh c n : inside sh c -> inside (skipn n sh) (skipn n c).
Proof. intros H. revert n. induction H; intros [|n]; simpl; try constructor; auto. Qed.

Lemma dot_repeat0 n c st : dot c (repeat 0 n ++ st) = dot (skipn n c) st.
Proof.
  revert c. induction n as [|n IH]; intros [|i c]; simpl; auto. rewrite IH. lia.
Qed.

Theorem broadcast_to_ok (x : nd) sh : wf x -> Forall (fun d => 0 <= d) sh -> (ndim x <= length sh)%nat ->
  (broadcasts [shape x; sh] sh /\ exists r, broadcast_to x sh = Ok r /\ wf r /\ shape r = sh /\ blk r = blk x /\
     forall c, inside sh c -> inside (shape x) (pick (shape x) c) /\ ptr r c = ptr x (pick (shape x) c)) \/
  (~ broadcasts [shape x; sh] sh /\ broadcast_to x sh = Raise ValueError).
Proof.
  intros W F L. pose proof W as [Lx _ P]. unfold broadcast_to.
  destruct (Nat.ltb_spec (length sh) (ndim x)); [lia|]. unfold ndim in *.
  destruct (bcast_strides_ok (shape x) (strides x) (skipn (length sh - length (shape x)) sh) Lx) as [(Q & r & E & Lr & H1)|(Q & E)].
  - rewrite skipn_length. lia.
  - left. split; [apply fits_broadcasts; split; assumption|]. rewrite E. cbn [bind]. eexists. split; [reflexivity|].
    split; [split; cbn [strides shape isz]; [rewrite app_length, repeat_length; lia|assumption|assumption]|].
    split; [reflexivity|]. split; [reflexivity|]. intros c Hc.
    pose proof (inside_length _ _ Hc) as Lc. pose proof (inside_skipn _ _ (length sh - length (shape x)) Hc) as Hs.
    destruct (H1 _ Hs) as [G1 G2]. unfold pick. rewrite Lc. split; [exact G1|].
    unfold ptr. cbn [blk base strides]. rewrite dot_repeat0. f_equal. lia.
  - right. split; [|now rewrite E]. intros B. apply fits_broadcasts in B. destruct B. contradiction.
Qed.

Lemma broadcasts_each args out x : broadcasts args out -> In x args -> broadcasts [x; out] out.
Proof.
  intros (A & _ & B) Hx. split; [intros s [<-|[<-|[]]]; auto|]. split; [exists out; simpl; auto|].
  intros k d E. split; [exists out; simpl; auto|]. intros s e [<-|[<-|[]]] He; [|right; congruence].
  destruct (B k d E) as [_ G]. eauto.
Qed.

(** ** Ranks and coordinates *)

Lemma to_fcoords_ok lim : Forall (fun d => 0 <= d) lim -> forall k s, 0 <= k < product lim ->
  exists c, to_fcoords k lim = Ok c /\ inside lim c /\ dot c (strides_walk lim s) = k * s.
Proof.
  induction 1 as [|n lim Hn F IH]; intros k s Hk.
  - change (product []) with 1 in Hk. exists []. split; [reflexivity|]. split; [constructor|]. replace k with 0 by lia. reflexivity.
  - rewrite product_cons in Hk. pose proof (product_nonneg _ F) as Hp.
    assert (n <> 0) by (intros ->; lia). cbn [to_fcoords]. destruct (Z.eqb_spec n 0); [lia|].
    pose proof (Z.div_mod k n ltac:(lia)) as E. pose proof (Z.mod_pos_bound k n ltac:(lia)) as B.
    destruct (IH (k / n) (s * n)) as (c & Ec & Hc & Hd).
    { split; [apply Z.div_pos; lia|]. apply Z.div_lt_upper_bound; lia. }
    rewrite Ec. cbn [bind]. eexists. split; [reflexivity|]. split; [constructor; assumption|].
    cbn [dot strides_walk]. rewrite Hd. rewrite E at 3. ring.
Qed.

Lemma index_to_coords_ok sh k : Forall (fun d => 0 <= d) sh -> 0 <= k < product sh ->
  exists c, index_to_coords k sh = Ok c /\ nth_error (grid sh) (Z.to_nat k) = Some c.
Proof.
  intros F Hk. unfold index_to_coords.
  destruct (to_fcoords_ok (rev sh) (Forall_rev F) k 1) as (c & E & Hc & Hd); [now rewrite product_rev|].
  rewrite E. cbn [bind]. exists (rev c). split; [reflexivity|].
  destruct (nth_error (grid sh) (Z.to_nat k)) as [d|] eqn:En.
  - f_equal. pose proof (offs_mk sh 1 0 F) as M. unfold offs, line in M.
    assert (E1 : nth_error (map (fun c => 0 + dot c (mk_strides sh false 1)) (grid sh)) (Z.to_nat k) = Some (0 + dot d (mk_strides sh false 1)))
      by (now rewrite nth_error_map, En).
    rewrite M, nth_error_map in E1. unfold zrange in E1. rewrite nth_error_map in E1.
    assert (E2 : nth_error (seq 0 (Z.to_nat (product sh))) (Z.to_nat k) = Some (Z.to_nat k)).
    { assert (Hlt : (Z.to_nat k < Z.to_nat (product sh))%nat) by lia.
      rewrite (nth_error_nth' _ O) by (rewrite seq_length; lia). rewrite seq_nth by lia. reflexivity. }
    rewrite E2 in E1. simpl in E1. injection E1 as E1. rewrite Z2Nat.id in E1 by lia.
    apply (mk_inj sh false 1 d (rev c) F); [lia|apply grid_in; now apply nth_error_In in En|now apply inside_rev_iff|].
    unfold mk_strides in *. apply inside_length in Hc.
    rewrite <- (rev_involutive (strides_walk (rev sh) 1)) in Hd.
    rewrite <- (rev_involutive c) in Hd.
    rewrite dot_rev in Hd by (rewrite !rev_length, walk_length; congruence). lia.
  - apply nth_error_None in En. pose proof (grid_length sh F). lia.
Qed.

Section Iter.
Context {V : Type}.
Local Notation heap := (heap V).

Lemma ptr_bcast_pick (x : nd) c : wf x -> (ndim x <= length c)%nat -> ptr_bcast x c = ptr x (pick (shape x) c).
Proof.
  intros [L _ _] Hc. unfold ptr_bcast, ptr, pick, ndim in *. f_equal. f_equal.
  assert (Lc : length (skipn (length c - length (shape x)) c) = length (shape x)) by (rewrite skipn_length; lia).
  revert Lc. generalize (skipn (length c - length (shape x)) c) as d. clear Hc. revert L. generalize (strides x) as st. generalize (shape x) as sh.
  induction sh as [|n sh IH]; intros [|s st] L [|i d] Ld; simpl in *; try discriminate; [reflexivity|].
  rewrite IH by lia. destruct (n =? 1); lia.
Qed.

Lemma biter_ok (h : heap) l sh n : Forall (fun d => 0 <= d) sh -> forall k fuel, 0 <= k -> product sh - k = Z.of_nat n ->
  (n < fuel)%nat ->
  biter fuel h l sh k = Ok (map (fun c => map (fun a => load h (ptr_bcast a c)) l) (skipn (Z.to_nat k) (grid sh))).
Proof.
  intros F. pose proof (grid_length sh F) as GL. induction n as [|n IH]; intros k [|fuel] Hk E Hf; try lia.
  - cbn [biter]. rewrite count_product. destruct (Z.ltb_spec k (product sh)); [lia|].
    rewrite skipn_all2 by lia. reflexivity.
  - cbn [biter]. rewrite count_product. destruct (Z.ltb_spec k (product sh)); [|lia].
    destruct (index_to_coords_ok sh k F ltac:(lia)) as (c & Ec & En). rewrite Ec. cbn [bind].
    rewrite (IH (k + 1) fuel) by lia. cbn [bind]. f_equal.
    replace (Z.to_nat (k + 1)) with (S (Z.to_nat k)) by lia.
    assert (S : skipn (Z.to_nat k) (grid sh) = c :: skipn (S (Z.to_nat k)) (grid sh)).
    { clear - En. revert En. generalize (Z.to_nat k) as m. induction (grid sh) as [|x l' IHl]; intros [|m] E; simpl in *; try discriminate; [congruence|].
      now apply IHl. }
    rewrite S. reflexivity.
Qed.

(** ** Sequences of element assignments *)

(** One step: write to the first cell a function of what is read from the others. *)
Definition steps (f : list V -> V) (h : heap) (l : list ((nat * Z) * list (nat * Z))) : heap :=
  fold_left (fun h s => store h (fst s) (f (map (load h) (snd s)))) l h.

Lemma steps_cons f h s l : steps f h (s :: l) = steps f (store h (fst s) (f (map (load h) (snd s)))) l.
Proof. reflexivity. Qed.

Lemma steps_next f h l : next (steps f h l) = next h.
Proof. revert h. induction l as [|s l IH]; intros h; [reflexivity|]. now rewrite steps_cons, IH. Qed.

Lemma steps_other f h l p : ~ In p (map fst l) -> load (steps f h l) p = load h p.
Proof.
  revert h. induction l as [|s l IH]; intros h H; [reflexivity|]. simpl in H.
  rewrite steps_cons, IH by tauto. apply load_store_other. intuition.
Qed.

Lemma steps_in f h l s : NoDup (map fst l) ->
  (forall s t, In s l -> In t l -> In (fst s) (snd t) -> s = t) ->
  In s l -> load (steps f h l) (fst s) = f (map (load h) (snd s)).
Proof.
  revert h. induction l as [|t l IH]; intros h N D Hs; [contradiction|].
  simpl in N. inversion N as [|? ? N1 N2]; subst. rewrite steps_cons.
  destruct Hs as [->|Hs].
  - rewrite steps_other by assumption. apply load_store_same.
  - rewrite IH; [|assumption|intros; apply D; simpl; auto|assumption]. f_equal. apply map_ext_in. intros p Hp.
    apply load_store_other. intros ->. assert (t = s) by (apply D; simpl; auto). subst.
    apply N1. now apply in_map.
Qed.

(** All copies and fills are such sequences. *)
Lemma copy_elems_steps v (h : heap) x a cs :
  copy_elems h x a cs = steps (hd v) h (map (fun c => (ptr x c, [ptr a c])) cs).
Proof.
  revert h. induction cs as [|c cs IH]; intros h; [reflexivity|]. cbn [copy_elems map steps fold_left].
  rewrite IH. reflexivity.
Qed.

Lemma zrange_nat n : zrange (Z.of_nat n) = map Z.of_nat (seq 0 n).
Proof. unfold zrange. now rewrite Nat2Z.id. Qed.

Lemma copy_range_steps v (h : heap) x a n :
  copy_range h x a n = steps (hd v) h
    (map (fun k => ((blk x, base x + k * isz x), [(blk a, base a + k * isz a)])) (zrange (Z.of_nat n))).
Proof.
  rewrite zrange_nat. induction n as [|n IH]; [reflexivity|].
  rewrite seq_S, !map_app. unfold steps. rewrite fold_left_app. fold (steps (hd v) h). cbn [copy_range].
  rewrite IH. reflexivity.
Qed.

Lemma fill_steps v (h : heap) (a : nd) cs :
  fold_left (fun h c => store h (ptr a c) v) cs h = steps (fun _ => v) h (map (fun c => (ptr a c, [])) cs).
Proof. revert h. induction cs as [|c cs IH]; intros h; [reflexivity|]. simpl. apply IH. Qed.

Lemma fill_range_steps v (h : heap) b o i n :
  fill_range h b o i n v = steps (fun _ => v) h (map (fun k => ((b, o + k * i), [])) (zrange (Z.of_nat n))).
Proof.
  rewrite zrange_nat. induction n as [|n IH]; [reflexivity|].
  rewrite seq_S, !map_app. unfold steps. rewrite fold_left_app. fold (steps (fun _ => v) h). cbn [fill_range].
  rewrite IH. reflexivity.
Qed.

(** Writing the same value everywhere. *)
Lemma steps_const v (h : heap) l p : In p (map fst l) -> load (steps (fun _ => v) h l) p = v.
Proof.
  revert h. induction l as [|s l IH]; intros h H; [contradiction|]. rewrite steps_cons.
  destruct (in_dec (fun x y : nat * Z => ltac:(decide equality; [apply Z.eq_dec|apply Nat.eq_dec])) p (map fst l)) as [I|I]; [auto|].
  rewrite steps_other by assumption. destruct H as [<-|H]; [apply load_store_same|contradiction].
Qed.

(** The cells of an array. *)
Definition cells (a : nd) (p : nat * Z) : Prop := exists c, inside (shape a) c /\ p = ptr a c.

Lemma contig_lines a : wf a -> is_contig a = true -> exists o,
  map (fun c => base a + dot c (strides a)) (ogrid o (shape a)) = line (product (shape a)) (isz a) (base a).
Proof.
  intros W C. unfold is_contig in C. destruct (contig a) as [cc fc] eqn:E. destruct cc.
  - exists OC. apply contig_c; [assumption|now rewrite E].
  - exists OF. simpl in C. subst. apply contig_f; [assumption|now rewrite E].
Qed.

Lemma ptr_line o a : map (fun c => base a + dot c (strides a)) (ogrid o (shape a)) = line (product (shape a)) (isz a) (base a) ->
  map (ptr a) (ogrid o (shape a)) = map (fun k => (blk a, base a + k * isz a)) (zrange (product (shape a))).
Proof.
  intros H. apply (f_equal (map (pair (blk a)))) in H. unfold line in H. rewrite !map_map in H. exact H.
Qed.

Theorem assign_one_ok (h : heap) a v : wf a ->
  next (assign_one h a v) = next h /\
  (forall p, cells a p -> load (assign_one h a v) p = v) /\
  (forall p, ~ cells a p -> load (assign_one h a v) p = load h p).
Proof.
  intros W. pose proof W as [L F P].
  assert (X : exists l, assign_one h a v = steps (fun _ => v) h l /\ forall p, In p (map fst l) <-> cells a p).
  { unfold assign_one. destruct (shape a) as [|n sh] eqn:Es.
    - exists [((blk a, base a), [])]. split; [reflexivity|]. intros p. simpl. unfold cells. rewrite Es. split.
      + intros [<-|[]]. exists []. split; [constructor|]. unfold ptr. simpl. f_equal. lia.
      + intros (c & Hc & ->). inversion Hc. left. unfold ptr. simpl. f_equal. lia.
    - rewrite <- Es in *. destruct (is_contig a) eqn:C.
      + rewrite fill_range_steps. eexists. split; [reflexivity|]. intros p.
        destruct (contig_lines a W C) as [o H]. apply ptr_line in H.
        rewrite map_map, count_product. cbn [fst]. rewrite Z2Nat.id by (now apply product_nonneg). rewrite <- H.
        rewrite in_map_iff. unfold cells. split; intros (c & H1 & H2); exists c; [apply ogrid_in in H2|]; split; auto.
        now apply ogrid_in.
      + rewrite fill_steps, multirange_grid. eexists. split; [reflexivity|]. intros p. rewrite map_map. cbn [fst].
        rewrite in_map_iff. unfold cells. split; intros (c & H1 & H2); exists c; [apply grid_in in H2|]; split; auto.
        now apply grid_in. }
  destruct X as (l & -> & X). split; [apply steps_next|]. split; intros p Hp.
  - apply steps_const. now apply X.
  - apply steps_other. now rewrite X.
Qed.

(** Copying [b]'s elements into [x], whichever of the two loops is taken. *)
Theorem copy_into_ok (h : heap) x b : wf x -> wf b -> shape b = shape x ->
  (forall c d, inside (shape x) c -> inside (shape x) d -> ptr x c = ptr x d -> c = d) ->
  (forall c d, inside (shape x) c -> inside (shape x) d -> ptr x c = ptr b d -> c = d) ->
  let h' := if contig_match x b then copy_range h x b (Z.to_nat (size b))
            else copy_elems h x b (multirange (shape x)) in
  next h' = next h /\
  (forall c, inside (shape x) c -> load h' (ptr x c) = load h (ptr b c)) /\
  (forall p, ~ cells x p -> load h' p = load h p).
Proof.
  intros Wx Wb S I D. pose proof Wx as [Lx Fx Px]. cbv zeta. set (v := load h (0%nat, 0)).
  assert (X : exists o, (if contig_match x b then copy_range h x b (Z.to_nat (size b))
            else copy_elems h x b (multirange (shape x))) =
            steps (hd v) h (map (fun c => (ptr x c, [ptr b c])) (ogrid o (shape x)))).
  { destruct (contig_match x b) eqn:C.
    - rewrite (copy_range_steps v). unfold contig_match in C.
      destruct (negb (ndim x =? ndim b)%nat); [discriminate|].
      destruct (negb (list_eqb (shape x) (shape b))); [discriminate|].
      assert (Y : exists o, map (ptr x) (ogrid o (shape x)) = map (fun k => (blk x, base x + k * isz x)) (zrange (product (shape x))) /\
                           map (ptr b) (ogrid o (shape x)) = map (fun k => (blk b, base b + k * isz b)) (zrange (product (shape x)))).
      { destruct (contig x) as [c1 f1] eqn:E1, (contig b) as [c2 f2] eqn:E2.
        apply orb_true_iff in C. destruct C as [C|C]; apply andb_true_iff in C; destruct C as [-> ->].
        - exists OC. split; [|rewrite <- S]; apply ptr_line.
          + apply (contig_c x Wx). now rewrite E1.
          + apply (contig_c b Wb). now rewrite E2.
        - exists OF. split; [|rewrite <- S]; apply ptr_line.
          + apply (contig_f x Wx). now rewrite E1.
          + apply (contig_f b Wb). now rewrite E2. }
      destruct Y as (o & Y1 & Y2). exists o. f_equal.
      unfold size. rewrite count_product, S, Z2Nat.id by (now apply product_nonneg).
      revert Y1 Y2. generalize (zrange (product (shape x))) as ks. generalize (ogrid o (shape x)) as cs.
      induction cs as [|c cs IH]; intros [|k ks] Y1 Y2; simpl in *; try discriminate; [reflexivity|].
      injection Y1 as Y1 Y1'. injection Y2 as Y2 Y2'. rewrite IH by assumption.
      unfold ptr in *. rewrite <- Y1, <- Y2. reflexivity.
    - exists OC. rewrite (copy_elems_steps v), multirange_grid. reflexivity. }
  destruct X as [o ->]. split; [apply steps_next|]. split.
  - intros c Hc. change (ptr x c) with (fst (ptr x c, [ptr b c])). rewrite steps_in; [reflexivity| | |].
    + rewrite map_map. cbn [fst].
      assert (G : forall l, (forall c, In c l -> inside (shape x) c) -> NoDup l -> NoDup (map (ptr x) l)).
      { induction l as [|d l IH]; intros HI N; simpl; constructor; inversion N; subst.
        - intros E. apply in_map_iff in E. destruct E as (e & E & He). apply I in E; [subst; contradiction| |]; apply HI; simpl; auto.
        - apply IH; [|assumption]. intros. apply HI. simpl. auto. }
      apply G; [intros d; apply ogrid_in|apply ogrid_nodup].
    + intros s t Hs Ht Hi. apply in_map_iff in Hs, Ht. destruct Hs as (d & <- & Hd), Ht as (e & <- & He).
      apply ogrid_in in Hd, He. destruct Hi as [Hi|[]]. cbn [fst] in Hi. symmetry in Hi. apply D in Hi; [subst; reflexivity|assumption|assumption].
    + apply in_map_iff. exists c. split; [reflexivity|]. now apply ogrid_in.
  - intros p Hp. apply steps_other. rewrite map_map. cbn [fst]. intros E. apply in_map_iff in E.
    destruct E as (d & <- & Hd). apply Hp. exists d. split; [now apply ogrid_in in Hd|reflexivity].
Qed.

End Iter.
