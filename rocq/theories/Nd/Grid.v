(** Coordinates, offsets, and the list of offsets an array visits. *)
From Coq Require Import List ZArith Lia Bool Permutation.
From Verif.Common Require Import Result Int64.
From Verif.Nd Require Import Spec Model.
Import ListNotations.
Local Open Scope Z_scope.

Lemma zrange_in n i : In i (zrange n) <-> 0 <= i < n.
Proof.
  unfold zrange. rewrite in_map_iff. split.
  - intros (k & <- & H). apply in_seq in H. lia.
  - intros H. exists (Z.to_nat i). rewrite in_seq. lia.
Qed.

Lemma zrange_nodup n : NoDup (zrange n).
Proof.
  unfold zrange. apply FinFun.Injective_map_NoDup; [|apply seq_NoDup].
  intros x y H. lia.
Qed.

Lemma zrange_nil n : n <= 0 -> zrange n = [].
Proof. intros H. unfold zrange. now replace (Z.to_nat n) with O by lia. Qed.

Lemma zrange_length n : length (zrange n) = Z.to_nat n.
Proof. unfold zrange. now rewrite map_length, seq_length. Qed.

Lemma zrange_1 : zrange 1 = [0].
Proof. reflexivity. Qed.

Lemma zrange_snoc n : 0 <= n -> zrange (n + 1) = zrange n ++ [n].
Proof.
  intros H. unfold zrange. replace (Z.to_nat (n + 1)) with (Z.to_nat n + 1)%nat by lia.
  rewrite seq_app, map_app. simpl. now rewrite Z2Nat.id.
Qed.

Lemma zrange_cons n : 0 < n -> zrange n = 0 :: map (Z.add 1) (zrange (n - 1)).
Proof.
  intros H. unfold zrange. replace (Z.to_nat n) with (S (Z.to_nat (n - 1))) by lia.
  simpl. f_equal. rewrite <- seq_shift, !map_map. apply map_ext. intros. lia.
Qed.

Lemma zrange_app m n : 0 <= m -> 0 <= n -> zrange (m + n) = zrange m ++ map (Z.add m) (zrange n).
Proof.
  intros Hm Hn. unfold zrange. rewrite Z2Nat.inj_add, seq_app, map_app by lia. f_equal.
  simpl. rewrite map_map. replace (Z.to_nat m) with (Z.to_nat m + 0)%nat at 1 by lia.
  generalize 0%nat as s. induction (Z.to_nat n); intros s; [reflexivity|].
  simpl. f_equal; [lia|]. rewrite <- IHn0. f_equal. f_equal. lia.
Qed.

(** Two nested ranges are one. *)
Lemma zrange_mul m n : 0 <= m -> 0 <= n ->
  zrange (m * n) = flat_map (fun i => map (fun j => i * n + j) (zrange n)) (zrange m).
Proof.
  intros Hm Hn. pattern m. apply natlike_ind; [reflexivity| |assumption].
  intros x Hx IH. replace (Z.succ x * n) with (x * n + n) by lia.
  rewrite zrange_app by nia. unfold Z.succ. rewrite zrange_snoc, flat_map_app, IH by lia.
  simpl. now rewrite app_nil_r.
Qed.

Lemma flat_map_map {A B C} (f : B -> list C) (g : A -> B) l :
  flat_map f (map g l) = flat_map (fun x => f (g x)) l.
Proof. induction l; simpl; congruence. Qed.

Lemma map_flat_map {A B C} (f : B -> C) (g : A -> list B) l :
  map f (flat_map g l) = flat_map (fun x => map f (g x)) l.
Proof. induction l; simpl; [reflexivity|]. now rewrite map_app, IHl. Qed.

Lemma flat_map_flat_map {A B C} (f : B -> list C) (g : A -> list B) l :
  flat_map f (flat_map g l) = flat_map (fun x => flat_map f (g x)) l.
Proof. induction l; simpl; [reflexivity|]. now rewrite flat_map_app, IHl. Qed.

Lemma flat_map_ext_in {A B} (f g : A -> list B) l :
  (forall x, In x l -> f x = g x) -> flat_map f l = flat_map g l.
Proof.
  induction l; simpl; intros H; [reflexivity|]. rewrite H by auto.
  rewrite IHl; [reflexivity|]. intros. apply H. auto.
Qed.

Lemma flat_map_single {A B} (f : A -> B) l : flat_map (fun x => [f x]) l = map f l.
Proof. induction l; simpl; congruence. Qed.

(** ** The grid *)

Lemma multirange_grid sh : multirange sh = grid sh.
Proof. induction sh; simpl; [reflexivity|]. now rewrite IHsh. Qed.

Lemma grid_in sh c : In c (grid sh) <-> inside sh c.
Proof.
  revert c. induction sh as [|n sh IH]; intros c; simpl.
  - split; [intros [<-|[]]; constructor|]. intros H. inversion H. auto.
  - rewrite in_flat_map. split.
    + intros (i & Hi & H). apply in_map_iff in H. destruct H as (c' & <- & H).
      apply zrange_in in Hi. constructor; [assumption|now apply IH].
    + intros H. inversion H as [|? i ? c' Hi Hc]; subst. exists i.
      split; [now apply zrange_in|]. apply in_map. now apply IH.
Qed.

Lemma NoDup_flat_map {A B} (f : A -> list B) l :
  NoDup l -> (forall x, In x l -> NoDup (f x)) ->
  (forall x y z, In x l -> In y l -> In z (f x) -> In z (f y) -> x = y) ->
  NoDup (flat_map f l).
Proof.
  induction l as [|a l IH]; intros N F D; simpl; [constructor|].
  inversion N; subst.
  assert (NoDup (flat_map f l)).
  { apply IH; [assumption| |]; intros; [apply F|eapply D]; simpl; eauto. }
  assert (NoDup (f a)) by (apply F; simpl; auto).
  assert (X : forall z, In z (f a) -> ~ In z (flat_map f l)).
  { intros z Hz Hz2. apply in_flat_map in Hz2. destruct Hz2 as (y & Hy & Hz2).
    assert (a = y) by (eapply D; simpl; eauto). subst. contradiction. }
  revert X. induction H0 as [|z r Hz Hr IHr]; intros X; simpl; [assumption|].
  constructor.
  - rewrite in_app_iff. intros [|C]; [contradiction|]. apply (X z); simpl; auto.
  - apply IHr. intros. apply X. simpl. auto.
Qed.

Lemma grid_nodup sh : NoDup (grid sh).
Proof.
  induction sh as [|n sh IH]; simpl; [repeat constructor; auto|].
  apply NoDup_flat_map; [apply zrange_nodup| |].
  - intros i _. apply FinFun.Injective_map_NoDup; [|assumption]. intros x y E. congruence.
  - intros x y z _ _ H1 H2. apply in_map_iff in H1, H2.
    destruct H1 as (? & <- & _), H2 as (? & E & _). congruence.
Qed.

Lemma inside_length sh c : inside sh c -> length c = length sh.
Proof. induction 1; simpl; congruence. Qed.

Lemma inside_rev sh c : inside sh c -> inside (rev sh) (rev c).
Proof.
  induction 1; simpl; [constructor|]. apply Forall2_app; [assumption|]. now repeat constructor.
Qed.

Lemma inside_rev_iff sh c : inside (rev sh) c <-> inside sh (rev c).
Proof.
  split; intros H; apply inside_rev in H; now rewrite rev_involutive in H.
Qed.

Lemma fgrid_in sh c : In c (fgrid sh) <-> inside sh c.
Proof.
  unfold fgrid. rewrite in_map_iff. split.
  - intros (d & <- & H). apply grid_in in H. now apply inside_rev_iff.
  - intros H. exists (rev c). rewrite rev_involutive. split; [reflexivity|].
    apply grid_in. apply inside_rev_iff. now rewrite rev_involutive.
Qed.

Lemma fgrid_nodup sh : NoDup (fgrid sh).
Proof.
  unfold fgrid. apply FinFun.Injective_map_NoDup; [|apply grid_nodup].
  intros x y E. rewrite <- (rev_involutive x), <- (rev_involutive y). now rewrite E.
Qed.

(** The order of the enumeration: [grid] is lexicographic, [fgrid] lexicographic from
    the last axis. *)
Lemma ogrid_in o sh c : In c (ogrid o sh) <-> inside sh c.
Proof. destruct o; [apply grid_in|apply fgrid_in]. Qed.

Lemma ogrid_nodup o sh : NoDup (ogrid o sh).
Proof. destruct o; [apply grid_nodup|apply fgrid_nodup]. Qed.

Lemma grid_app s1 s2 :
  grid (s1 ++ s2) = flat_map (fun c => map (app c) (grid s2)) (grid s1).
Proof.
  induction s1 as [|n s1 IH]; simpl; [now rewrite app_nil_r, map_id|].
  rewrite flat_map_flat_map. apply flat_map_ext. intros i.
  rewrite IH, map_flat_map, flat_map_map. apply flat_map_ext. intros c.
  now rewrite map_map.
Qed.

Lemma fnest_fgrid sh : fnest sh = fgrid sh.
Proof.
  unfold fgrid. induction sh as [|n sh IH]; simpl; [reflexivity|].
  rewrite IH, grid_app, map_flat_map, flat_map_map. apply flat_map_ext. intros c.
  simpl. rewrite flat_map_single with (f := fun i => [i]), !map_map.
  apply map_ext. intros i. now rewrite rev_app_distr.
Qed.

Lemma fmultirange_fgrid sh : (length sh <= 6)%nat -> fmultirange sh = fgrid sh.
Proof.
  intros H. unfold fmultirange. replace (length sh - 6)%nat with O by lia. apply fnest_fgrid.
Qed.

Lemma grid_length sh : Forall (fun d => 0 <= d) sh ->
  Z.of_nat (length (grid sh)) = product sh.
Proof.
  induction 1 as [|n sh Hn _ IH]; simpl; [reflexivity|]. rewrite <- IH.
  rewrite <- (zrange_length n) at 1 || idtac.
  assert (forall l : list Z, Z.of_nat (length (flat_map (fun i => map (cons i) (grid sh)) l))
     = Z.of_nat (length l) * Z.of_nat (length (grid sh))) as E.
  { induction l; simpl length; [reflexivity|]. rewrite app_length, map_length. lia. }
  rewrite E, zrange_length. lia.
Qed.

(** ** Offsets *)

Lemma dot_nil_r c : dot c [] = 0.
Proof. now destruct c. Qed.

Lemma dot_app c1 s1 c2 s2 : length c1 = length s1 ->
  dot (c1 ++ c2) (s1 ++ s2) = dot c1 s1 + dot c2 s2.
Proof.
  revert s1. induction c1; intros [|x s1] H; simpl in *; try discriminate; [lia|].
  rewrite IHc1 by lia. lia.
Qed.

Lemma dot_rev c s : length c = length s -> dot (rev c) (rev s) = dot c s.
Proof.
  revert s. induction c; intros [|x s] H; simpl in *; try discriminate; [reflexivity|].
  rewrite dot_app by (rewrite !rev_length; lia). simpl. rewrite IHc by lia. lia.
Qed.

(** The offsets of all elements in order 'C'. *)
Definition offs (sh st : list Z) (o : Z) : list Z := map (fun c => o + dot c st) (grid sh).

Lemma offs_nil st o : offs [] st o = [o].
Proof. unfold offs. simpl. f_equal. lia. Qed.

Lemma offs_cons n sh s st o :
  offs (n :: sh) (s :: st) o = flat_map (fun i => offs sh st (o + i * s)) (zrange n).
Proof.
  unfold offs. simpl. rewrite map_flat_map. apply flat_map_ext. intros i.
  rewrite map_map. apply map_ext. intros c. simpl. lia.
Qed.

Lemma offs_app s1 t1 s2 t2 o : length s1 = length t1 ->
  offs (s1 ++ s2) (t1 ++ t2) o = flat_map (offs s2 t2) (offs s1 t1 o).
Proof.
  revert t1 o. induction s1 as [|n s1 IH]; intros [|t t1] o H; simpl in H; try discriminate.
  - rewrite offs_nil. simpl. now rewrite app_nil_r.
  - simpl app. rewrite !offs_cons, flat_map_flat_map. apply flat_map_ext. intros i.
    apply IH. lia.
Qed.

(** The offsets in order 'F' are those of the reversed axes in order 'C'. *)
Definition foffs (sh st : list Z) (o : Z) : list Z := map (fun c => o + dot c st) (fgrid sh).

Lemma foffs_rev sh st o : length sh = length st -> foffs sh st o = offs (rev sh) (rev st) o.
Proof.
  intros H. unfold foffs, offs, fgrid. rewrite map_map. apply map_ext_in. intros c Hc.
  apply grid_in in Hc. apply inside_length in Hc. rewrite rev_length in Hc.
  f_equal. rewrite <- dot_rev, rev_involutive by (rewrite rev_length; lia). reflexivity.
Qed.


(** Axes of extent 1 do not matter. *)
Lemma offs_drop1 l o :
  offs (map fst l) (map snd l) o =
  offs (map fst (filter (fun d => negb (fst d =? 1)) l))
       (map snd (filter (fun d : Z * Z => negb (fst d =? 1)) l)) o.
Proof.
  revert o. induction l as [|[n s] l IH]; intros o; simpl; [reflexivity|].
  destruct (Z.eqb_spec n 1) as [->|Hn]; simpl.
  - rewrite offs_cons. simpl. rewrite app_nil_r, IH. f_equal. lia.
  - rewrite !offs_cons. apply flat_map_ext. intros i. apply IH.
Qed.

Lemma offs_empty sh st o : In 0 sh -> offs sh st o = [].
Proof.
  intros H. unfold offs. enough (grid sh = []) as -> by reflexivity.
  induction sh as [|n sh IH]; simpl in *; [contradiction|].
  destruct H as [->|H]; [reflexivity|]. rewrite IH by assumption.
  induction (zrange n); simpl; auto.
Qed.

(** One axis of [n] steps of [s]. *)
Definition line (n s o : Z) : list Z := map (fun i => o + i * s) (zrange n).

Lemma offs_line n s o : offs [n] [s] o = line n s o.
Proof.
  rewrite offs_cons. unfold line. rewrite flat_map_ext with (g := fun i => [o + i * s]).
  - apply flat_map_single.
  - intros. apply offs_nil.
Qed.

Lemma line_line m n s o : 0 <= m -> 0 <= n ->
  flat_map (line n s) (line m (n * s) o) = line (m * n) s o.
Proof.
  intros Hm Hn. unfold line. rewrite zrange_mul, flat_map_map, map_flat_map by assumption.
  apply flat_map_ext. intros i. rewrite map_map. apply map_ext. intros j. lia.
Qed.

Lemma line_nodup n s o : s <> 0 -> NoDup (line n s o).
Proof.
  intros H. apply FinFun.Injective_map_NoDup; [|apply zrange_nodup]. intros x y E. nia.
Qed.

Lemma product_nonneg sh : Forall (fun d => 0 <= d) sh -> 0 <= product sh.
Proof. induction 1; simpl; nia. Qed.

Lemma product_cons n sh : product (n :: sh) = n * product sh.
Proof. reflexivity. Qed.

Lemma product_app s1 s2 : product (s1 ++ s2) = product s1 * product s2.
Proof.
  induction s1; simpl app; [change (product []) with 1; lia|].
  rewrite !product_cons, IHs1. lia.
Qed.

Lemma product_rev sh : product (rev sh) = product sh.
Proof.
  induction sh; simpl rev; [reflexivity|]. rewrite product_app, IHsh, !product_cons.
  change (product []) with 1. lia.
Qed.

Lemma count_product sh : count sh = product sh.
Proof.
  unfold count. assert (forall k, fold_left Z.mul sh k = k * product sh) as ->; [|lia].
  induction sh; intros k; simpl; [lia|]. rewrite IHsh. unfold product. lia.
Qed.

(** Strides multiplied up from the last axis give one line. *)
Lemma offs_walk sh s o : Forall (fun d => 0 <= d) sh ->
  offs (rev sh) (rev (strides_walk sh s)) o = line (product sh) s o.
Proof.
  intros H. revert s o. induction H as [|n sh Hn H IH]; intros s o.
  - simpl. rewrite offs_nil. unfold line. simpl. f_equal. lia.
  - simpl rev. rewrite offs_app.
    2:{ rewrite !rev_length. generalize (s * n) as t. clear.
        induction sh; intros; simpl; [reflexivity|now rewrite <- IHsh]. }
    rewrite IH. rewrite flat_map_ext with (g := line n s) by (intros; apply offs_line).
    rewrite (Z.mul_comm s n), line_line by (auto using product_nonneg).
    simpl. f_equal. unfold product. lia.
Qed.

Lemma walk_length sh s : length (strides_walk sh s) = length sh.
Proof. revert s. induction sh; intros; simpl; auto. Qed.

Lemma mk_strides_length sh f i : length (mk_strides sh f i) = length sh.
Proof. unfold mk_strides. destruct f; rewrite ?rev_length, walk_length, ?rev_length; auto. Qed.

Lemma offs_mk sh i o : Forall (fun d => 0 <= d) sh ->
  offs sh (mk_strides sh false i) o = line (product sh) i o.
Proof.
  intros H. unfold mk_strides. rewrite <- (rev_involutive sh) at 1.
  rewrite offs_walk, product_rev; [reflexivity|]. now apply Forall_rev.
Qed.

Lemma foffs_mk sh i o : Forall (fun d => 0 <= d) sh ->
  foffs sh (mk_strides sh true i) o = line (product sh) i o.
Proof.
  intros H. rewrite foffs_rev by (now rewrite mk_strides_length).
  unfold mk_strides. now apply offs_walk.
Qed.

Lemma strides_walk_spread sh s : strides_walk sh s = spread_walk sh s.
Proof. revert s. induction sh; intros; simpl; congruence. Qed.

(** ** Contiguity *)

Lemma walk_none l sd : contig_walk l sd = None -> In 0 (map fst l).
Proof.
  revert sd. induction l as [|[n s] l IH]; intros sd; simpl; [discriminate|].
  destruct (Z.eqb_spec n 0); [auto|]. destruct (n =? 1); [intros; right; eauto|].
  destruct (contig_walk l (sd * n)) eqn:E; [discriminate|]. intros _. right. eauto.
Qed.

Lemma walk_some l sd b : contig_walk l sd = Some b -> ~ In 0 (map fst l).
Proof.
  revert sd b. induction l as [|[n s] l IH]; intros sd b; simpl; [auto|].
  destruct (Z.eqb_spec n 0); [discriminate|]. destruct (n =? 1).
  - intros H [C|C]; [contradiction|]. eapply IH; eauto.
  - destruct (contig_walk l (sd * n)) eqn:E; [|discriminate].
    intros _ [C|C]; [contradiction|]. eapply IH; eauto.
Qed.

(** If the walk says yes, the axes of extent other than 1 have multiplied-up strides. *)
Lemma walk_true l sd : contig_walk l sd = Some true ->
  map snd (filter (fun d => negb (fst d =? 1)) l) =
  strides_walk (map fst (filter (fun d => negb (fst d =? 1)) l)) sd.
Proof.
  revert sd. induction l as [|[n s] l IH]; intros sd; simpl; [reflexivity|].
  destruct (Z.eqb_spec n 0); [discriminate|]. destruct (n =? 1) eqn:E1; simpl; [apply IH|].
  destruct (contig_walk l (sd * n)) eqn:E; [|discriminate]. intros H. injection H as H.
  apply andb_true_iff in H. destruct H as [H ->]. apply Z.eqb_eq in H. subst.
  simpl. f_equal. now apply IH.
Qed.

Lemma filter_rev {A} (f : A -> bool) l : filter f (rev l) = rev (filter f l).
Proof.
  induction l as [|x l IH]; simpl; [reflexivity|]. rewrite filter_app, IH. simpl.
  destruct (f x); simpl; [reflexivity|now rewrite app_nil_r].
Qed.

Lemma combine_fst {A B} (x : list A) (y : list B) : length x = length y -> map fst (combine x y) = x.
Proof. revert y. induction x; intros [|b y] H; simpl in *; try discriminate; f_equal; auto. Qed.

Lemma combine_snd {A B} (x : list A) (y : list B) : length x = length y -> map snd (combine x y) = y.
Proof. revert y. induction x; intros [|b y] H; simpl in *; try discriminate; f_equal; auto. Qed.

Lemma combine_rev {A B} (x : list A) (y : list B) : length x = length y ->
  rev (combine x y) = combine (rev x) (rev y).
Proof.
  revert y. induction x as [|a x IH]; intros [|b y] H; simpl in *; try discriminate; [reflexivity|].
  rewrite IH by lia. assert (E : length (rev x) = length (rev y)) by (rewrite !rev_length; lia).
  revert E. generalize (rev x), (rev y). induction l; intros [|c l'] E; simpl in *; try discriminate;
    [reflexivity|]. f_equal. auto.
Qed.

Lemma product_drop1 (l : list (Z * Z)) :
  product (map fst (filter (fun d => negb (fst d =? 1)) l)) = product (map fst l).
Proof.
  induction l as [|[n s] l IH]; simpl; [reflexivity|].
  destruct (Z.eqb_spec n 1); simpl; unfold product in *; simpl; lia.
Qed.

Lemma walk_line l i o : contig_walk l i = Some true -> Forall (fun d => 0 <= d) (map fst l) ->
  offs (rev (map fst l)) (rev (map snd l)) o = line (product (map fst l)) i o.
Proof.
  intros H F. rewrite <- !map_rev, offs_drop1, filter_rev, !map_rev, (walk_true _ _ H), offs_walk.
  - now rewrite product_drop1.
  - clear H. induction l as [|[n s] l IH]; simpl in *; [constructor|].
    inversion F; subst. destruct (n =? 1); simpl; auto.
Qed.

(** A shape and strides that belong together. *)
Record wf (a : nd) : Prop := {
  wf_len : length (strides a) = length (shape a);
  wf_dims : Forall (fun d => 0 <= d) (shape a);
  wf_isz : 0 < isz a }.

Lemma rev_map_fst_combine (a : nd) : wf a -> rev (map fst (rev (combine (shape a) (strides a)))) = shape a.
Proof. intros [L _ _]. rewrite map_rev, rev_involutive. now apply combine_fst. Qed.

Lemma line_empty n s o : n <= 0 -> line n s o = [].
Proof. intros. unfold line. now rewrite zrange_nil. Qed.

Lemma product_zero sh : In 0 sh -> product sh = 0.
Proof.
  induction sh; intros H; [contradiction|]. destruct H as [->|H]; [reflexivity|].
  cbn [product fold_right]. unfold product in IHsh. rewrite IHsh by assumption. lia.
Qed.

Lemma offs_is_nil sh st o : Forall (fun d => 0 <= d) sh -> product sh = 0 -> offs sh st o = [].
Proof.
  intros F H. apply offs_empty. induction F as [|n sh Hn F IH]; simpl in *.
  - discriminate.
  - unfold product in *. simpl in H. destruct (Z.eq_dec n 0); [auto|]. right. apply IH. nia.
Qed.

Lemma contig_c (a : nd) : wf a -> fst (contig a) = true ->
  offs (shape a) (strides a) (base a) = line (product (shape a)) (isz a) (base a).
Proof.
  intros W. pose proof W as [L F P]. unfold contig.
  destruct (contig_walk (rev _) _) as [cc|] eqn:E; simpl.
  - intros ->. apply walk_line with (o := base a) in E.
    + rewrite !map_rev, !rev_involutive, combine_fst, combine_snd, product_rev in E by congruence.
      exact E.
    + rewrite map_rev, combine_fst by congruence. now apply Forall_rev.
  - intros _. apply walk_none in E. rewrite map_rev, combine_fst in E by congruence.
    rewrite <- in_rev in E. rewrite offs_empty by assumption.
    now rewrite product_zero, line_empty by (assumption || lia).
Qed.

Lemma fgrid_nil sh : In 0 sh -> fgrid sh = [].
Proof.
  intros H. unfold fgrid. pose proof (offs_empty (rev sh) [] 0) as E.
  rewrite <- in_rev in E. specialize (E H). unfold offs in E.
  destruct (grid (rev sh)); [reflexivity|discriminate].
Qed.

Lemma contig_f (a : nd) : wf a -> snd (contig a) = true ->
  foffs (shape a) (strides a) (base a) = line (product (shape a)) (isz a) (base a).
Proof.
  intros W. pose proof W as [L F P]. unfold contig.
  destruct (contig_walk (rev _) _) as [cc|] eqn:E; simpl.
  - pose proof (walk_some _ _ _ E) as N. rewrite map_rev, combine_fst in N by congruence.
    rewrite <- in_rev in N.
    destruct (contig_walk (combine _ _) _) as [fc|] eqn:E2.
    + intros ->. apply walk_line with (o := base a) in E2.
      * rewrite combine_fst, combine_snd in E2 by congruence.
        now rewrite foffs_rev.
      * now rewrite combine_fst by congruence.
    + apply walk_none in E2. rewrite combine_fst in E2 by congruence. contradiction.
  - intros _. apply walk_none in E. rewrite map_rev, combine_fst in E by congruence.
    rewrite <- in_rev in E. unfold foffs. rewrite fgrid_nil by assumption.
    now rewrite product_zero, line_empty by (assumption || lia).
Qed.

(** Offsets that do not repeat in one order are distinct for distinct coordinates. *)
Lemma nodup_map_inj {A B} (f : A -> B) l x y :
  NoDup (map f l) -> In x l -> In y l -> f x = f y -> x = y.
Proof.
  induction l as [|a l IH]; simpl; intros N Hx Hy E; [contradiction|].
  inversion N; subst. destruct Hx as [->|Hx], Hy as [->|Hy]; auto.
  - exfalso. apply H1. rewrite E. now apply in_map.
  - exfalso. apply H1. rewrite <- E. now apply in_map.
Qed.

Lemma mk_inj sh f i c d : Forall (fun d => 0 <= d) sh -> 0 < i ->
  inside sh c -> inside sh d ->
  dot c (mk_strides sh f i) = dot d (mk_strides sh f i) -> c = d.
Proof.
  intros F P Hc Hd E. destruct f.
  - pose proof (foffs_mk sh i 0 F) as L. unfold foffs in L.
    eapply (nodup_map_inj (fun c => 0 + dot c (mk_strides sh true i)) (fgrid sh)).
    + rewrite L. apply line_nodup. lia.
    + now apply fgrid_in.
    + now apply fgrid_in.
    + cbv beta. lia.
  - pose proof (offs_mk sh i 0 F) as L. unfold offs in L.
    eapply (nodup_map_inj (fun c => 0 + dot c (mk_strides sh false i)) (grid sh)).
    + rewrite L. apply line_nodup. lia.
    + now apply grid_in.
    + now apply grid_in.
    + cbv beta. lia.
Qed.
