(** Proofs about element-wise loops: whatever order and special case is taken, the
    callback is run once for every coordinate of the common shape. *)
From Coq Require Import List ZArith Lia Bool Permutation.
From Verif.Common Require Import Result Int64.
From Verif.Nd Require Import Spec Model Grid Copy Reshape Views IndexModel Index LoopModel.
Import ListNotations.
Local Open Scope Z_scope.

(** ** Pointers *)

Fixpoint ats (ptrs : list (nat * Z)) (sts : list (list Z)) (c : list Z) : list (nat * Z) :=
  match ptrs, sts with
  | p :: ptrs, st :: sts => incr p (dot c st) :: ats ptrs sts c
  | _, _ => []
  end.

Lemma incr_0 p : incr p 0 = p.
Proof. destruct p. unfold incr. simpl. f_equal. lia. Qed.

Lemma incr_incr p a b : incr (incr p a) b = incr p (a + b).
Proof. unfold incr. simpl. f_equal. lia. Qed.

Lemma line_ptrs_generic ptrs es ss i : length ss = length ptrs -> line_ptrs ptrs es ss i = line_generic ptrs ss i.
Proof.
  intros L. unfold line_ptrs.
  destruct ptrs as [|p0 [|p1 [|p2 [|p3 ptrs]]]]; [reflexivity|reflexivity| | |].
  - destruct es as [|e0 [|e1 [|e2 es]]]; try reflexivity. destruct ss as [|s0 [|s1 [|s2 ss]]]; try discriminate.
    cbn [line_generic]. destruct (Z.eqb_spec s0 e0), (Z.eqb_spec s1 e1); cbn [andb]; subst; try reflexivity;
    destruct (Z.eqb_spec s1 0); subst; rewrite ?Z.mul_0_r, ?incr_0; reflexivity.
  - destruct es as [|e0 [|e1 [|e2 [|e3 es]]]]; try reflexivity. destruct ss as [|s0 [|s1 [|s2 [|s3 ss]]]]; try discriminate.
    cbn [line_generic]. destruct (Z.eqb_spec s0 e0), (Z.eqb_spec s1 e1), (Z.eqb_spec s2 e2); cbn [andb]; subst; try reflexivity;
    repeat match goal with |- context [?x =? 0] => destruct (Z.eqb_spec x 0) end; cbn [andb]; subst; rewrite ?Z.mul_0_r, ?incr_0; reflexivity.
  - destruct es as [|e0 [|e1 [|e2 [|e3 es]]]]; reflexivity.
Qed.

Lemma line_generic_next ptrs ss i : line_generic (line_generic ptrs ss i) ss 1 = line_generic ptrs ss (i + 1).
Proof.
  revert ss. induction ptrs as [|p ptrs IH]; intros [|s ss]; try reflexivity. cbn [line_generic].
  rewrite IH, incr_incr. do 2 f_equal. lia.
Qed.

Lemma line_generic_0 ptrs ss : length ss = length ptrs -> line_generic ptrs ss 0 = ptrs.
Proof.
  revert ss. induction ptrs as [|p ptrs IH]; intros [|s ss] L; try discriminate; [reflexivity|]. cbn [line_generic].
  rewrite IH by (simpl in L; lia). now rewrite Z.mul_0_l, incr_0.
Qed.

Lemma ats_cons ptrs sts i c : Forall (fun st => st <> []) sts -> length sts = length ptrs ->
  ats (line_generic ptrs (map (hd 0) sts) i) (map (@tl Z) sts) c = ats ptrs sts (i :: c).
Proof.
  revert sts. induction ptrs as [|p ptrs IH]; intros [|st sts] F L; try discriminate; [reflexivity|].
  inversion F; subst. cbn [map line_generic ats]. rewrite IH by (simpl in L; auto; lia).
  destruct st as [|s st]; [congruence|]. cbn [hd tl dot]. now rewrite incr_incr.
Qed.

Lemma ats_nil ptrs sts : length sts = length ptrs -> ats ptrs sts [] = ptrs.
Proof.
  revert sts. induction ptrs as [|p ptrs IH]; intros [|st sts] L; try discriminate; [reflexivity|]. cbn [ats dot].
  rewrite incr_0, IH by (simpl in L; lia). reflexivity.
Qed.

Section Loops.
Context {V : Type} (zero : V).
Local Notation heap := (heap V).
Local Notation func_t := (heap -> list (nat * Z) -> heap).

Lemma loop_cons (func : func_t) es n m sh sts ptrs h : loop func es (n :: m :: sh) sts ptrs h =
  fst (fold_left (fun '(h, ptrs) _ =>
         (loop func es (m :: sh) (map (@tl Z) sts) ptrs h, line_generic ptrs (map (hd 0) sts) 1))
       (zrange n) (h, ptrs)).
Proof. reflexivity. Qed.

Lemma fold_flat_map {A B C} (f : A -> B -> A) (g : C -> list B) l a :
  fold_left f (flat_map g l) a = fold_left (fun a x => fold_left f (g x) a) l a.
Proof. revert a. induction l as [|x l IH]; intros a; [reflexivity|]. simpl. now rewrite fold_left_app, IH. Qed.

Lemma fold_map {A B C} (f : A -> B -> A) (g : C -> B) l a :
  fold_left f (map g l) a = fold_left (fun a x => f a (g x)) l a.
Proof. revert a. induction l as [|x l IH]; intros a; [reflexivity|]. simpl. apply IH. Qed.

Lemma fold_ext_in {A B} (f g : A -> B -> A) l a : (forall a x, In x l -> f a x = g a x) -> fold_left f l a = fold_left g l a.
Proof.
  revert a. induction l as [|x l IH]; intros a H; [reflexivity|]. simpl. rewrite H by (simpl; auto).
  apply IH. intros. apply H. simpl. auto.
Qed.

(** The nested loops visit the coordinates in C order. *)
Lemma loop_fold (func : func_t) es sh : forall sts ptrs h, Forall (fun st => length st = length sh) sts ->
  length sts = length ptrs ->
  loop func es sh sts ptrs h = fold_left (fun h c => func h (ats ptrs sts c)) (grid sh) h.
Proof.
  induction sh as [|n [|m sh] IH]; intros sts ptrs h F L.
  - simpl. now rewrite ats_nil.
  - assert (NE : Forall (fun st : list Z => st <> []) sts).
    { eapply Forall_impl; [|exact F]. intros [|s st]; simpl; congruence. }
    cbn [loop grid]. rewrite fold_flat_map. apply fold_ext_in. intros h1 i _. cbn [map fold_left].
    rewrite line_ptrs_generic by (now rewrite map_length). f_equal.
    rewrite <- (ats_cons ptrs sts i []) by assumption. rewrite ats_nil; [reflexivity|].
    rewrite map_length. clear - L. revert sts L. induction ptrs; intros [|st sts] L; try discriminate; [reflexivity|].
    simpl in *. f_equal. apply IHptrs. lia.
  - assert (NE : Forall (fun st : list Z => st <> []) sts).
    { eapply Forall_impl; [|exact F]. intros [|s st]; simpl; congruence. }
    rewrite loop_cons. change (grid (n :: m :: sh)) with (flat_map (fun i => map (cons i) (grid (m :: sh))) (zrange n)).
    rewrite fold_flat_map.
    assert (LL : forall i, length (line_generic ptrs (map (hd 0) sts) i) = length sts).
    { intros i. clear - L. revert sts L. induction ptrs; intros [|st sts] L; try discriminate; [reflexivity|].
      simpl in *. f_equal. apply IHptrs. lia. }
    assert (G : forall len k h, fst (fold_left (fun '(h, ptrs) _ =>
         (loop func es (m :: sh) (map (@tl Z) sts) ptrs h, line_generic ptrs (map (hd 0) sts) 1))
       (map Z.of_nat (seq k len)) (h, line_generic ptrs (map (hd 0) sts) (Z.of_nat k))) =
       fold_left (fun h i => fold_left (fun h c => func h (ats ptrs sts c)) (map (cons i) (grid (m :: sh))) h)
         (map Z.of_nat (seq k len)) h).
    { induction len as [|len IHl]; intros k h1; [reflexivity|]. cbn [seq map fold_left].
      rewrite line_generic_next. replace (Z.of_nat k + 1) with (Z.of_nat (S k)) by lia.
      rewrite IHl. f_equal. rewrite IH.
      - rewrite fold_map. apply fold_ext_in. intros h2 c _. now rewrite ats_cons.
      - apply Forall_map. eapply Forall_impl; [|exact F]. intros [|s st]; simpl; congruence.
      - rewrite map_length. symmetry. apply LL. }
    specialize (G (Z.to_nat n) O h). change (Z.of_nat 0) with 0 in G.
    rewrite line_generic_0 in G by (now rewrite map_length). exact G.
Qed.

(** ** Permutations *)

Lemma tuple_perm_permute p (t : list Z) : is_perm p (length t) -> tuple_perm 0 t p = permute 0 p t.
Proof.
  intros P. unfold tuple_perm. destruct (Nat.leb_spec (length t) 1); [|reflexivity].
  destruct t as [|x [|y t]]; simpl in *; try lia.
  - apply Permutation_sym, Permutation_nil in P. now subst.
  - apply Permutation_sym, Permutation_length_1_inv in P. now subst.
Qed.

Lemma set_nth_length {A} (l : list A) k v : length (set_nth l k v) = length l.
Proof. revert k. induction l; intros [|k]; simpl; auto. Qed.

Lemma set_nth_same {A} (d : A) l k v : (k < length l)%nat -> nth k (set_nth l k v) d = v.
Proof. revert k. induction l; intros [|k] H; simpl in *; try lia; auto. apply IHl. lia. Qed.

Lemma set_nth_other {A} (d : A) l k j v : j <> k -> nth j (set_nth l k v) d = nth j l d.
Proof. revert k j. induction l; intros [|k] [|j] H; simpl; try congruence; auto. Qed.

Lemma perm_bound p n i : is_perm p n -> (i < n)%nat -> (nth i p O < n)%nat.
Proof.
  intros P H. assert (I : In (nth i p O) p) by (apply nth_In; rewrite (is_perm_length _ _ P); exact H).
  apply (Permutation_in _ P), in_seq in I. lia.
Qed.

Lemma perm_inj p n i j : is_perm p n -> (i < n)%nat -> (j < n)%nat -> nth i p O = nth j p O -> i = j.
Proof.
  intros P Hi Hj E. assert (N : NoDup p) by (eapply Permutation_NoDup; [apply Permutation_sym; exact P|apply seq_NoDup]).
  pose proof (is_perm_length _ _ P). eapply NoDup_nth; eauto; lia.
Qed.

Lemma perm_inv_ok p n : is_perm p n -> length (tuple_perm_inv p) = n /\
  forall i, (i < n)%nat -> nth (nth i p O) (tuple_perm_inv p) O = i.
Proof.
  intros P. unfold tuple_perm_inv. rewrite (is_perm_length _ _ P).
  assert (G : forall k, (k <= n)%nat ->
    let q := fold_left (fun q i => set_nth q (nth i p O) i) (seq 0 k) (repeat O n) in
    length q = n /\ forall i, (i < k)%nat -> nth (nth i p O) q O = i).
  { induction k as [|k IH]; intros Hk; cbv zeta.
    - split; [apply repeat_length|]. lia.
    - destruct IH as [L H]; [lia|]. rewrite seq_S, fold_left_app. cbn [plus fold_left]. split.
      + now rewrite set_nth_length.
      + intros i Hi. destruct (Nat.eq_dec i k) as [->|Hne].
        * apply set_nth_same. rewrite L. apply perm_bound; [assumption|lia].
        * rewrite set_nth_other; [apply H; lia|]. intros E. apply (perm_inj p n) in E; auto; lia. }
  apply (G n). lia.
Qed.

Lemma permute_inv p n (S : list Z) : is_perm p n -> length S = n ->
  permute 0 p (permute 0 (tuple_perm_inv p) S) = S.
Proof.
  intros P L. destruct (perm_inv_ok p n P) as [Li Hi]. pose proof (is_perm_length _ _ P) as Lp.
  apply nth_ext with 0 0; [rewrite permute_length; congruence|]. intros i H. rewrite permute_length in H.
  rewrite (permute_nth 0 p _ i (nth i p O)) by (apply nth_error_nth'; lia).
  rewrite (permute_nth 0 _ S (nth i p O) i); [reflexivity|].
  rewrite <- (Hi i) at 2 by lia. apply nth_error_nth'. rewrite Li. apply perm_bound; [assumption|lia].
Qed.

Lemma reorder_perm st : is_perm (reorder_loops st) (length st).
Proof.
  unfold is_perm. destruct st as [|s0 [|s1 [|s2 st]]]; simpl; try apply Permutation_refl.
  - destruct (_ && _); [apply perm_swap|apply Permutation_refl].
  - set (t := s0 :: s1 :: s2 :: st). change (Permutation (map fst (sort_by_stride (seq 0 (length t)) t)) (seq 0 (length t))).
    pose proof (sort_perm (seq 0 (length t)) t) as H. apply (Permutation_map fst) in H.
    rewrite combine_fst in H by (now rewrite seq_length). exact H.
Qed.

(** The strides given to the result, in terms of those used in the loop. *)
Definition fix_strides (sh : list Z) (perm : list nat) (st : list Z) : list Z :=
  match sh with
  | [] | [_] => st
  | [_; _] => if (nth 0 perm O =? 1)%nat then rev st else st
  | _ => tuple_perm 0 st (tuple_perm_inv perm)
  end.

Lemma fix_strides_ok sh p st : is_perm p (length sh) -> length st = length sh ->
  length (fix_strides sh p st) = length sh /\ permute 0 p (fix_strides sh p st) = st.
Proof.
  intros P L. unfold fix_strides. destruct sh as [|n0 [|n1 [|n2 sh]]].
  - destruct st; [|discriminate]. apply Permutation_sym, Permutation_nil in P. now subst.
  - destruct st as [|s [|? ?]]; try discriminate. apply Permutation_sym, Permutation_length_1_inv in P. now subst.
  - destruct st as [|s0 [|s1 [|? ?]]]; try discriminate.
    apply Permutation_sym, Permutation_length_2_inv in P. destruct P as [P|P]; subst p; simpl; auto.
  - set (s' := n0 :: n1 :: n2 :: sh) in *. destruct (perm_inv_ok p _ P) as [Li Hi].
    assert (E : tuple_perm 0 st (tuple_perm_inv p) = permute 0 (tuple_perm_inv p) st).
    { unfold tuple_perm. destruct (Nat.leb_spec (length st) 1); [rewrite L in *; simpl in *; lia|reflexivity]. }
    rewrite E. split; [rewrite permute_length; assumption|]. now apply permute_inv with (length s').
Qed.

Lemma ats_permute p n ptrs sts c : is_perm p n -> Forall (fun st => length st = n) sts -> length c = n ->
  ats ptrs (map (permute 0 p) sts) (permute 0 p c) = ats ptrs sts c.
Proof.
  intros P F L. revert ptrs. induction F as [|st sts H F IH]; intros [|q ptrs]; try reflexivity. cbn [map ats].
  rewrite dot_permute by congruence. now rewrite IH.
Qed.

(** ** Allocation *)

Lemma alloc_arrays_ok (h : heap) sh es : Forall (fun e => 0 < e) es ->
  let '(h', l) := alloc_arrays zero h sh es in
  next h' = (next h + length es)%nat /\ kept h h' /\
  l = map (fun be => mk (fst be) 0 (snd be) sh false) (combine (seq (next h) (length es)) es).
Proof.
  intros F. revert h. induction F as [|e es He F IH]; intros h; cbn [alloc_arrays].
  - split; [simpl; lia|]. split; [apply kept_refl|reflexivity].
  - destruct (alloc zero h) as [h1 b] eqn:A. specialize (IH h1).
    destruct (alloc_arrays zero h1 sh es) as [h2 l]. destruct IH as (N & K & E).
    assert (N1 : next h1 = S (next h)) by (unfold alloc in A; injection A as <- _; reflexivity).
    apply alloc_parts in A. destruct A as [-> K1]. split; [simpl; lia|]. split; [eapply kept_trans; eauto|].
    cbn [length seq combine map fst snd]. rewrite E, N1. reflexivity.
Qed.

(** ** The whole loop *)

(** [rs] are new arrays of shape [sh] in separate new blocks. *)
Definition new_arrays (h : heap) (sh : list Z) (es : list Z) (rs : list nd) : Prop :=
  map blk rs = seq (next h) (length es) /\ map isz rs = es /\
  Forall (fun r => wf r /\ shape r = sh /\
    forall c d, inside sh c -> inside sh d -> ptr r c = ptr r d -> c = d) rs.

Lemma fold_lines (func : func_t) L cs zs h : L <> [] ->
  (forall x, In x L -> map (ptr x) cs = map (fun k => (blk x, base x + k * isz x)) zs) ->
  fold_left (fun h i => func h (map (fun x => (blk x, base x + i * isz x)) L)) zs h =
  fold_left (fun h c => func h (map (fun x => ptr x c) L)) cs h.
Proof.
  intros NE. revert zs h. induction cs as [|c cs IH]; intros [|k zs] h H.
  - reflexivity.
  - destruct L as [|x L]; [congruence|]. specialize (H x (or_introl eq_refl)). discriminate.
  - destruct L as [|x L]; [congruence|]. specialize (H x (or_introl eq_refl)). discriminate.
  - cbn [fold_left].
    replace (map (fun x => (blk x, base x + k * isz x)) L) with (map (fun x => ptr x c) L).
    + apply IH. intros x Hx. specialize (H x Hx). simpl in H. injection H. auto.
    + apply map_ext_in. intros x Hx. specialize (H x Hx). cbn [map] in H. injection H. intros _ <- . reflexivity.
Qed.

Lemma ats_app p1 s1 p2 s2 c : length s1 = length p1 -> ats (p1 ++ p2) (s1 ++ s2) c = ats p1 s1 c ++ ats p2 s2 c.
Proof.
  revert s1. induction p1 as [|p p1 IH]; intros [|s s1] L; try discriminate; [reflexivity|]. simpl.
  rewrite IH by (simpl in L; lia). reflexivity.
Qed.

Lemma ats_arrays l c : ats (map (fun x => (blk x, base x)) l) (map strides l) c = map (fun x => ptr x c) l.
Proof. induction l as [|x l IH]; [reflexivity|]. cbn [map ats]. rewrite IH. reflexivity. Qed.

Lemma ats_split l1 l2 st1 st2 c : length st1 = length l1 ->
  ats (map (fun x => (blk x, base x)) (l1 ++ l2)) (st1 ++ st2) c =
  ats (map (fun x => (blk x, base x)) l1) st1 c ++ ats (map (fun x => (blk x, base x)) l2) st2 c.
Proof. intros L. rewrite map_app. apply ats_app. now rewrite map_length. Qed.

Theorem nd_loop_views (func : func_t) m check es a rest h sh sts :
  Forall wf (a :: rest) -> Forall (fun e => 0 < e) es ->
  (if fst (all_contiguous a rest) then Ok (shape a, map strides (a :: rest)) else broadcast_args a rest m check) = Ok (sh, sts) ->
  Forall (fun d => 0 <= d) sh -> length sh = length (strides (max_dim a rest)) ->
  Forall (fun st => length st = length sh) sts -> length sts = length (a :: rest) ->
  exists h1 l rs, next h1 = (next h + length es)%nat /\ kept h h1 /\ new_arrays h sh es rs /\
    Permutation l (grid sh) /\
    nd_loop zero func m check es (a :: rest) h =
      Ok (fold_left (fun h c => func h (map (fun r => ptr r c) rs ++ ats (map (fun x => (blk x, base x)) (a :: rest)) sts c)) l h1, rs).
Proof.
  intros Wf Fe Eb Fs Lm Fst Lst. unfold nd_loop.
  destruct (all_contiguous a rest) as [ac cc] eqn:AC. cbn [fst] in Eb. rewrite Eb. cbn [bind].
  set (p := reorder_loops (strides (max_dim a rest))).
  assert (P : is_perm p (length sh)) by (rewrite Lm; apply reorder_perm).
  rewrite (tuple_perm_permute p sh P).
  assert (Fps : Forall (fun d => 0 <= d) (permute 0 p sh)).
  { eapply Permutation_Forall; [apply Permutation_sym, permute_perm; exact P|exact Fs]. }
  pose proof (alloc_arrays_ok h (permute 0 p sh) es Fe) as HA.
  destruct (alloc_arrays zero h (permute 0 p sh) es) as [h1 al] eqn:EA. destruct HA as (N1 & K1 & El).
  assert (Lc : length (combine (seq (next h) (length es)) es) = length es) by (rewrite combine_length, seq_length; lia).
  assert (Bl : map fst (combine (seq (next h) (length es)) es) = seq (next h) (length es)) by (apply combine_fst; now rewrite seq_length).
  assert (Be : map snd (combine (seq (next h) (length es)) es) = es) by (apply combine_snd; now rewrite seq_length).
  destruct ac.
  - injection Eb as <- <-.
    assert (AF : forallb (fun x => list_eqb (shape x) (shape a)) rest = true /\
       (if cc then forall x, In x (a :: rest) -> fst (contig x) = true else forall x, In x (a :: rest) -> snd (contig x) = true)).
    { unfold all_contiguous in AC. destruct (_ =? _)%nat; [|discriminate]. injection AC as A1 A2.
      apply andb_true_iff in A1. destruct A1 as [A1 A3]. split; [assumption|]. rewrite A2 in A3. destruct cc.
      - apply (proj1 (forallb_forall _ (a :: rest))). exact A2.
      - simpl in A3. apply (proj1 (forallb_forall _ (a :: rest))). exact A3. }
    destruct AF as [Sh Cn]. rewrite forallb_forall in Sh.
    set (o := if cc then OC else OF).
    set (rs := map (fun x => mk (blk x) (base x) (isz x) (shape a) (negb cc)) al).
    assert (Rs : rs = map (fun be => mk (fst be) 0 (snd be) (shape a) (negb cc)) (combine (seq (next h) (length es)) es)).
    { unfold rs. rewrite El, map_map. reflexivity. }
    exists h1, (ogrid o (shape a)), rs. split; [assumption|]. split; [assumption|].
    assert (NA : new_arrays h (shape a) es rs).
    { unfold new_arrays. rewrite Rs, !map_map. cbn [blk isz mk].
      split; [exact Bl|]. split; [exact Be|]. apply Forall_forall. intros r Hr. apply in_map_iff in Hr.
      destruct Hr as ([b e] & <- & Hb). assert (0 < e).
      { rewrite Forall_forall in Fe. apply Fe. apply in_combine_r in Hb. exact Hb. }
      cbn [fst snd]. split; [now apply mk_wf|]. split; [reflexivity|]. intros c d Hc Hd E.
      unfold ptr in E. cbn [blk base strides mk] in E. injection E as E. apply (mk_inj (shape a) (negb cc) e); auto; lia. }
    split; [assumption|]. split.
    { apply NoDup_Permutation; [apply ogrid_nodup|apply grid_nodup|]. intros x. now rewrite ogrid_in, grid_in. }
    do 2 f_equal.
    transitivity (fold_left (fun h i => func h (map (fun x => (blk x, base x + i * isz x)) (rs ++ a :: rest))) (zrange (size a)) h1).
    { apply fold_ext_in. intros h2 i _. f_equal. rewrite !map_app. f_equal. unfold rs. rewrite map_map. reflexivity. }
    rewrite (fold_lines func (rs ++ a :: rest) (ogrid o (shape a))).
    + apply fold_ext_in. intros h2 c Hc. now rewrite map_app, (ats_arrays (a :: rest)).
    + destruct rs; discriminate.
    + unfold size. rewrite count_product. intros x Hx. apply in_app_or in Hx. destruct Hx as [Hx|Hx].
      * rewrite Rs in Hx. apply in_map_iff in Hx. destruct Hx as ([b e] & <- & Hb). cbn [fst snd].
        pose proof (mk_line 0 e (shape a) (negb cc) Fs) as ML.
        replace (if negb cc then OF else OC) with o in ML by (unfold o; destruct cc; reflexivity).
        apply (f_equal (map (pair b))) in ML. unfold line in ML. rewrite !map_map in ML. exact ML.
      * assert (Wx : wf x) by (rewrite Forall_forall in Wf; auto).
        assert (Sx : shape x = shape a).
        { destruct Hx as [<-|Hx]; [reflexivity|]. apply list_eqb_spec. auto. }
        rewrite <- Sx. apply ptr_line. unfold o. destruct cc; [apply contig_c|apply contig_f]; auto.
  - set (rs := map (fun x => Nd (blk x) (base x) (isz x) sh (fix_strides sh p (strides x))) al).
    change (fun x : nd => Nd (blk x) (base x) (isz x) sh
      match sh with
      | [] | [_] => strides x
      | [_; _] => if (nth 0 p 0 =? 1)%nat then rev (strides x) else strides x
      | _ => tuple_perm 0 (strides x) (tuple_perm_inv p)
      end) with (fun x => Nd (blk x) (base x) (isz x) sh (fix_strides sh p (strides x))).
    fold rs.
    assert (Fal : Forall (fun x => length (strides x) = length sh) al).
    { rewrite El. apply Forall_map, Forall_forall. intros [b e] _. cbn [strides mk].
      rewrite mk_strides_length, permute_length. now apply is_perm_length. }
    assert (Frs : Forall (fun x => length (strides x) = length sh) rs).
    { unfold rs. apply Forall_map. eapply Forall_impl; [|exact Fal]. intros x Lx. cbn [strides].
      now apply fix_strides_ok. }
    assert (Srs : map (permute 0 p) (map strides rs) = map strides al).
    { unfold rs. rewrite !map_map. cbn [strides]. apply map_ext_in. intros x Hx.
      rewrite Forall_forall in Fal. now apply fix_strides_ok; auto. }
    assert (Prs : map (fun x => (blk x, base x)) rs = map (fun x => (blk x, base x)) al).
    { unfold rs. rewrite map_map. reflexivity. }
    assert (Sts : map (fun s => tuple_perm 0 s p) sts = map (permute 0 p) sts).
    { apply map_ext_in. intros s Hs. rewrite Forall_forall in Fst. apply tuple_perm_permute. now rewrite Fst. }
    pose proof (grid_permute p sh P) as GP. apply Permutation_map_inv in GP. destruct GP as (l & Gl & Pl).
    exists h1, l, rs. split; [assumption|]. split; [assumption|]. split.
    { unfold new_arrays. unfold rs. rewrite !map_map. cbn [blk isz]. rewrite El, !map_map. cbn [blk isz mk].
      split; [exact Bl|]. split; [exact Be|]. apply Forall_forall. intros r Hr. apply in_map_iff in Hr.
      destruct Hr as ([b e] & <- & Hb). assert (0 < e).
      { rewrite Forall_forall in Fe. apply Fe. apply in_combine_r in Hb. exact Hb. }
      cbn [fst snd blk base isz strides mk].
      destruct (fix_strides_ok sh p (mk_strides (permute 0 p sh) false e) P) as [F1 F2].
      { rewrite mk_strides_length, permute_length. now apply is_perm_length. }
      split; [split; cbn [strides shape isz]; assumption|]. split; [reflexivity|]. intros c d Hc Hd E.
      unfold ptr in E. cbn [blk base strides] in E. injection E as E.
      pose proof (inside_length _ _ Hc) as Lcc. pose proof (inside_length _ _ Hd) as Ldd.
      apply (permute_inj p sh c d P Lcc Ldd). apply (mk_inj (permute 0 p sh) false e); auto.
      - now apply permute_inside.
      - now apply permute_inside.
      - rewrite <- F2. rewrite !dot_permute by congruence. exact E. }
    split; [now apply Permutation_sym|]. do 2 f_equal.
    rewrite loop_fold.
    + rewrite Gl, fold_map. apply fold_ext_in. intros h2 c Hc. f_equal.
      apply (Permutation_in _ (Permutation_sym Pl)), grid_in, inside_length in Hc.
      rewrite Sts, <- Srs, <- map_app, map_app, <- Prs, <- map_app.
      rewrite (ats_permute p (length sh)); [|assumption| |assumption].
      * rewrite ats_split by (now rewrite map_length). f_equal. apply ats_arrays.
      * apply Forall_app. split; [now apply Forall_map|assumption].
    + apply Forall_app. split.
      * apply Forall_map. eapply Forall_impl; [|exact Fal]. intros x Lx. cbv beta in Lx. rewrite Lx, permute_length.
        symmetry. now apply is_perm_length.
      * rewrite Sts. apply Forall_map, Forall_forall. intros s _. now rewrite !permute_length.
    + rewrite !app_length, !map_length, app_length. simpl in *. lia.
Qed.

End Loops.
