(** Contiguity flags, reshape, flatten, ravel, and permutations of axes. *)
From Coq Require Import List ZArith Lia Bool Permutation.
From Verif.Common Require Import Result Int64.
From Verif.Nd Require Import Spec Model Grid Copy Reshape.
Import ListNotations.
Local Open Scope Z_scope.

(** ** Flags *)

Fixpoint good (l : list (Z * Z)) (sd : Z) : Prop :=
  match l with
  | [] => True
  | (d, s) :: l => (d = 1 \/ s = sd) /\ good l (sd * d)
  end.

Lemma walk_good l sd : ~ In 0 (map fst l) -> good l sd -> contig_walk l sd = Some true.
Proof.
  revert sd. induction l as [|[d s] l IH]; intros sd N G; simpl in *; [reflexivity|].
  destruct (Z.eqb_spec d 0); [tauto|]. destruct G as [G1 G2].
  destruct (Z.eqb_spec d 1) as [->|H1].
  - rewrite Z.mul_1_r in G2. apply IH; tauto.
  - rewrite IH by tauto. destruct G1; [contradiction|]. subst. now rewrite Z.eqb_refl.
Qed.

Lemma zeros_inside sh : Forall (fun d => 0 < d) sh -> inside sh (map (fun _ => 0) sh).
Proof. induction 1; simpl; constructor; auto. lia. Qed.

Lemma dot_zeros sh st : dot (map (fun _ : Z => 0) sh) st = 0.
Proof. revert st. induction sh; intros [|s st]; simpl; auto. Qed.

Lemma agree_good sh st sd : Forall (fun d => 0 < d) sh -> length st = length sh ->
  (forall c, inside sh c -> dot c st = dot c (strides_walk sh sd)) -> good (combine sh st) sd.
Proof.
  revert st sd. induction sh as [|d sh IH]; intros [|s st] sd F L H; simpl in *; try discriminate; auto.
  inversion F as [|? ? Hd F']; subst. split.
  - destruct (Z.eq_dec d 1); [auto|]. right.
    specialize (H (1 :: map (fun _ => 0) sh)). simpl in H. rewrite !dot_zeros in H.
    assert (1 * s + 0 = 1 * sd + 0); [|lia]. apply H. constructor; [lia|]. now apply zeros_inside.
  - apply IH; [assumption|lia|]. intros c Hc. specialize (H (0 :: c)). simpl in H.
    apply H. constructor; [lia|assumption].
Qed.

Lemma pos_dims sh : Forall (fun d => 0 <= d) sh -> ~ In 0 sh -> Forall (fun d => 0 < d) sh.
Proof.
  rewrite !Forall_forall. intros F N d Hd. specialize (F d Hd). simpl in F.
  destruct (Z.eq_dec d 0); [subst; contradiction|lia].
Qed.

(** What the two flags mean: the elements lie next to each other in that order. *)
Definition adjacent (o : order) (a : nd) : Prop :=
  map (fun c => base a + dot c (strides a)) (ogrid o (shape a)) =
  map (fun k => base a + k * isz a) (zrange (product (shape a))).

Theorem contig_flags a : wf a ->
  (fst (contig a) = true <-> adjacent OC a) /\ (snd (contig a) = true <-> adjacent OF a).
Proof.
  intros W. pose proof W as [L F P]. split; split.
  - intros H. exact (contig_c a W H).
  - intros H. unfold contig.
    destruct (contig_walk (rev (combine (shape a) (strides a))) (isz a)) as [cc|] eqn:E; [|reflexivity].
    pose proof (walk_some _ _ _ E) as N. rewrite map_rev, combine_fst in N by congruence.
    rewrite <- in_rev in N. enough (cc = true) by (subst; reflexivity).
    rewrite combine_rev in E by congruence. rewrite walk_good in E; [congruence| |].
    + rewrite combine_fst by (rewrite !rev_length; congruence). now rewrite <- in_rev.
    + apply agree_good; [apply Forall_rev; now apply pos_dims|now rewrite !rev_length|].
      intros c Hc. apply inside_rev_iff in Hc.
      assert (LC : length c = length (shape a)).
      { apply inside_length in Hc. now rewrite rev_length in Hc. }
      rewrite <- (rev_involutive c). remember (rev c) as d eqn:Ed.
      assert (LD : length d = length (shape a)) by (subst d; rewrite rev_length; assumption).
      rewrite dot_rev by congruence.
      rewrite <- (rev_involutive (strides_walk (rev (shape a)) (isz a))).
      rewrite dot_rev by (rewrite rev_length, walk_length, rev_length; congruence).
      pose proof (offs_mk (shape a) (isz a) (base a) F) as M. unfold offs in M. unfold line in M.
      destruct (same_index _ _ _ _ _ _ H M d (proj2 (grid_in _ _) Hc)) as (k & _ & E1 & E2).
      unfold mk_strides in E2. lia.
  - intros H. exact (contig_f a W H).
  - intros H. unfold contig.
    destruct (contig_walk (rev (combine (shape a) (strides a))) (isz a)) as [cc|] eqn:E; [|reflexivity].
    pose proof (walk_some _ _ _ E) as N. rewrite map_rev, combine_fst in N by congruence.
    rewrite <- in_rev in N. simpl. rewrite walk_good; [reflexivity| |].
    + rewrite combine_fst by congruence. assumption.
    + apply agree_good; [now apply pos_dims|congruence|]. intros c Hc.
      pose proof (foffs_mk (shape a) (isz a) (base a) F) as M. unfold foffs in M. unfold line in M.
      destruct (same_index _ _ _ _ _ _ H M c (proj2 (fgrid_in _ _) Hc)) as (k & _ & E1 & E2).
      unfold mk_strides in E2. lia.
Qed.

Section Views.
Context {V : Type} (zero : V).
Local Notation heap := (heap V).

(** ** Reshape *)

(** The order meant by the [order] argument; 'K' is not allowed. *)
Definition meant (a : nd) (o : ord) : option order :=
  match o with
  | RC => Some OC
  | RF => Some OF
  | RA => Some (if snd (contig a) && negb (fst (contig a)) then OF else OC)
  | RK => None
  end.

Lemma elems_offs (h : heap) a o : elems o h a =
  map (fun x => load h (blk a, x)) (map (fun c => base a + dot c (strides a)) (ogrid o (shape a))).
Proof. unfold elems. now rewrite map_map. Qed.

Lemma elems_line (h : heap) b ba i sh o : Forall (fun d => 0 <= d) sh ->
  elems o h (mk b ba i sh (match o with OF => true | OC => false end)) =
  map (fun x => load h (b, x)) (line (product sh) i ba).
Proof.
  intros F. rewrite elems_offs. cbn [blk base strides shape mk]. f_equal.
  destruct o; [apply (offs_mk sh i ba F)|apply (foffs_mk sh i ba F)].
Qed.

Lemma contig_order a o : wf a -> (match o with OC => fst (contig a) | OF => snd (contig a) end) = true ->
  map (fun c => base a + dot c (strides a)) (ogrid o (shape a)) = line (product (shape a)) (isz a) (base a).
Proof. intros W H. destruct o; [now apply contig_c|now apply contig_f]. Qed.

(** Where the elements of the result are: in the old block, at old elements, or all
    in a new block. *)
Definition view_or_new (h h' : heap) (a r : nd) : Prop :=
  (h' = h /\ blk r = blk a /\
   forall c, inside (shape r) c -> exists d, inside (shape a) d /\ ptr r c = ptr a d) \/
  (blk r = next h /\ next h' = S (next h)).

Lemma same_offs_view (h : heap) a r o : blk r = blk a ->
  map (fun c => base r + dot c (strides r)) (ogrid o (shape r)) =
  map (fun c => base a + dot c (strides a)) (ogrid o (shape a)) ->
  elems o h r = elems o h a /\ view_or_new h h a r.
Proof.
  intros B E. split; [now rewrite !elems_offs, E, B|]. left. split; [reflexivity|]. split; [assumption|].
  intros c Hc. apply (ogrid_in o) in Hc.
  apply (in_map (fun c => base r + dot c (strides r))) in Hc. rewrite E in Hc.
  apply in_map_iff in Hc. destruct Hc as (d & Hd & H). apply ogrid_in in H.
  exists d. split; [assumption|]. unfold ptr. rewrite B. f_equal. lia.
Qed.

Lemma list_eqb_spec x y : list_eqb x y = true <-> x = y.
Proof. unfold list_eqb. destruct (list_eq_dec Z.eq_dec x y); split; congruence. Qed.

Lemma wanted_same sh : Forall (fun d => 0 <= d) sh -> wanted (product sh) sh sh.
Proof.
  intros F. split; [reflexivity|]. split; [assumption|]. split.
  - clear. induction sh; constructor; auto.
  - split; [|auto]. induction F as [|d sh Hd F IH]; simpl; [lia|].
    destruct (Z.ltb_spec d 0); [lia|assumption].
Qed.

Theorem reshape_ok (h : heap) a req o od : wf a -> (blk a < next h)%nat ->
  meant a o = Some od -> product (shape a) < 2^63 -> product (knowns req) < 2^63 -> req <> [] ->
  (exists sh h' r, wanted (product (shape a)) req sh /\ reshape zero h a req o = Ok (h', r) /\
     wf r /\ shape r = sh /\ isz r = isz a /\ elems od h' r = elems od h a /\ kept h h' /\ view_or_new h h' a r) \/
  ((forall sh, ~ wanted (product (shape a)) req sh) /\ reshape zero h a req o = Raise ValueError).
Proof.
  intros W B M S1 S2 N. pose proof W as [L F P].
  assert (S0 : 0 <= product (shape a)) by (now apply product_nonneg).
  unfold reshape. destruct req as [|d0 req0]; [congruence|].
  set (req := d0 :: req0) in *. clearbody req. clear N d0 req0.
  destruct (contig a) as [cc fc] eqn:C.
  assert (EO : (match o with
           | RA => Ok (if fc && negb cc then OF else OC)
           | RK => Raise ValueError
           | RC => Ok OC
           | RF => Ok OF
           end) = Ok od).
  { unfold meant in M. rewrite C in M. simpl in M. destruct o; congruence. }
  rewrite EO. cbn [bind]. clear EO M.
  destruct (list_eqb req (shape a)) eqn:EQ.
  { apply list_eqb_spec in EQ. subst req. left. exists (shape a), h, a.
    split; [now apply wanted_same|]. split; [reflexivity|]. do 4 (split; [auto|]).
    split; [apply kept_refl|]. left. split; [reflexivity|]. split; [reflexivity|]. intros c Hc. eauto. }
  unfold size. rewrite count_product.
  destruct (fix_total (product (shape a)) req) as [E|[sh E]]; try lia.
  { right. split; [|now rewrite E]. intros sh Hw. apply fix_wanted in Hw; [congruence|lia|assumption]. }
  left. rewrite E. cbn [bind]. apply fix_wanted in E; [|lia|assumption].
  exists sh. pose proof E as (Ep & Fs & _).
  set (f := match od with OC => false | OF => true end).
  assert (Od : od = if f then OF else OC) by (destruct od; reflexivity).
  assert (CO : (match od with OC => fst (contig a) | OF => snd (contig a) end) = negb (match od with OC => negb cc | OF => negb fc end))
    by (rewrite C; destruct od; simpl; now rewrite negb_involutive).
  destruct (match od with OC => negb cc | OF => negb fc end) eqn:NC.
  - assert (PP : 0 < product (shape a)).
    { destruct (no_empty a W false) as [[H _]|H]; [now right|assumption|].
      rewrite C in H. injection H as -> ->. destruct od; discriminate. }
    destruct (nocopy_ok a sh f W PP Fs Ep) as (r & Er & K). rewrite Er. cbn [bind].
    destruct r as [st|].
    + destruct (K st eq_refl) as [Ls Ks].
      exists h, (Nd (blk a) (base a) (isz a) sh st). split; [assumption|]. split; [reflexivity|].
      split; [split; simpl; auto|]. split; [reflexivity|]. split; [reflexivity|].
      destruct (same_offs_view h a (Nd (blk a) (base a) (isz a) sh st) od) as [X1 X2]; [reflexivity| |].
      * cbn [base strides shape]. rewrite Od, !foffs_ooffs by congruence. apply Ks.
      * split; [assumption|]. split; [apply kept_refl|assumption].
    + destruct (copy zero h a (if f then RF else RC)) as [h2 x] eqn:CP.
      destruct (copy_ok zero h a _ h2 x W B CP) as (Wx & Sx & Ix & Bx & Ax & Nx & Kx & Vx & ff & Stx & Fc & Ff).
      exists h2, (mk (blk x) (base x) (isz x) sh f). split; [assumption|]. split; [reflexivity|].
      split; [apply mk_wf; [assumption|lia]|]. split; [reflexivity|]. split; [now simpl|].
      split; [|split; [assumption|right; simpl; now split]].
      transitivity (elems od h2 x).
      * assert (Eff : ff = f).
        { subst f. destruct od; simpl in *; [now apply Fc|]. apply Ff; [reflexivity|]. rewrite C in *. simpl in *.
          destruct fc; [discriminate|reflexivity]. }
        subst f. rewrite elems_line by assumption. rewrite elems_offs, Sx, Stx, Eff.
        f_equal. rewrite Ep, Ax, Ix.
        destruct od; [symmetry; apply (offs_mk (shape a) (isz a) 0 F)|symmetry; apply (foffs_mk (shape a) (isz a) 0 F)].
      * unfold elems. rewrite Sx. apply map_ext_in. intros c Hc. apply Vx. now apply ogrid_in in Hc.
  - exists h, (mk (blk a) (base a) (isz a) sh f). split; [assumption|]. split; [reflexivity|].
    split; [now apply mk_wf|]. split; [reflexivity|]. split; [reflexivity|].
    destruct (same_offs_view h a (mk (blk a) (base a) (isz a) sh f) od) as [X1 X2]; [reflexivity| |].
    * rewrite (contig_order a od W CO). cbn [base strides shape mk]. rewrite <- Ep. subst f.
      destruct od; [apply (offs_mk sh (isz a) (base a) Fs)|apply (foffs_mk sh (isz a) (base a) Fs)].
    * split; [assumption|]. split; [apply kept_refl|assumption].
Qed.

Theorem reshape_nil (h : heap) a o : wf a ->
  reshape zero h a [] o =
  if product (shape a) =? 1 then Ok (h, Nd (blk a) (base a) (isz a) [] []) else Raise ValueError.
Proof.
  intros W. unfold reshape, size. rewrite count_product. destruct (_ =? 1); reflexivity.
Qed.

(** ** Contiguous copies, flatten and ravel *)

Lemma linear_cells (h : heap) b0 i (vs : list V) h' b :
  (forall k v, nth_error vs k = Some v -> load h' (b, b0 + Z.of_nat k * i) = v) ->
  map (fun x => load h' (b, x)) (line (Z.of_nat (length vs)) i b0) = vs.
Proof.
  intros H. unfold line. rewrite map_map. unfold zrange. rewrite Nat2Z.id, map_map.
  revert b0 H. induction vs as [|v vs IH]; intros b0 H; [reflexivity|].
  simpl length. simpl seq. simpl map. f_equal.
  - apply (H O). reflexivity.
  - rewrite <- seq_shift, map_map. rewrite <- (IH (b0 + i)) at 2.
    + apply map_ext. intros k. f_equal. f_equal. lia.
    + intros k w E. replace (b0 + i + Z.of_nat k * i) with (b0 + Z.of_nat (S k) * i) by lia.
      now apply H.
Qed.

Lemma combine_seq_nth {A} (l : list A) k x : nth_error l k = Some x ->
  forall s, In (Z.of_nat (s + k), x) (combine (map Z.of_nat (seq s (length l))) l).
Proof.
  revert k. induction l as [|y l IH]; intros [|k] H s; simpl in *; try discriminate.
  - injection H as ->. left. f_equal. lia.
  - right. replace (s + S k)%nat with (S s + k)%nat by lia. now apply IH.
Qed.

Lemma fill_ok (h0 h : heap) a b cs : kept h0 h -> (next h0 <= b)%nat -> (blk a < next h0)%nat -> 0 < isz a ->
  kept h0 (fill_linear h a b 0 cs) /\ next (fill_linear h a b 0 cs) = next h /\
  map (fun x => load (fill_linear h a b 0 cs) (b, x)) (line (Z.of_nat (length cs)) (isz a) 0) =
  map (fun c => load h0 (ptr a c)) cs.
Proof.
  intros [K1 K2] Hb Ha P. rewrite fill_stores by lia.
  split; [|split].
  - split; [now rewrite stores_next|]. intros p Hp. rewrite <- K2 by assumption.
    apply stores_kept with (n := next h0); [|assumption]. intros q Hq. rewrite map_map in Hq.
    apply in_map_iff in Hq. destruct Hq as (? & <- & _). exact Hb.
  - apply stores_next.
  - assert (EL : length cs = length (map (fun c => load h0 (ptr a c)) cs)) by (now rewrite map_length).
    match goal with |- map ?f _ = _ => rewrite (f_equal (fun n => map f (line (Z.of_nat n) (isz a) 0)) EL) end.
    clear EL. apply (linear_cells h).
    intros k v E. rewrite nth_error_map in E. destruct (nth_error cs k) as [c|] eqn:Ec; [|discriminate].
    injection E as <-. rewrite <- K2 by assumption. apply stores_in.
    + rewrite map_map. cbn [fst].
      assert (X : forall (l : list nat) (r : list (list Z)), NoDup l ->
        NoDup (map (fun x : Z * list Z => (b, (0 + fst x) * isz a)) (combine (map Z.of_nat l) r))).
      { induction l as [|n l IH]; intros [|y r] ND; simpl; try constructor.
        - intros C. apply in_map_iff in C. destruct C as ([z w] & E & Hz). simpl in E.
          apply in_combine_l in Hz. apply in_map_iff in Hz. destruct Hz as (m & <- & Hm).
          injection E as E. assert (m = n) by nia. subst. now inversion ND.
        - apply IH. now inversion ND. }
      apply X, seq_NoDup.
    + apply in_map_iff. exists (Z.of_nat k, c). simpl fst. simpl snd. split; [f_equal; f_equal; lia|].
      exact (combine_seq_nth cs k c Ec 0).
Qed.

Lemma memcpy_ok (h0 h : heap) a b n : kept h0 h -> (next h0 <= b)%nat -> (blk a < next h0)%nat -> 0 < isz a -> 0 <= n ->
  kept h0 (memcpy h a b (Z.to_nat n)) /\ next (memcpy h a b (Z.to_nat n)) = next h /\
  map (fun x => load (memcpy h a b (Z.to_nat n)) (b, x)) (line n (isz a) 0) =
  map (fun x => load h0 (blk a, x)) (line n (isz a) (base a)).
Proof.
  intros K Hb Ha P Hn. assert (NB : b <> blk a) by lia.
  destruct (memcpy_kept h0 h a b (Z.to_nat n) K Hb NB) as [K' N']. split; [assumption|]. split; [assumption|].
  unfold line. rewrite !map_map. apply map_ext_in. intros k Hk. apply zrange_in in Hk.
  rewrite Z.add_0_l, memcpy_load by (assumption || lia). destruct K as [_ K]. now apply K.
Qed.

(** [_contiguous] and [_fcontiguous]: the elements in order, from the pointer on. *)
Definition gives (h : heap) (a : nd) (o : order) (r : heap * (nat * Z)) : Prop :=
  let '(h', p) := r in
  kept h h' /\
  map (fun x => load h' (fst p, x)) (line (product (shape a)) (isz a) (snd p)) = elems o h a.

Lemma alloc_parts (h h1 : heap) b : alloc zero h = (h1, b) -> b = next h /\ kept h h1.
Proof.
  intros E. split; [unfold alloc in E; congruence|].
  replace h1 with (fst (alloc zero h)) by (now rewrite E). apply alloc_kept.
Qed.

Lemma contiguous_ok (h : heap) a copy : wf a -> (blk a < next h)%nat ->
  gives h a OC (contiguous zero copy h a).
Proof.
  intros W B. pose proof W as [L F P]. pose proof (product_nonneg _ F). unfold contiguous.
  destruct (fst (contig a)) eqn:C.
  - assert (EL : elems OC h a = map (fun x => load h (blk a, x)) (line (product (shape a)) (isz a) (base a)))
      by (rewrite elems_offs; f_equal; now apply contig_c).
    destruct copy.
    + destruct (alloc zero h) as [h1 b] eqn:A. apply alloc_parts in A. destruct A as [-> K].
      unfold gives, size. rewrite count_product. cbn [fst snd].
      destruct (memcpy_ok h h1 a (next h) (product (shape a)) K) as (K' & _ & E); auto.
      split; [assumption|]. now rewrite E.
    + split; [apply kept_refl|]. cbn [fst snd]. now rewrite EL.
  - destruct (alloc zero h) as [h1 b] eqn:A. apply alloc_parts in A. destruct A as [-> K].
    unfold gives. cbn [fst snd]. rewrite multirange_grid.
    destruct (fill_ok h h1 a (next h) (grid (shape a)) K) as (K' & _ & E); auto.
    rewrite grid_length in E by assumption. auto.
Qed.

Lemma fgrid_length sh : Forall (fun d => 0 <= d) sh -> Z.of_nat (length (fgrid sh)) = product sh.
Proof.
  intros F. unfold fgrid. rewrite map_length, grid_length by (now apply Forall_rev). apply product_rev.
Qed.

Lemma fcontiguous_ok (h : heap) a copy : wf a -> (blk a < next h)%nat ->
  (snd (contig a) = true \/ (ndim a <= 6)%nat) ->
  gives h a OF (fcontiguous zero copy h a).
Proof.
  intros W B D. pose proof W as [L F P]. pose proof (product_nonneg _ F). unfold fcontiguous.
  destruct (snd (contig a)) eqn:C.
  - assert (EL : elems OF h a = map (fun x => load h (blk a, x)) (line (product (shape a)) (isz a) (base a)))
      by (rewrite elems_offs; f_equal; now apply contig_f).
    destruct copy.
    + destruct (alloc zero h) as [h1 b] eqn:A. apply alloc_parts in A. destruct A as [-> K].
      unfold gives, size. rewrite count_product. cbn [fst snd].
      destruct (memcpy_ok h h1 a (next h) (product (shape a)) K) as (K' & _ & E); auto.
      split; [assumption|]. now rewrite E.
    + split; [apply kept_refl|]. cbn [fst snd]. now rewrite EL.
  - destruct D as [D|D]; [discriminate|].
    destruct (alloc zero h) as [h1 b] eqn:A. apply alloc_parts in A. destruct A as [-> K].
    unfold gives. cbn [fst snd]. rewrite fmultirange_fgrid by assumption.
    destruct (fill_ok h h1 a (next h) (fgrid (shape a)) K) as (K' & _ & E); auto.
    rewrite fgrid_length in E by assumption. auto.
Qed.

Lemma elems_flat (h : heap) b ba i n : 0 <= n ->
  elems OC h (mk b ba i [n] false) = map (fun x => load h (b, x)) (line n i ba).
Proof.
  intros H. rewrite (elems_line h b ba i [n] OC) by auto. f_equal. f_equal.
  rewrite product_cons. change (product []) with 1. lia.
Qed.

(** ** Permutations of the axes *)

Definition permute {A} (d : A) (p : list nat) (l : list A) : list A := map (fun j => nth j l d) p.

Definition is_perm (p : list nat) (n : nat) : Prop := Permutation p (seq 0 n).

Fixpoint dsum (f g : nat -> Z) (p : list nat) : Z :=
  match p with [] => 0 | j :: p => f j * g j + dsum f g p end.

Lemma dot_dsum f g p : dot (map f p) (map g p) = dsum f g p.
Proof. induction p; simpl; congruence. Qed.

Lemma dsum_perm f g p q : Permutation p q -> dsum f g p = dsum f g q.
Proof. induction 1; simpl; lia. Qed.

Lemma permute_seq {A} (d : A) l : permute d (seq 0 (length l)) l = l.
Proof.
  unfold permute. apply nth_ext with d d; [now rewrite map_length, seq_length|].
  intros n H. rewrite map_length, seq_length in H.
  rewrite nth_indep with (d' := nth 0 l d) by (now rewrite map_length, seq_length).
  rewrite (map_nth (fun j => nth j l d)), seq_nth by assumption. reflexivity.
Qed.

Lemma dot_permute p c s : is_perm p (length s) -> length c = length s ->
  dot (permute 0 p c) (permute 0 p s) = dot c s.
Proof.
  intros P L. unfold permute. rewrite dot_dsum, (dsum_perm _ _ _ _ P), <- dot_dsum.
  fold (permute 0 (seq 0 (length s)) c). fold (permute 0 (seq 0 (length s)) s).
  rewrite <- L at 1. now rewrite !permute_seq.
Qed.

Lemma permute_inside p sh c : is_perm p (length sh) -> inside sh c ->
  inside (permute 0 p sh) (permute 0 p c).
Proof.
  intros P H. assert (X : forall j, In j p -> 0 <= nth j c 0 < nth j sh 0).
  { intros j Hj. apply (Permutation_in _ P) in Hj. apply in_seq in Hj. destruct Hj as [_ Hj].
    simpl in Hj. clear P. revert j Hj. induction H as [|n i sh c Hi H IH]; intros j Hj; simpl in *; [lia|].
    destruct j; [assumption|]. apply IH. lia. }
  clear P H. unfold permute, inside. induction p; simpl; constructor; [apply X|apply IHp]; simpl; auto.
  intros. apply X. simpl. auto.
Qed.

Lemma permute_length {A} (d : A) p l : length (permute d p l) = length p.
Proof. apply map_length. Qed.


Lemma is_perm_length p n : is_perm p n -> length p = n.
Proof. intros H. apply Permutation_length in H. now rewrite seq_length in H. Qed.

Lemma permute_inj p (sh c d : list Z) : is_perm p (length sh) -> length c = length sh -> length d = length sh ->
  permute 0 p c = permute 0 p d -> c = d.
Proof.
  intros P Lc Ld E. apply nth_ext with 0 0; [congruence|]. intros n Hn.
  assert (In n p). { apply (Permutation_in _ (Permutation_sym P)). apply in_seq. lia. }
  clear P Lc Ld Hn. unfold permute in E. induction p as [|j p IH]; [contradiction|].
  simpl in E. injection E as E1 E2. destruct H as [->|H]; auto.
Qed.


Lemma inside_nth sh c : length c = length sh ->
  (forall j, (j < length sh)%nat -> 0 <= nth j c 0 < nth j sh 0) -> inside sh c.
Proof.
  revert c. induction sh as [|n sh IH]; intros [|i c] L H; simpl in *; try discriminate; constructor.
  - apply (H O). lia.
  - apply IH; [lia|]. intros j Hj. apply (H (S j)). lia.
Qed.

Lemma inside_nth_inv sh c j : inside sh c -> (j < length sh)%nat -> 0 <= nth j c 0 < nth j sh 0.
Proof.
  intros H. revert j. induction H; intros [|j] Hj; simpl in *; try lia. apply IHForall2. lia.
Qed.

Lemma permute_nth {A} (d : A) p l k j : nth_error p k = Some j -> nth k (permute d p l) d = nth j l d.
Proof.
  revert k. induction p as [|x p IH]; intros [|k] H; simpl in *; try discriminate; [congruence|auto].
Qed.

(** Every coordinate of the permuted shape is the permutation of one of the shape. *)
Lemma permute_onto p sh c' : is_perm p (length sh) -> inside (permute 0 p sh) c' ->
  exists c, inside sh c /\ permute 0 p c = c'.
Proof.
  intros P H. pose proof (is_perm_length _ _ P) as LP.
  assert (ND : NoDup p) by (eapply Permutation_NoDup; [apply Permutation_sym; exact P|apply seq_NoDup]).
  assert (X : forall j, (j < length sh)%nat -> exists k, nth_error p k = Some j).
  { intros j Hj. apply In_nth_error. apply (Permutation_in _ (Permutation_sym P)). apply in_seq. lia. }
  assert (LC : length c' = length p) by (apply inside_length in H; now rewrite permute_length in H).
  assert (Y : forall n, (n <= length sh)%nat -> exists c, length c = n /\
     forall j k, (j < n)%nat -> nth_error p k = Some j -> nth j c 0 = nth k c' 0).
  { induction n as [|n IH]; intros Hn.
    - exists []. split; [reflexivity|]. lia.
    - destruct IH as (c & Lc & Hc); [lia|]. destruct (X n Hn) as (k & Hk).
      exists (c ++ [nth k c' 0]). split; [rewrite app_length; simpl; lia|].
      intros j k' Hj Hk'. destruct (Nat.eq_dec j n) as [->|Hne].
      + rewrite app_nth2, Lc, Nat.sub_diag by lia. simpl. f_equal.
        rewrite NoDup_nth_error in ND. apply ND; [|congruence]. apply nth_error_Some. congruence.
      + rewrite app_nth1 by lia. apply Hc; [lia|assumption]. }
  destruct (Y (length sh) (le_n _)) as (c & Lc & Hc). exists c. split.
  - apply inside_nth; [exact Lc|]. intros j Hj. destruct (X j Hj) as (k & Hk).
    rewrite (Hc j k Hj Hk).
    assert (Hkl : (k < length p)%nat) by (apply nth_error_Some; congruence).
    pose proof (inside_nth_inv _ _ k H ltac:(rewrite permute_length; exact Hkl)) as B.
    now rewrite (permute_nth 0 p sh k j Hk) in B.
  - apply nth_ext with 0 0; [rewrite permute_length; congruence|]. intros k Hk.
    rewrite permute_length in Hk. destruct (nth_error p k) as [j|] eqn:E.
    + rewrite (permute_nth 0 p c k j E). apply Hc; [|assumption].
      apply nth_error_In in E. apply (Permutation_in _ P) in E. apply in_seq in E. lia.
    + apply nth_error_None in E. lia.
Qed.

Lemma grid_permute p sh : is_perm p (length sh) ->
  Permutation (grid (permute 0 p sh)) (map (permute 0 p) (grid sh)).
Proof.
  intros P. apply NoDup_Permutation.
  - apply grid_nodup.
  - pose proof (grid_nodup sh) as N.
    assert (I : forall c d, In c (grid sh) -> In d (grid sh) -> permute 0 p c = permute 0 p d -> c = d).
    { intros c d Hc Hd. apply grid_in, inside_length in Hc, Hd. now apply permute_inj with sh. }
    clear P. induction N as [|c l Hc N IH]; simpl; constructor.
    + intros X. apply in_map_iff in X. destruct X as (d & E & Hd). apply Hc.
      rewrite <- (I d c); simpl; auto.
    + apply IH. intros. apply I; simpl; auto.
  - intros c. rewrite grid_in, in_map_iff. split.
    + intros H. destruct (permute_onto p sh c P H) as (d & Hd & E). exists d. rewrite grid_in. auto.
    + intros (d & <- & Hd). apply grid_in in Hd. now apply permute_inside.
Qed.

(** Permuting shape and strides alike permutes the elements. *)
Lemma permuted_elems (h : heap) a p : wf a -> is_perm p (ndim a) ->
  Permutation (elems OC h (Nd (blk a) (base a) (isz a) (permute 0 p (shape a)) (permute 0 p (strides a))))
              (elems OC h a).
Proof.
  intros [L _ _] P. unfold elems. cbn [ogrid shape].
  rewrite (Permutation_map _ (grid_permute p (shape a) P)), map_map.
  erewrite map_ext_in; [apply Permutation_refl|]. intros c Hc. apply grid_in, inside_length in Hc.
  unfold ptr. cbn [blk base strides]. rewrite dot_permute; [reflexivity|unfold ndim in P; congruence|congruence].
Qed.

(** The bubble sort permutes. *)
Lemma bubble_perm {A} n (l : list (A * Z)) : Permutation (fst (bubble n l)) l.
Proof.
  revert l. induction n as [|n IH]; intros l; [destruct l; apply Permutation_refl|].
  destruct l as [|x [|y l]]; try apply Permutation_refl. cbn [bubble].
  destruct (_ <? _).
  - specialize (IH (x :: l)). destruct (bubble n (x :: l)). simpl in *.
    rewrite IH. apply perm_swap.
  - specialize (IH (y :: l)). destruct (bubble n (y :: l)). simpl in *. now rewrite IH.
Qed.

Lemma passes_perm {A} n (l : list (A * Z)) : Permutation (bubble_passes n l) l.
Proof.
  revert l. induction n as [|n IH]; intros l; [apply Permutation_refl|]. cbn [bubble_passes].
  pose proof (bubble_perm n l) as B. destruct (bubble n l) as [r [|]]; simpl in B; [now rewrite IH|assumption].
Qed.

Lemma sort_perm {A} (sh : list A) st : Permutation (sort_by_stride sh st) (combine sh st).
Proof. unfold sort_by_stride. destruct (_ <=? 1)%nat; [apply Permutation_refl|apply passes_perm]. Qed.

(** A permutation of a list is a permutation of its positions. *)
Lemma perm_positions {A} (d : A) l l' : Permutation l' l ->
  exists p, is_perm p (length l) /\ l' = permute d p l.
Proof.
  intros P. apply Permutation_sym in P. apply Permutation_nth with (d := d) in P.
  cbv zeta in P. destruct P as (L & f & Bf & If & H).
  exists (map f (seq 0 (length l))). split.
  - assert (ND : NoDup (map f (seq 0 (length l)))).
    { assert (G : forall s, (forall x, In x s -> (x < length l)%nat) -> NoDup s -> NoDup (map f s)).
      { induction s as [|x s IHs]; intros Hs N; simpl; constructor; inversion N; subst.
        - intros C. apply in_map_iff in C. destruct C as (y & E & Hy).
          apply If in E; [subst; contradiction| |]; apply Hs; simpl; auto.
        - apply IHs; [|assumption]. intros. apply Hs. simpl. auto. }
      apply G; [|apply seq_NoDup]. intros x Hx. apply in_seq in Hx. lia. }
    assert (I : incl (map f (seq 0 (length l))) (seq 0 (length l))).
    { intros x Hx. apply in_map_iff in Hx. destruct Hx as (y & <- & Hy). apply in_seq in Hy.
      apply in_seq. split; [lia|]. apply Bf. lia. }
    apply NoDup_Permutation_bis; [assumption|now rewrite map_length|assumption].
  - unfold permute. rewrite map_map. apply nth_ext with d d; [now rewrite map_length, seq_length|].
    intros n Hn. rewrite H by congruence.
    symmetry. etransitivity; [apply nth_indep with (d' := nth (f O) l d); rewrite map_length, seq_length; congruence|].
    rewrite (map_nth (fun x => nth (f x) l d)), seq_nth by congruence. reflexivity.
Qed.

Lemma permute_fst p l : permute 0 p (map fst l) = map fst (permute (0, 0) p l).
Proof. unfold permute. rewrite map_map. apply map_ext. intros j. exact (map_nth fst l (0, 0) j). Qed.

Lemma permute_snd p l : permute 0 p (map snd l) = map snd (permute (0, 0) p l).
Proof. unfold permute. rewrite map_map. apply map_ext. intros j. exact (map_nth snd l (0, 0) j). Qed.

Lemma sorted_view (a : nd) : wf a -> let l := sort_by_stride (shape a) (strides a) in
  exists p, is_perm p (ndim a) /\ map fst l = permute 0 p (shape a) /\ map snd l = permute 0 p (strides a).
Proof.
  intros [L _ _] l. destruct (perm_positions (0, 0) _ _ (sort_perm (shape a) (strides a))) as (p & P & E).
  exists p. rewrite combine_length, L, Nat.min_id in P. split; [exact P|]. unfold l. rewrite E.
  rewrite <- permute_fst, <- permute_snd, combine_fst, combine_snd by congruence. auto.
Qed.

Lemma product_perm l l' : Permutation l l' -> product l = product l'.
Proof. induction 1; rewrite ?product_cons in *; lia. Qed.

Lemma permute_perm p sh : is_perm p (length sh) -> Permutation (permute 0 p sh) sh.
Proof.
  intros P. unfold permute. rewrite (Permutation_map (fun j => nth j sh 0) P).
  fold (permute 0 (seq 0 (length sh)) sh). now rewrite permute_seq.
Qed.

(** ** flatten and ravel *)

(** 'A' means 'F' for an array that is Fortran contiguous. *)
Definition flat_order (a : nd) (o : ord) : option order :=
  match o with
  | RC => Some OC
  | RF => Some OF
  | RA => Some (if snd (contig a) then OF else OC)
  | RK => None
  end.

Lemma flat_result (h h' : heap) a o p : wf a -> gives h a o (h', p) ->
  kept h h' /\ elems OC h' (mk (fst p) (snd p) (isz a) [size a] false) = elems o h a.
Proof.
  intros [L F P] [K E]. split; [assumption|].
  unfold size. rewrite count_product, elems_flat by (now apply product_nonneg). exact E.
Qed.

Theorem flatten_ravel_ok (h : heap) a o : wf a -> (blk a < next h)%nat ->
  (o = RF -> snd (contig a) = true \/ (ndim a <= 6)%nat) ->
  forall hr, hr = flatten zero h a o \/ hr = ravel zero h a o ->
  let '(h', r) := hr in
  kept h h' /\ shape r = [product (shape a)] /\
  match flat_order a o with
  | Some od => elems OC h' r = elems od h a
  | None => Permutation (elems OC h' r) (elems OC h a)
  end.
Proof.
  intros W B D hr Hhr. pose proof W as [L F P].
  assert (GC : forall c h' p, contiguous zero c h a = (h', p) ->
    let r := mk (fst p) (snd p) (isz a) [size a] false in
    kept h h' /\ shape r = [product (shape a)] /\ elems OC h' r = elems OC h a).
  { intros c h' p E. pose proof (contiguous_ok h a c W B) as G. rewrite E in G.
    apply flat_result in G; [|assumption]. destruct G. unfold size. simpl. rewrite count_product.
    unfold size in *. rewrite count_product in *. auto. }
  assert (GF : snd (contig a) = true \/ (ndim a <= 6)%nat ->
    forall c h' p, fcontiguous zero c h a = (h', p) ->
    let r := mk (fst p) (snd p) (isz a) [size a] false in
    kept h h' /\ shape r = [product (shape a)] /\ elems OC h' r = elems OF h a).
  { clear D. intros D c h' p E. pose proof (fcontiguous_ok h a c W B D) as G. rewrite E in G.
    apply flat_result in G; [|assumption]. destruct G. unfold size. simpl. rewrite count_product.
    unfold size in *. rewrite count_product in *. auto. }
  set (l := sort_by_stride (shape a) (strides a)) in *.
  set (other := Nd (blk a) (base a) (isz a) (map fst l) (map snd l)) in *.
  assert (GK : forall h' p, contiguous zero true h other = (h', p) ->
    let r := mk (fst p) (snd p) (isz a) [size other] false in
    kept h h' /\ shape r = [product (shape a)] /\ Permutation (elems OC h' r) (elems OC h a)).
  { intros h' p E. destruct (sorted_view a W) as (q & Q & E1 & E2). fold l in E1, E2.
    assert (Wo : wf other).
    { unfold other. split; cbn [strides shape isz]; [now rewrite !map_length| |assumption].
      rewrite E1. apply (Permutation_Forall (Permutation_sym (permute_perm q (shape a) Q))). assumption. }
    pose proof (contiguous_ok h other true Wo B) as G. rewrite E in G.
    apply flat_result in G; [|assumption]. destruct G as [K G].
    assert (SZ : size other = product (shape a)).
    { unfold size, other. cbn [shape]. rewrite count_product, E1. now apply product_perm, permute_perm. }
    split; [assumption|]. split; [cbn [shape mk]; now rewrite SZ|].
    change (isz a) with (isz other) at 1. rewrite G. unfold other. rewrite E1, E2.
    now apply permuted_elems. }
  unfold flatten, ravel in Hhr. fold l other in Hhr. unfold flat_order.
  destruct (contig a) as [cc fc] eqn:C. cbn [fst snd] in *.
  destruct o; [| |destruct fc|];
    destruct Hhr as [->| ->];
    match goal with
    | |- context [contiguous zero ?c h a] => destruct (contiguous zero c h a) as [h' p] eqn:E; exact (GC c h' p E)
    | |- context [fcontiguous zero ?c h a] => destruct (fcontiguous zero c h a) as [h' p] eqn:E; refine (GF _ c h' p E); auto
    | |- context [contiguous zero true h other] => destruct (contiguous zero true h other) as [h' p] eqn:E; exact (GK h' p eq_refl)
    end.
Qed.

(** flatten's result is always new, ravel's shares a contiguous array's memory. *)
Lemma contiguous_fresh (h : heap) a : fst (snd (contiguous zero true h a)) = next h.
Proof. unfold contiguous. destruct (fst (contig a)); reflexivity. Qed.

Lemma fcontiguous_fresh (h : heap) a : fst (snd (fcontiguous zero true h a)) = next h.
Proof. unfold fcontiguous. destruct (snd (contig a)); reflexivity. Qed.

Lemma flatten_fresh (h : heap) a o : blk (snd (flatten zero h a o)) = next h.
Proof.
  unfold flatten. destruct (contig a) as [cc fc].
  destruct o; [| |destruct fc|];
    match goal with
    | |- context [fcontiguous zero true h ?x] => pose proof (fcontiguous_fresh h x) as E; destruct (fcontiguous zero true h x)
    | |- context [contiguous zero true h ?x] => pose proof (contiguous_fresh h x) as E; destruct (contiguous zero true h x)
    end; exact E.
Qed.

Lemma ravel_shares (h : heap) a o od : flat_order a o = Some od ->
  (match od with OC => fst (contig a) | OF => snd (contig a) end) = true ->
  fst (ravel zero h a o) = h /\ blk (snd (ravel zero h a o)) = blk a /\ base (snd (ravel zero h a o)) = base a.
Proof.
  unfold ravel, flat_order, contiguous, fcontiguous. destruct (contig a) as [cc fc]. cbn [fst snd].
  intros H C. destruct o; [| |destruct fc|discriminate]; injection H as <-; cbn [fst snd] in *; subst; auto.
Qed.

(** ** transpose and swapaxes *)

Lemma mapm_ok {A B} (f : A -> res B) l r : mapm f l = Ok r -> Forall2 (fun x y => f x = Ok y) l r.
Proof.
  revert r. induction l as [|x l IH]; intros r H; simpl in H; [injection H as <-; constructor|].
  destruct (f x) as [y| | |] eqn:E; try discriminate. simpl in H.
  destruct (mapm f l) as [s| | |]; try discriminate. simpl in H. injection H as <-.
  constructor; auto.
Qed.

Lemma mapm_total {A B} (f : A -> res B) e l :
  (forall x, (exists y, f x = Ok y) \/ f x = Raise e) ->
  (exists r, mapm f l = Ok r) \/ mapm f l = Raise e.
Proof.
  intros H. induction l as [|x l IH]; simpl; [eauto|].
  destruct (H x) as [[y ->]| ->]; simpl; [|auto]. destruct IH as [[r ->]| ->]; simpl; eauto.
Qed.

Lemma has_duplicate_spec {A} (eqb : A -> A -> bool) l :
  (forall x y, eqb x y = true <-> x = y) -> (has_duplicate eqb l = false <-> NoDup l).
Proof.
  intros H. induction l as [|x l IH]; simpl; [split; constructor|].
  rewrite orb_false_iff, IH. split.
  - intros [E N]. constructor; [|assumption]. intros C.
    assert (existsb (eqb x) l = true); [|congruence]. apply existsb_exists. exists x. split; [assumption|now apply H].
  - intros N. inversion N; subst. split; [|assumption].
    destruct (existsb (eqb x) l) eqn:E; [|reflexivity]. apply existsb_exists in E.
    destruct E as (y & Hy & E). apply H in E. subst. contradiction.
Qed.

(** The axis meant by a possibly negative number. *)
Definition axis_of (n : nat) (ax : Z) (j : nat) : Prop :=
  - Z.of_nat n <= ax < Z.of_nat n /\ Z.of_nat j = wrap (Z.of_nat n) ax.

Lemma normalize_axis n ax :
  (exists j, normalize_axis_index ax n = Ok j /\ axis_of n ax j) \/
  (normalize_axis_index ax n = Raise OtherError /\ ~ (- Z.of_nat n <= ax < Z.of_nat n)).
Proof.
  unfold normalize_axis_index, axis_of, wrap.
  destruct (Z.ltb_spec ax (- Z.of_nat n)); simpl; [right; split; [reflexivity|lia]|].
  destruct (Z.leb_spec (Z.of_nat n) ax); simpl; [right; split; [reflexivity|lia]|].
  left. eexists. split; [reflexivity|]. split; [lia|]. destruct (Z.ltb_spec ax 0); lia.
Qed.

Lemma axes_perm n axs : NoDup axs -> length axs = n -> (forall j, In j axs -> (j < n)%nat) -> is_perm axs n.
Proof.
  intros N L B. unfold is_perm. apply NoDup_Permutation_bis; [assumption|rewrite seq_length; lia|].
  intros j Hj. apply in_seq. specialize (B j Hj). lia.
Qed.

(** Result of putting the axes of [a] in the order [p]: axis [k] of the result is axis
    [p_k] of [a]. *)
Definition transposed (p : list nat) (a r : nd) : Prop :=
  wf r /\ shape r = permute 0 p (shape a) /\ is_perm p (ndim a) /\
  (forall c, inside (shape a) c -> ptr r (permute 0 p c) = ptr a c) /\
  (forall c', inside (shape r) c' -> exists c, inside (shape a) c /\ c' = permute 0 p c).

Lemma transposed_ok p a : wf a -> is_perm p (ndim a) ->
  transposed p a (Nd (blk a) (base a) (isz a) (permute 0 p (shape a)) (permute 0 p (strides a))).
Proof.
  intros W P. pose proof W as [L F I]. split; [|split; [reflexivity|split; [assumption|split]]].
  - split; cbn [strides shape isz]; [now rewrite !permute_length| |assumption].
    apply (Permutation_Forall (Permutation_sym (permute_perm p (shape a) P))). assumption.
  - intros c Hc. apply inside_length in Hc. unfold ptr. cbn [blk base strides].
    rewrite dot_permute; [reflexivity|unfold ndim in P; congruence|congruence].
  - cbn [shape]. intros c' H. destruct (permute_onto p (shape a) c' P H) as (c & Hc & <-). eauto.
Qed.

Lemma rev_permute {A} (d : A) l : rev l = permute d (rev (seq 0 (length l))) l.
Proof. unfold permute. rewrite map_rev. f_equal. symmetry. apply (permute_seq d l). Qed.

Theorem transpose_ok a axes : wf a -> (axes = [] \/ length axes = ndim a) ->
  (exists p r, transpose a axes = Ok r /\ transposed p a r /\
     (axes = [] -> p = rev (seq 0 (ndim a))) /\ (axes <> [] -> Forall2 (axis_of (ndim a)) axes p)) \/
  (transpose a axes = Raise OtherError /\ exists ax, In ax axes /\ ~ (- Z.of_nat (ndim a) <= ax < Z.of_nat (ndim a))) \/
  (transpose a axes = Raise ValueError /\ exists p, Forall2 (axis_of (ndim a)) axes p /\ ~ NoDup p).
Proof.
  intros W HL. pose proof W as [L F I]. destruct axes as [|ax axes].
  - left. exists (rev (seq 0 (ndim a))). eexists. split; [reflexivity|].
    split; [|split; [auto|congruence]]. unfold ndim.
    rewrite (rev_permute 0 (shape a)), (rev_permute 0 (strides a)), L.
    apply transposed_ok; [assumption|]. unfold is_perm. symmetry. apply Permutation_rev.
  - destruct HL as [HL|HL]; [discriminate|]. cbn [transpose]. rewrite HL, Nat.eqb_refl. cbn [negb].
    remember (ax :: axes) as l eqn:El. assert (NE : l <> []) by congruence. clear El ax axes.
    assert (G : (exists p, mapm (fun ax => normalize_axis_index ax (ndim a)) l = Ok p /\ Forall2 (axis_of (ndim a)) l p) \/
      (mapm (fun ax => normalize_axis_index ax (ndim a)) l = Raise OtherError /\
       exists ax, In ax l /\ ~ (- Z.of_nat (ndim a) <= ax < Z.of_nat (ndim a)))).
    { clear HL NE. induction l as [|ax l IH]; [left; exists []; split; [reflexivity|constructor]|]. cbn [mapm].
      destruct (normalize_axis (ndim a) ax) as [(j & -> & Hj)|[-> Hj]]; cbn [bind].
      - destruct IH as [(p & -> & Hp)|[-> (x & Hx & Hx')]]; cbn [bind].
        + left. exists (j :: p). auto.
        + right. split; [reflexivity|]. exists x. simpl. auto.
      - right. split; [reflexivity|]. exists ax. simpl. auto. }
    destruct G as [(p & -> & Hp)|[-> G]]; cbn [bind]; [|right; left; auto].
    destruct (has_duplicate Nat.eqb p) eqn:D.
    + right. right. split; [reflexivity|]. exists p. split; [assumption|]. intros N.
      apply (has_duplicate_spec Nat.eqb) in N; [congruence|]. intros. apply Nat.eqb_eq.
    + left. exists p. eexists. split; [reflexivity|]. split; [|split; [congruence|auto]].
      apply transposed_ok; [assumption|]. apply axes_perm.
      * apply (has_duplicate_spec Nat.eqb); [intros; apply Nat.eqb_eq|assumption].
      * rewrite <- HL. clear - Hp. induction Hp; simpl; congruence.
      * intros j Hj. clear - Hp Hj. induction Hp as [|x y l p Hx H IH]; [contradiction|].
        destruct Hj as [->|Hj]; [|auto]. destruct Hx as [H1 H2]. unfold wrap in H2.
        destruct (Z.ltb_spec x 0); lia.
Qed.

Definition swap_perm (i j n : nat) : list nat :=
  map (fun k => if (k =? i)%nat then j else if (k =? j)%nat then i else k) (seq 0 n).

Lemma swap_at_permute i j l : swap_at i j l = permute 0 (swap_perm i j (length l)) l.
Proof. unfold swap_at, permute, swap_perm. now rewrite map_map. Qed.

Lemma swap_is_perm i j n : (i < n)%nat -> (j < n)%nat -> is_perm (swap_perm i j n) n.
Proof.
  intros Hi Hj. apply axes_perm.
  - unfold swap_perm. apply FinFun.Injective_map_NoDup; [|apply seq_NoDup]. intros x y.
    destruct (Nat.eqb_spec x i), (Nat.eqb_spec x j), (Nat.eqb_spec y i), (Nat.eqb_spec y j); congruence.
  - unfold swap_perm. now rewrite map_length, seq_length.
  - intros k Hk. unfold swap_perm in Hk. apply in_map_iff in Hk. destruct Hk as (x & <- & Hx).
    apply in_seq in Hx. destruct (x =? i)%nat, (x =? j)%nat; lia.
Qed.

Theorem swapaxes_ok a ax1 ax2 : wf a ->
  (exists i j r, swapaxes a ax1 ax2 = Ok r /\ axis_of (ndim a) ax1 i /\ axis_of (ndim a) ax2 j /\
     transposed (swap_perm i j (ndim a)) a r) \/
  (swapaxes a ax1 ax2 = Raise OtherError /\
   ~ (- Z.of_nat (ndim a) <= ax1 < Z.of_nat (ndim a) /\ - Z.of_nat (ndim a) <= ax2 < Z.of_nat (ndim a))).
Proof.
  intros W. pose proof W as [L F I]. unfold swapaxes.
  destruct (normalize_axis (ndim a) ax1) as [(i & -> & Hi)|[-> Hi]]; cbn [bind]; [|right; split; [reflexivity|tauto]].
  destruct (normalize_axis (ndim a) ax2) as [(j & -> & Hj)|[-> Hj]]; cbn [bind]; [|right; split; [reflexivity|tauto]].
  left. exists i, j. eexists. split; [reflexivity|]. split; [assumption|]. split; [assumption|].
  rewrite !swap_at_permute, L. apply transposed_ok; [assumption|].
  destruct Hi as [Hi1 Hi2], Hj as [Hj1 Hj2]. unfold wrap in *.
  apply swap_is_perm; [destruct (Z.ltb_spec ax1 0); lia|destruct (Z.ltb_spec ax2 0); lia].
Qed.

Lemma fix_axis n ax : (exists j, fix_index ax n = Ok j /\ axis_of n ax j) \/
  (fix_index ax n = Raise IndexError /\ ~ (- Z.of_nat n <= ax < Z.of_nat n)).
Proof.
  unfold fix_index, axis_of, wrap. destruct (Z.ltb_spec ax 0).
  - destruct (Z.ltb_spec (ax + Z.of_nat n) 0); simpl; [right; split; [reflexivity|lia]|].
    destruct (Z.leb_spec (Z.of_nat n) (ax + Z.of_nat n)); simpl; [right; split; [reflexivity|lia]|].
    left. eexists. split; [reflexivity|]. split; lia.
  - destruct (Z.ltb_spec ax 0); simpl; [right; split; [reflexivity|lia]|].
    destruct (Z.leb_spec (Z.of_nat n) ax); simpl; [right; split; [reflexivity|lia]|].
    left. eexists. split; [reflexivity|]. split; lia.
Qed.

Theorem transpose_list_ok a axes : wf a -> Forall (fun ax => 0 <= ax) axes ->
  (exists p r, transpose_list a axes = Ok r /\ transposed p a r /\ axes = map Z.of_nat p) \/
  (exists e, transpose_list a axes = Raise e /\ forall p, is_perm p (ndim a) -> axes <> map Z.of_nat p).
Proof.
  intros W NN. unfold transpose_list.
  destruct (Nat.eqb_spec (length axes) (ndim a)) as [HL|HL]; cbn [negb].
  2:{ right. eexists. split; [reflexivity|]. intros p P ->. apply HL. rewrite map_length. now apply is_perm_length. }
  destruct (has_duplicate Z.eqb axes) eqn:D.
  { right. eexists. split; [reflexivity|]. intros p P ->.
    assert (N : NoDup (map Z.of_nat p)).
    { apply FinFun.Injective_map_NoDup; [intros x y; apply Nat2Z.inj|].
      eapply Permutation_NoDup; [apply Permutation_sym; exact P|apply seq_NoDup]. }
    apply (has_duplicate_spec Z.eqb) in N; [congruence|]. intros. apply Z.eqb_eq. }
  apply (has_duplicate_spec Z.eqb) in D; [|intros; apply Z.eqb_eq].
  assert (G : (exists p, mapm (fun ax => fix_index ax (ndim a)) axes = Ok p /\ axes = map Z.of_nat p /\ forall j, In j p -> (j < ndim a)%nat) \/
    (mapm (fun ax => fix_index ax (ndim a)) axes = Raise IndexError /\ exists ax, In ax axes /\ Z.of_nat (ndim a) <= ax)).
  { clear HL D. induction NN as [|ax axes H NN IH]; [left; exists []; split; [reflexivity|split; [reflexivity|contradiction]]|].
    cbn [mapm]. destruct (fix_axis (ndim a) ax) as [(j & -> & Hj & Ej)|[-> Hj]]; cbn [bind].
    - unfold wrap in Ej. destruct (Z.ltb_spec ax 0); [lia|].
      destruct IH as [(p & -> & -> & Hp)|[-> (x & Hx & Hx')]]; cbn [bind].
      + left. exists (j :: p). split; [reflexivity|]. split; [simpl; congruence|].
        intros k [<-|Hk]; [lia|auto].
      + right. split; [reflexivity|]. exists x. simpl. auto.
    - right. split; [reflexivity|]. exists ax. split; [simpl; auto|lia]. }
  destruct G as [(p & -> & -> & Hp)|[-> (ax & Hx & Hb)]]; cbn [bind].
  - left. exists p. eexists. split; [reflexivity|]. split; [|reflexivity].
    apply transposed_ok; [assumption|]. apply axes_perm; [|now rewrite map_length in HL|assumption].
    now apply NoDup_map_inv in D.
  - right. eexists. split; [reflexivity|]. intros p P ->. apply in_map_iff in Hx. destruct Hx as (j & <- & Hj).
    apply (Permutation_in _ P) in Hj. apply in_seq in Hj. lia.
Qed.

End Views.
