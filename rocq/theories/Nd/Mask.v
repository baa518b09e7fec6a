(** Proofs about [Nd.MaskModel]. *)
From Coq Require Import List ZArith Lia Bool Permutation.
From Verif.Common Require Import Result Int64.
From Verif.Nd Require Import Spec Model Grid Copy Reshape Views IndexModel Index MaskModel.
Import ListNotations.
Local Open Scope Z_scope.

Lemma same_extents_ok sh : forall ms sz, length ms = length sh ->
  same_extents sh ms sz = if list_eq_dec Z.eq_dec sh ms then Some (sz * product sh) else None.
Proof.
  induction sh as [|d sh IH]; intros [|e ms] sz L; simpl in L; try discriminate.
  - simpl. f_equal. change (product []) with 1. lia.
  - cbn [same_extents]. destruct (Z.eqb_spec d e) as [->|N]; cbn [negb].
    + rewrite IH by lia. destruct (list_eq_dec Z.eq_dec sh ms) as [->|N].
      * match goal with |- context [list_eq_dec Z.eq_dec ?a ?b] => destruct (list_eq_dec Z.eq_dec a b) end; [|congruence]. f_equal. rewrite product_cons. lia.
      * match goal with |- context [list_eq_dec Z.eq_dec ?a ?b] => destruct (list_eq_dec Z.eq_dec a b) end; [congruence|reflexivity].
    + match goal with |- context [list_eq_dec Z.eq_dec ?a ?b] => destruct (list_eq_dec Z.eq_dec a b) end; [congruence|reflexivity].
Qed.

Lemma combine_map {A B C} (f : A -> B) (g : A -> C) l : combine (map f l) (map g l) = map (fun x => (f x, g x)) l.
Proof. induction l; simpl; congruence. Qed.

Lemma combine_same {A B} (f : A -> B) (g : A -> B) l1 l2 l3 : map f l3 = l1 -> map g l3 = l2 ->
  combine l1 l2 = map (fun x => (f x, g x)) l3.
Proof. intros <- <-. apply combine_map. Qed.

Lemma linear_c a : wf a -> fst (contig a) = true -> linear a (product (shape a)) = map (ptr a) (grid (shape a)).
Proof.
  intros W C. symmetry. apply (ptr_line OC a). apply contig_c; assumption.
Qed.

Lemma visited_ok a m : wf a -> wf m -> shape m = shape a ->
  visited a m (product (shape a)) = map (fun c => (ptr m c, ptr a c)) (grid (shape a)).
Proof.
  intros Wa Wm S. unfold visited. rewrite multirange_grid.
  destruct (fst (contig a)) eqn:Ca; [|reflexivity]. destruct (fst (contig m)) eqn:Cm; [|reflexivity]. cbn [andb].
  rewrite (linear_c a Wa Ca). rewrite <- S, (linear_c m Wm Cm). apply combine_map.
Qed.

Section Mask.
Context {V : Type} (zero : V) (tr : V -> bool).
Local Notation heap := (heap V).

Lemma count_fold (h : heap) ps n :
  fold_left (fun n p => if tr (load h p) then n + 1 else n) ps n = n + Z.of_nat (length (filter (fun p => tr (load h p)) ps)).
Proof.
  revert n. induction ps as [|p ps IH]; intros n; simpl; [lia|]. rewrite IH. destruct (tr (load h p)); simpl; lia.
Qed.

Lemma filter_perm {A} (f : A -> bool) l1 l2 : Permutation l1 l2 -> length (filter f l1) = length (filter f l2).
Proof.
  induction 1; simpl; [reflexivity| | |congruence].
  - destruct (f x); simpl; congruence.
  - destruct (f x), (f y); reflexivity.
Qed.

Lemma filter_map {A B} (f : B -> bool) (g : A -> B) l : filter f (map g l) = map g (filter (fun x => f (g x)) l).
Proof. induction l as [|x l IH]; simpl; [reflexivity|]. destruct (f (g x)); simpl; congruence. Qed.

Lemma ogrid_perm o sh : Permutation (ogrid o sh) (grid sh).
Proof.
  apply NoDup_Permutation; [apply ogrid_nodup|apply grid_nodup|]. intros c. now rewrite ogrid_in, grid_in.
Qed.

Lemma num_true_ok (h : heap) m : wf m ->
  num_true tr h m (product (shape m)) = Z.of_nat (length (filter (fun c => tr (load h (ptr m c))) (grid (shape m)))).
Proof.
  intros W. unfold num_true. rewrite count_fold, Z.add_0_l. f_equal.
  replace (length (filter (fun c => tr (load h (ptr m c))) (grid (shape m)))) with
    (length (filter (fun p => tr (load h p)) (map (ptr m) (grid (shape m))))) by (now rewrite filter_map, map_length).
  apply filter_perm. destruct (is_contig m) eqn:C; [|now rewrite multirange_grid].
  destruct (contig_lines m W C) as [o E]. apply ptr_line in E. unfold linear. rewrite <- E. apply Permutation_map, ogrid_perm.
Qed.

(** The cells of the array selected by the mask's present contents. *)
Definition selected (h : heap) (ps : list ((nat * Z) * (nat * Z))) : list (nat * Z) :=
  map snd (filter (fun x => tr (load h (fst x))) ps).

Lemma selected_ext (h h' : heap) ps : (forall x, In x ps -> load h' (fst x) = load h (fst x)) -> selected h' ps = selected h ps.
Proof.
  intros E. unfold selected. f_equal. induction ps as [|x ps IH]; [reflexivity|]. cbn [filter].
  rewrite (E x) by (simpl; auto). rewrite IH; [reflexivity|]. intros y Hy. apply E. simpl. auto.
Qed.

Lemma get_loop_ok b e (E0 : e <> 0) ps : forall (h : heap) k,
  (forall x, In x ps -> fst (fst x) <> b /\ fst (snd x) <> b) ->
  let h' := get_loop tr h ps b e k in
  next h' = next h /\
  (forall p, fst p <> b -> load h' p = load h p) /\
  (forall i, i < k -> load h' (b, i * e) = load h (b, i * e)) /\
  (forall j p, nth_error (selected h ps) j = Some p -> load h' (b, (k + Z.of_nat j) * e) = load h p).
Proof.
  induction ps as [|[m p] ps IH]; intros h k D; cbn [get_loop].
  - repeat split; auto. intros [|j] p H; discriminate.
  - destruct (D (m, p)) as [Dm Dp]; [simpl; auto|]. cbn [fst snd] in *.
    unfold selected. cbn [filter fst]. destruct (tr (load h m)) eqn:T.
    + specialize (IH (store h (b, k * e) (load h p)) (k + 1)).
      destruct IH as (N & O & B & G); [intros x Hx; apply D; simpl; auto|].
      split; [exact N|]. split.
      { intros q Hq. rewrite O by assumption. apply load_store_other. intros ->. now apply Hq. }
      split.
      { intros i Hi. rewrite B by lia. apply load_store_other. intros X. injection X as X. nia. }
      intros [|j] q Hq; cbn [map nth_error snd] in Hq.
      * injection Hq as <-. rewrite Z.add_0_r, B by lia. apply load_store_same.
      * replace (k + Z.of_nat (S j)) with (k + 1 + Z.of_nat j) by lia.
        assert (In q (map snd (filter (fun x => tr (load h (fst x))) ps))) as I by (eapply nth_error_In; exact Hq).
        apply in_map_iff in I. destruct I as (x & <- & I). apply filter_In in I. destruct I as [I _].
        rewrite (G j (snd x)).
        -- apply load_store_other. intros X. destruct (D x) as [_ Dx]; [simpl; auto|]. rewrite X in Dx. now apply Dx.
        -- rewrite selected_ext with (h := h); [exact Hq|]. intros y Hy. apply load_store_other.
           intros X. destruct (D y) as [Dy _]; [simpl; auto|]. rewrite X in Dy. now apply Dy.
    + apply (IH h k). intros x Hx. apply D. simpl. auto.
Qed.
(** A cell that is written is the cell of the mask of no later element. *)
Lemma set_loop_ok src ps : forall (h : heap) k, NoDup (map snd ps) ->
  (forall x y, In x ps -> In y ps -> fst x = snd y -> snd x = snd y) ->
  (forall x j, In x ps -> (j < length (selected h ps))%nat -> src (k + Z.of_nat j) <> snd x) ->
  let h' := set_loop tr h ps src k in
  next h' = next h /\
  (forall p, ~ In p (selected h ps) -> load h' p = load h p) /\
  (forall j p, nth_error (selected h ps) j = Some p -> load h' p = load h (src (k + Z.of_nat j))).
Proof.
  induction ps as [|[m p] ps IH]; intros h k N M S; cbn [set_loop].
  - repeat split; auto. intros [|j] p H; discriminate.
  - cbn [map snd] in N. apply NoDup_cons_iff in N. destruct N as [Np N].
    assert (M' : forall x y, In x ps -> In y ps -> fst x = snd y -> snd x = snd y) by (intros x y Hx Hy; apply M; simpl; auto).
    assert (Same : selected (store h p (load h (src k))) ps = selected h ps).
    { apply selected_ext. intros x Hx. apply load_store_other. intros X. apply Np.
      replace p with (snd x) by (apply (M x (m, p)); simpl; auto). now apply in_map. }
    unfold selected at 1 2. unfold selected in S at 1. cbn [filter fst] in *. destruct (tr (load h m)) eqn:T.
    + cbn [map snd length] in *. fold (selected h ps) in *.
      specialize (IH (store h p (load h (src k))) (k + 1) N M'). rewrite Same in IH.
      destruct IH as (Nx & O & G).
      { intros x j Hx Hj. replace (k + 1 + Z.of_nat j) with (k + Z.of_nat (Datatypes.S j)) by lia. apply S; [simpl; auto|lia]. }
      split; [exact Nx|]. split.
      { intros q Hq. simpl in Hq. rewrite O by tauto. apply load_store_other. intuition. }
      intros [|j] q Hq; cbn [nth_error] in Hq.
      * injection Hq as <-. rewrite Z.add_0_r, O; [apply load_store_same|]. intros I. apply Np.
        apply in_map_iff in I. destruct I as (x & <- & I). apply filter_In in I. apply in_map. tauto.
      * rewrite (G j q Hq). replace (k + 1 + Z.of_nat j) with (k + Z.of_nat (Datatypes.S j)) by lia.
        apply load_store_other. apply (S (m, p)); [simpl; auto|].
        assert (nth_error (selected h ps) j <> None) as X by congruence. apply nth_error_Some in X. simpl. lia.
    + apply (IH h k N M'). intros x j Hx Hj. apply S; [simpl; auto|assumption].
Qed.

End Mask.
