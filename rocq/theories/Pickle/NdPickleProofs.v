(** Loading a pickled array. *)
From Coq Require Import List ZArith Lia Bool ZifyBool.
From Verif.Common Require Import Result Int64 Arr Tac.
From Verif.Nd Require Import Spec Model Grid.
From Verif.Pickle Require Import PickleModel PickleSpec PickleProofs NdPickleModel.
Import ListNotations.
Local Open Scope Z_scope.
Local Open Scope res_scope.

(** No padding anywhere in the memory image. *)
Fixpoint packed (t : ty) : bool :=
  match t with
  | TPair a b =>
      packed a && packed b && (padding (sizeof a) (align b) =? 0)%nat &&
      (padding (sizeof a + padding (sizeof a) (align b) + sizeof b) (Nat.max (align a) (align b)) =? 0)%nat
  | _ => true
  end.

Section NdPickle.
Context (eqb : forall t, den t -> den t -> bool) (hash : forall t, den t -> Z).
Context (junk : nat -> list Z) (t : ty).
Notation heap := (@heap (den t)).
Notation valid := (valid eqb hash). Notation same := (same eqb hash).

Lemma packed_pickle u : atomic u = true -> packed u = true -> forall v, pickle junk u v = Ok (image u v).
Proof.
  induction u; intros A P v; try discriminate; cbn [pickle]; try (now apply write_ok).
  cbn in A, P. apply andb_true_iff in A. destruct A as [A1 A2].
  apply andb_true_iff in P. destruct P as [P P4]. apply andb_true_iff in P. destruct P as [P P3]. apply andb_true_iff in P. destruct P as [P1 P2].
  apply Nat.eqb_eq in P3, P4. rewrite IHu1, IHu2 by auto. cbn [bind image]. rewrite P4, P3. cbn [repeat app]. now rewrite app_nil_r.
Qed.
Lemma atomic_same u : atomic u = true -> forall y, same u y y.
Proof. induction u; intros H y; try discriminate; cbn; auto. cbn in H. apply andb_true_iff in H. destruct H. auto. Qed.

Lemma pickle_all_ext {A} (f g : A -> res (list Z)) l : (forall x, f x = g x) -> pickle_all f l = pickle_all g l.
Proof. intros H. induction l; cbn; auto. now rewrite H, IHl. Qed.
Lemma pickle_all_images {A} (f : A -> den t) l : (forall x, pickle junk t (f x) = Ok (image t (f x))) ->
  pickle_all (fun x => pickle junk t (f x)) l = Ok (concat (map (image t) (map f l))).
Proof. intros H. induction l as [|x l IH]; cbn; auto. now rewrite H, IH. Qed.

(** ** The filled block *)
Lemma fill_other (h : heap) b vs : forall i p, (forall j, i <= j < i + zlen vs -> p <> (b, j * Z.of_nat (sizeof t))) ->
  load (fill t h b i vs) p = load h p.
Proof.
  revert h. induction vs as [|v vs IH]; intros h i p H; cbn [fill]; auto. rewrite IH.
  - unfold load, store. cbn [cell fst snd]. destruct p as [b' o]. cbn.
    destruct (b' =? b)%nat eqn:E1, (o =? i * Z.of_nat (sizeof t)) eqn:E2; auto.
    apply Nat.eqb_eq in E1. apply Z.eqb_eq in E2. subst. exfalso. apply (H i); auto. unfold zlen. cbn [length]. lia.
  - intros j Hj. apply H. unfold zlen in *. cbn [length]. lia.
Qed.
Lemma fill_at (h : heap) b vs : (0 < sizeof t)%nat -> forall i k d, 0 <= i -> (k < length vs)%nat ->
  load (fill t h b i vs) (b, (i + Z.of_nat k) * Z.of_nat (sizeof t)) = nth k vs d.
Proof.
  intros SP. revert h. induction vs as [|v vs IH]; intros h i k d Hi Hk; [cbn in Hk; lia|]. cbn [fill]. destruct k as [|k].
  - rewrite fill_other.
    + unfold load, store. cbn [cell fst snd nth]. rewrite Nat.eqb_refl. replace (i + Z.of_nat 0) with i by lia. now rewrite Z.eqb_refl.
    + intros j Hj E. injection E as E. nia.
  - cbn [nth]. replace (i + Z.of_nat (S k)) with (i + 1 + Z.of_nat k) by lia. apply IH; [lia|]. cbn in Hk. lia.
Qed.

(** Position of a coordinate in a listing of the grid whose offsets form a line. *)
Lemma line_index (G : list (list Z)) (f : list Z -> Z) n s c : map f G = line n s 0 -> In c G ->
  exists k, (k < length G)%nat /\ nth k G [] = c /\ f c = Z.of_nat k * s.
Proof.
  intros E I. destruct (In_nth G c [] I) as (k & Hk & EK). exists k. split; auto. split; auto.
  assert (L : length G = Z.to_nat n). { apply (f_equal (@length Z)) in E. unfold line in E. rewrite !map_length, zrange_length in E. exact E. }
  rewrite <- EK, <- (map_nth f). rewrite (nth_indep _ _ 0) by (now rewrite map_length). rewrite E.
  unfold line, zrange. rewrite map_map. rewrite (nth_indep _ 0 (0 + Z.of_nat 0 * s)) by (rewrite map_length, seq_length; lia).
  rewrite (map_nth (fun x => 0 + Z.of_nat x * s)). rewrite seq_nth by lia. reflexivity.
Qed.

Definition order_of (f : bool) : order := if f then OF else OC.
Lemma offsets_mk sh f : Forall (fun d => 0 <= d) sh ->
  map (fun c => 0 + dot c (mk_strides sh f (Z.of_nat (sizeof t)))) (ogrid (order_of f) sh) = line (product sh) (Z.of_nat (sizeof t)) 0.
Proof. intros H. destruct f; [apply foffs_mk|apply offs_mk]; auto. Qed.

(** The loaded array, when the elements [vs] were listed in the order of [f]. *)
Lemma loaded (h : heap) sh f (g : list Z -> den t) vs : (0 < sizeof t)%nat -> Forall (fun d => 0 <= d) sh ->
  Forall2 (same t) (map g (ogrid (order_of f) sh)) vs ->
  let h0 := fst (alloc (dummy t) h) in let b := snd (alloc (dummy t) h) in
  let a' := mk b 0 (Z.of_nat (sizeof t)) sh f in let h' := fill t h0 b 0 vs in
  (forall c, inside sh c -> same t (g c) (load h' (ptr a' c))) /\
  (forall p, (fst p < next h)%nat -> load h' p = load h p).
Proof.
  intros SP NN F2. cbv zeta. split.
  - intros c Hc. apply (ogrid_in (order_of f)) in Hc.
    destruct (line_index _ _ _ _ c (offsets_mk sh f NN) Hc) as (k & Hk & EK & EO).
    unfold ptr, mk. cbn [blk base strides snd alloc]. rewrite EO.
    pose proof (F2_len _ _ _ F2) as L. rewrite map_length in L.
    replace (Z.of_nat k * Z.of_nat (sizeof t)) with ((0 + Z.of_nat k) * Z.of_nat (sizeof t)) by lia.
    rewrite (fill_at _ _ _ SP 0 k (dummy t)) by lia. rewrite <- EK.
    assert (G : forall l l', Forall2 (same t) l l' -> forall k, (k < length l)%nat -> same t (nth k l (dummy t)) (nth k l' (dummy t))).
    { clear. induction 1 as [|x y l l' Hx F IH]; intros k Hk; [cbn in Hk; lia|]. destruct k; cbn; auto. apply IH. cbn in Hk. lia. }
    specialize (G _ _ F2 k). rewrite map_length in G. specialize (G Hk).
    rewrite (nth_indep _ (dummy t) (g [])) in G by (now rewrite map_length). now rewrite (map_nth g) in G.
  - intros p Hp. rewrite fill_other.
    + unfold load, alloc. cbn. replace (fst p =? next h)%nat with false; auto. symmetry. apply Nat.eqb_neq. lia.
    + intros j _ E. subst p. cbn in Hp. lia.
Qed.

Definition supported (a : nd) : Prop :=
  if atomic t then packed t = true \/ is_contig a = true else fst (contig a) = true \/ snd (contig a) = false.

Lemma all_eq {A} (f : A -> res (list Z)) (d : list Z -> res (A * list Z)) (l : list A) :
  Forall (fun x => exists bs, f x = Ok bs /\ codes d bs x) l ->
  exists bs, pickle_all f l = Ok bs /\ codes (unpickle_all d (length l)) bs l.
Proof.
  intros H. destruct (all_ok eq f d l) as (bs & l' & E & C & F).
  - eapply Forall_impl; [|exact H]. intros x (b & ? & ?). exists b, x. auto.
  - exists bs. split; auto. assert (l = l'); [|now subst]. clear -F. induction F; congruence.
Qed.

Lemma pickle_all_map {A B} (g : A -> B) (f : B -> res (list Z)) l : pickle_all (fun x => f (g x)) l = pickle_all f (map g l).
Proof. induction l; cbn; auto. now rewrite IHl. Qed.

Theorem nd_pickle_ok (h h0 : heap) (a : nd) : wf a -> isz a = Z.of_nat (sizeof t) -> Forall in64 (shape a) ->
  product (shape a) * Z.of_nat (sizeof t) < 2^63 ->
  (forall c, inside (shape a) c -> valid t (load h (ptr a c))) -> supported a ->
  exists bs h' a', nd_pickle junk t h a = Ok bs /\ codes (nd_unpickle eqb hash t h0 (ndim a)) bs (h', a') /\
    shape a' = shape a /\ isz a' = isz a /\
    (forall c, inside (shape a) c -> same t (load h (ptr a c)) (load h' (ptr a' c))) /\
    (forall p, (fst p < next h0)%nat -> load h' p = load h0 p).
Proof.
  intros W EI I64 LIM V SUP. pose proof (wf_dims a W) as NN. pose proof (wf_isz a W) as IZ.
  assert (SP : (0 < sizeof t)%nat) by lia.
  unfold nd_pickle. destruct (contig a) as [cc fc] eqn:EC. set (forder := fc && negb cc).
  set (g := fun c => load h (ptr a c)).
  assert (GP : forall c, In c (ogrid (order_of forder) (shape a)) -> valid t (g c)) by (intros c Hc; apply V; now apply (ogrid_in (order_of forder))).
  (* the data part *)
  assert (D : exists db vs,
     (if atomic t && (fc || cc) then
          write_raw (concat (map (fun i => image t (load h (blk a, base a + i * isz a))) (zrange (size a)))) (w64 (size a * isz a))
      else pickle_all (fun c => pickle junk t (load h (ptr a c))) (multirange (shape a))) = Ok db /\
     codes (fun inp => if atomic t then
        ' (bs, inp) <- read_raw inp (w64 (count (shape a) * Z.of_nat (sizeof t))) ;; Ok (cut t (Z.to_nat (count (shape a))) bs, inp)
        else unpickle_all (unpickle eqb hash t) (Z.to_nat (count (shape a))) inp) db vs /\
     Forall2 (same t) (map g (ogrid (order_of forder) (shape a))) vs).
  { pose proof (product_nonneg _ NN) as PN. unfold size. rewrite count_product.
    assert (GL : length (grid (shape a)) = Z.to_nat (product (shape a))) by (pose proof (grid_length _ NN); lia).
    assert (FL : length (fgrid (shape a)) = Z.to_nat (product (shape a))).
    { unfold fgrid. rewrite map_length. assert (Forall (fun d => 0 <= d) (rev (shape a))) by now apply Forall_rev.
      pose proof (grid_length _ H). rewrite product_rev in H0. lia. }
    assert (OL : length (ogrid (order_of forder) (shape a)) = Z.to_nat (product (shape a))) by (destruct forder; auto).
    assert (B64 : w64 (product (shape a) * Z.of_nat (sizeof t)) = product (shape a) * Z.of_nat (sizeof t)) by (apply w64_id; now apply in64_prod).
    destruct (atomic t) eqn:A; cbn [andb].
    - assert (RD : codes (fun inp => ' (bs, inp) <- read_raw inp (w64 (product (shape a) * Z.of_nat (sizeof t))) ;; Ok (cut t (Z.to_nat (product (shape a))) bs, inp))
          (concat (map (image t) (map g (ogrid (order_of forder) (shape a))))) (map g (ogrid (order_of forder) (shape a)))).
      { eapply codes_map; [apply codes_raw|].
        - rewrite B64, concat_len by auto. unfold zlen. rewrite map_length, OL. lia.
        - replace (Z.to_nat (product (shape a))) with (length (map g (ogrid (order_of forder) (shape a)))) by (now rewrite map_length).
          apply (cut_concat eqb hash); auto. apply Forall_forall. intros x Hx. apply in_map_iff in Hx. destruct Hx as (c & <- & Hc). auto. }
      assert (SS : Forall2 (same t) (map g (ogrid (order_of forder) (shape a))) (map g (ogrid (order_of forder) (shape a)))).
      { assert (G : forall l, Forall2 (same t) l l) by (clear -A; induction l; constructor; auto; now apply atomic_same). apply G. }
      eexists; eexists. split; [|split; [exact RD|exact SS]].
      destruct (fc || cc) eqn:FC.
      + assert (EL : map (fun i => image t (load h (blk a, base a + i * isz a))) (zrange (product (shape a))) = map (image t) (map g (ogrid (order_of forder) (shape a)))).
        { assert (OFF : map (fun c => base a + dot c (strides a)) (ogrid (order_of forder) (shape a)) = line (product (shape a)) (isz a) (base a)).
          { unfold forder. destruct cc; cbn [negb].
            - rewrite andb_false_r. apply contig_c; auto. now rewrite EC.
            - rewrite orb_false_r in FC. subst fc. cbn. apply contig_f; auto. now rewrite EC. }
          unfold g, ptr. rewrite map_map. rewrite <- (map_map (fun c => base a + dot c (strides a)) (fun o => image t (load h (blk a, o)))).
          rewrite OFF. unfold line. now rewrite map_map. }
        rewrite EL, EI, B64. apply write_raw_all. rewrite concat_len by auto. unfold zlen. rewrite map_length, OL. lia.
      + assert (E : forder = false) by (unfold forder; apply orb_false_iff in FC; destruct FC as [-> _]; reflexivity).
        rewrite E in *. cbn [order_of ogrid]. rewrite multirange_grid. apply pickle_all_images. intros c. apply packed_pickle; auto.
        unfold supported, is_contig in SUP. rewrite A, EC in SUP. destruct SUP as [?|SUP]; auto. rewrite orb_comm in SUP. congruence.
    - assert (E : forder = false).
      { unfold supported in SUP. rewrite A, EC in SUP. cbn in SUP. unfold forder. destruct SUP as [-> | ->]; [apply andb_false_r|reflexivity]. }
      rewrite E in *. cbn [order_of ogrid] in *. rewrite multirange_grid.
      assert (F : Forall (fun x => exists bs x', pickle junk t x = Ok bs /\ codes (unpickle eqb hash t) bs x' /\ same t x x') (map g (grid (shape a)))).
      { apply Forall_forall. intros x Hx. apply in_map_iff in Hx. destruct Hx as (c & <- & Hc). apply pickle_ok. auto. }
      destruct (all_ok _ _ _ _ F) as (db & vs & E1 & C1 & S1). rewrite map_length, GL in C1.
      exists db, vs. split; auto. rewrite <- E1. apply (pickle_all_map g). }
  destruct D as (db & vs & ED & CD & SD).
  assert (SH : exists sb, pickle_all (write TInt) (shape a) = Ok sb /\ codes (unpickle_all (read TInt) (length (shape a))) sb (shape a)).
  { apply all_eq. eapply Forall_impl; [|exact I64]. intros z Hz. exists (image TInt z). rewrite write_ok by auto. split; auto. apply (codes_read eqb hash); auto. }
  destruct SH as (sb & ES & CS). destruct (loaded h0 (shape a) forder g vs SP NN SD) as (L1 & L2).
  rewrite write_ok by auto. cbn [bind]. rewrite ES. cbn [bind]. rewrite ED.
  eexists; exists (fill t (fst (alloc (dummy t) h0)) (next h0) 0 vs); exists (mk (next h0) 0 (Z.of_nat (sizeof t)) (shape a) forder).
  split; [reflexivity|]. split.
  - unfold nd_unpickle. eapply codes_bind; [apply (codes_read eqb hash TInt (if forder then 1 else 0)); auto; destruct forder; cbn; unfold in64, min64, max64; lia|].
    cbv zeta. eapply codes_bind; [exact CS|]. cbn [alloc]. eapply codes_map; [exact CD|]. destruct forder; reflexivity.
  - cbn [shape isz mk]. split; [reflexivity|]. split; [now rewrite EI|].
    split; [exact L1|exact L2].
Qed.
End NdPickle.
