(** What the copying loops leave in memory. *)
From Coq Require Import List ZArith Lia Bool Permutation.
From Verif.Common Require Import Result Int64.
From Verif.Nd Require Import Spec Model Grid.
Import ListNotations.
Local Open Scope Z_scope.

Section Copy.
Context {V : Type} (zero : V).
Local Notation heap := (heap V).

(** The elements of an array in an order. *)
Definition elems (o : order) (h : heap) (a : nd) : list V :=
  map (fun c => load h (ptr a c)) (ogrid o (shape a)).

(** Nothing that existed in [h] has changed in [h']. *)
Definition kept (h h' : heap) : Prop :=
  (next h <= next h')%nat /\ forall p : nat * Z, (fst p < next h)%nat -> load h' p = load h p.

Lemma kept_refl (h : heap) : kept h h.
Proof. split; auto. Qed.

Lemma kept_trans h1 h2 h3 : kept h1 h2 -> kept h2 h3 -> kept h1 h3.
Proof. intros [N1 L1] [N2 L2]. split; [lia|]. intros p Hp. rewrite L2, L1 by lia. reflexivity. Qed.

Definition stores (h : heap) (l : list ((nat * Z) * V)) : heap :=
  fold_left (fun h pv => store h (fst pv) (snd pv)) l h.

Lemma load_store (h : heap) p v q : load (store h p v) q =
  if ((fst q =? fst p)%nat && (snd q =? snd p))%bool then v else load h q.
Proof. destruct q. reflexivity. Qed.

Lemma load_store_same (h : heap) p v : load (store h p v) p = v.
Proof. now rewrite load_store, Nat.eqb_refl, Z.eqb_refl. Qed.

Lemma load_store_other (h : heap) p v q : q <> p -> load (store h p v) q = load h q.
Proof.
  intros H. rewrite load_store.
  destruct (Nat.eqb_spec (fst q) (fst p)), (Z.eqb_spec (snd q) (snd p)); simpl; auto.
  destruct H. destruct p, q; simpl in *; congruence.
Qed.

Lemma stores_next (h : heap) l : next (stores h l) = next h.
Proof. revert h. induction l; intros; simpl; [reflexivity|]. unfold stores in *. simpl. now rewrite IHl. Qed.

Lemma stores_other (h : heap) l p : ~ In p (map fst l) -> load (stores h l) p = load h p.
Proof.
  revert h. induction l as [|[q v] l IH]; intros h H; [reflexivity|]. simpl in H.
  change (load (stores (store h q v) l) p = load h p).
  rewrite IH by tauto. apply load_store_other. intuition.
Qed.

Lemma stores_in (h : heap) l p v : NoDup (map fst l) -> In (p, v) l -> load (stores h l) p = v.
Proof.
  revert h. induction l as [|[q w] l IH]; intros h N H; [contradiction|].
  simpl in N. inversion N; subst.
  change (load (stores (store h q w) l) p = v). destruct H as [E|H].
  - injection E as -> ->. rewrite stores_other by assumption. apply load_store_same.
  - now apply IH.
Qed.

Lemma stores_kept (h : heap) l n : (forall p, In p (map fst l) -> (n <= fst p)%nat) ->
  forall p, (fst p < n)%nat -> load (stores h l) p = load h p.
Proof. intros H p Hp. apply stores_other. intros C. apply H in C. lia. Qed.

(** ** Each loop is a list of stores *)

Lemma alloc_kept (h : heap) : kept h (fst (alloc zero h)).
Proof.
  split; simpl; [lia|]. intros [b o] H. unfold load. simpl in *.
  destruct (Nat.eqb_spec b (next h)); [lia|reflexivity].
Qed.

Lemma copy_elems_stores (h : heap) x a cs : blk x <> blk a ->
  copy_elems h x a cs = stores h (map (fun c => (ptr x c, load h (ptr a c))) cs).
Proof.
  intros N. revert h. induction cs as [|c cs IH]; intros h; [reflexivity|].
  cbn [copy_elems map]. rewrite IH.
  change (stores h ((ptr x c, load h (ptr a c)) :: ?l)) with (stores (store h (ptr x c) (load h (ptr a c))) l).
  f_equal. apply map_ext. intros d. f_equal. apply load_store_other.
  unfold ptr. intros E. apply (f_equal fst) in E. simpl in E. congruence.
Qed.

Lemma memcpy_stores (h : heap) (a : nd) b n : b <> blk a ->
  memcpy h a b n =
  stores h (map (fun k => ((b, k * isz a), load h (blk a, base a + k * isz a)))
                (map Z.of_nat (seq 0 n))).
Proof.
  intros N. induction n as [|n IH]; [reflexivity|].
  rewrite seq_S, !map_app. unfold stores. rewrite fold_left_app. fold (stores h). simpl memcpy.
  rewrite IH. simpl. f_equal. apply stores_other. rewrite !map_map. simpl.
  intros C. apply in_map_iff in C. destruct C as (k & E & _). congruence.
Qed.

Lemma fill_stores (h : heap) (a : nd) b i cs : b <> blk a ->
  fill_linear h a b i cs =
  stores h (map (fun kc => ((b, (i + fst kc) * isz a), load h (ptr a (snd kc))))
                (combine (map Z.of_nat (seq 0 (length cs))) cs)).
Proof.
  intros N. revert h i. induction cs as [|c cs IH]; intros h i; [reflexivity|].
  cbn [fill_linear]. rewrite IH. cbn [length seq combine map].
  change (stores h (?x :: ?l)) with (stores (store h (fst x) (snd x)) l).
  cbn [fst snd]. change (Z.of_nat 0) with 0. rewrite Z.add_0_r. f_equal.
  rewrite <- seq_shift, map_map.
  assert (forall (l : list nat) (r : list (list Z)),
    combine (map (fun x => Z.of_nat (S x)) l) r =
    map (fun kc => (1 + fst kc, snd kc)) (combine (map Z.of_nat l) r)) as E.
  { induction l as [|k l IHl]; intros [|y r]; cbn [map combine fst snd]; try reflexivity. rewrite IHl. f_equal.
    f_equal. lia. }
  rewrite E, map_map. apply map_ext. intros [k d]. cbn [fst snd]. f_equal.
  - f_equal. f_equal. lia.
  - apply load_store_other. unfold ptr. intros C. apply (f_equal fst) in C. simpl in C. congruence.
Qed.

(** ** Corresponding positions *)

Lemma same_index {A B C D} (f : A -> B) (g : A -> C) (F : D -> B) (G : D -> C) (l : list A) (r : list D) :
  map f l = map F r -> map g l = map G r ->
  forall x, In x l -> exists k, In k r /\ f x = F k /\ g x = G k.
Proof.
  revert r. induction l as [|a l IH]; intros [|k r] E1 E2 x H; simpl in *; try discriminate; [contradiction|].
  injection E1 as E1 E1'. injection E2 as E2 E2'. destruct H as [->|H]; [eauto|].
  destruct (IH r E1' E2' x H) as (k' & ? & ?). eauto.
Qed.

Lemma line_line_index (a x : nd) o c :
  (forall b, b = a \/ b = x -> map (fun c => base b + dot c (strides b)) (ogrid o (shape a))
     = line (product (shape a)) (isz b) (base b)) ->
  inside (shape a) c ->
  exists k, 0 <= k < product (shape a) /\ dot c (strides a) = k * isz a /\ dot c (strides x) = k * isz x.
Proof.
  intros H Hc. apply (ogrid_in o) in Hc.
  destruct (same_index _ _ _ _ _ _ (H a (or_introl eq_refl)) (H x (or_intror eq_refl)) c Hc)
    as (k & Hk & E1 & E2).
  apply zrange_in in Hk. exists k. repeat split; lia.
Qed.

Lemma offs_ogrid (b : nd) : offs (shape b) (strides b) (base b) =
  map (fun c => base b + dot c (strides b)) (ogrid OC (shape b)).
Proof. reflexivity. Qed.

Lemma foffs_ogrid (b : nd) : foffs (shape b) (strides b) (base b) =
  map (fun c => base b + dot c (strides b)) (ogrid OF (shape b)).
Proof. reflexivity. Qed.

Lemma mk_wf b o i sh f : Forall (fun d => 0 <= d) sh -> 0 < i -> wf (mk b o i sh f).
Proof. intros. split; simpl; auto. apply mk_strides_length. Qed.

Lemma mk_line o i sh (f : bool) : Forall (fun d => 0 <= d) sh ->
  map (fun c => o + dot c (mk_strides sh f i)) (ogrid (if f then OF else OC) sh)
  = line (product sh) i o.
Proof. intros F. destruct f; [apply (foffs_mk sh i o F)|apply (offs_mk sh i o F)]. Qed.

Lemma memcpy_load (h : heap) (a : nd) b n k : b <> blk a -> 0 < isz a -> 0 <= k < Z.of_nat n ->
  load (memcpy h a b n) (b, k * isz a) = load h (blk a, base a + k * isz a).
Proof.
  intros N P Hk. rewrite memcpy_stores by assumption. apply stores_in.
  - rewrite map_map. simpl. rewrite map_map. apply FinFun.Injective_map_NoDup; [|apply seq_NoDup].
    intros x y E. injection E as E. nia.
  - apply in_map_iff. exists k. split; [reflexivity|]. apply in_map_iff.
    exists (Z.to_nat k). rewrite in_seq. lia.
Qed.

Lemma memcpy_kept h0 h (a : nd) b n : kept h0 h -> (next h0 <= b)%nat -> b <> blk a ->
  kept h0 (memcpy h a b n) /\ next (memcpy h a b n) = next h.
Proof.
  intros [K1 K2] Hb N. rewrite memcpy_stores by assumption. rewrite stores_next.
  split; [split|]; rewrite ?stores_next; auto. intros p Hp.
  rewrite <- K2 by assumption. apply stores_kept with (n := next h0); [|assumption].
  intros q Hq. rewrite map_map in Hq. apply in_map_iff in Hq. destruct Hq as (? & <- & _). exact Hb.
Qed.

(** [a.copy(order)] makes an array of the same shape and elements in a new block. *)
Theorem copy_ok h a o h' x : wf a -> (blk a < next h)%nat -> copy zero h a o = (h', x) ->
  wf x /\ shape x = shape a /\ isz x = isz a /\ blk x = next h /\ base x = 0 /\
  next h' = S (next h) /\ kept h h' /\
  (forall c, inside (shape a) c -> load h' (ptr x c) = load h (ptr a c)) /\
  (exists f, strides x = mk_strides (shape a) f (isz a) /\
    ((o = RC -> f = false) /\ (o = RF -> snd (contig a) = false -> f = true))).
Proof.
  intros W B H. pose proof W as [L F P]. unfold copy in H.
  destruct (contig a) as [cc fc] eqn:C.
  remember (alloc zero h) as al eqn:Eal. destruct al as [h1 b].
  assert (Eb : b = next h) by (unfold alloc in Eal; congruence).
  assert (K1 : kept h h1) by (replace h1 with (fst (alloc zero h)) by (now rewrite <- Eal); apply alloc_kept).
  assert (N1 : next h1 = S (next h)) by (unfold alloc in Eal; injection Eal as -> _; reflexivity).
  assert (NB : b <> blk a) by lia.
  destruct (match o with RC => cc | RF => fc | _ => false end) eqn:D.
  - injection H as <- <-.
    destruct (memcpy_kept h h1 a b (Z.to_nat (size a)) K1 ltac:(lia) NB) as [K2 N2].
    split; [now apply mk_wf|]. repeat (split; [reflexivity||assumption||congruence|]).
    split.
    + intros c Hc. unfold size. rewrite count_product.
      set (f := fc && negb cc).
      destruct (line_line_index a (mk b 0 (isz a) (shape a) f) (if f then OF else OC) c) as (k & Hk & E1 & E2).
      * intros y [->| ->].
        -- subst f. destruct cc; simpl.
           ++ rewrite andb_false_r. rewrite <- offs_ogrid. apply contig_c; [assumption|]. now rewrite C.
           ++ assert (fc = true) as -> by (destruct o; congruence). simpl.
              rewrite <- foffs_ogrid. apply contig_f; [assumption|]. now rewrite C.
        -- apply mk_line. assumption.
      * assumption.
      * unfold ptr at 1. simpl blk. simpl base. rewrite E2. simpl isz. rewrite Z.add_0_l.
        rewrite memcpy_load by (assumption || lia).
        unfold ptr. rewrite E1. destruct K1 as [_ K1]. now apply K1.
    + exists (fc && negb cc). split; [reflexivity|]. split.
      * intros ->. subst cc. now rewrite andb_false_r.
      * intros -> Hf. simpl in Hf. congruence.
  - remember (match o with RC => false | RF => true | _ => fc end) as f eqn:Ef.
    injection H as <- <-.
    rewrite copy_elems_stores by (simpl; assumption).
    split; [now apply mk_wf|]. repeat (split; [reflexivity||assumption||congruence|]).
    split; [now rewrite stores_next|]. split.
    { split; [rewrite stores_next; lia|]. intros p Hp.
      rewrite stores_other; [now apply K1|]. rewrite map_map. simpl. intros X.
      apply in_map_iff in X. destruct X as (c & <- & _). unfold ptr in Hp. simpl in Hp. lia. }
    split.
    + intros c Hc. replace (load h (ptr a c)) with (load h1 (ptr a c)) by (apply K1; assumption).
      apply stores_in.
      * rewrite map_map. simpl. rewrite multirange_grid.
        assert (I : forall c d, In c (grid (shape a)) -> In d (grid (shape a)) ->
           ptr (mk b 0 (isz a) (shape a) f) c = ptr (mk b 0 (isz a) (shape a) f) d -> c = d).
        { intros c1 c2 H1 H2 E. apply grid_in in H1, H2. unfold ptr in E. simpl in E.
          injection E as E. eapply mk_inj; eauto. }
        pose proof (grid_nodup (shape a)) as ND. clear - I ND.
        induction ND as [|y l Hy ND IH]; simpl; constructor.
        -- intros X. apply in_map_iff in X. destruct X as (z & E & Hz).
           apply Hy. rewrite <- (I z y); simpl; auto.
        -- apply IH. intros. apply I; simpl; auto.
      * apply in_map_iff. exists c. split; [reflexivity|]. rewrite multirange_grid. now apply grid_in.
    + exists f. split; [reflexivity|]. split; intros ->; auto.
Qed.
End Copy.
