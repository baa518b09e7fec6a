(** heapq.merge *)
From Coq Require Import List ZArith Lia Bool Permutation Sorted ZifyBool.
From Verif.Common Require Import Result Arr Ord Stable Tac.
From Verif.Heap Require Import Model Spec Proofs BestProofs.
Import ListNotations.
Local Open Scope Z_scope.
Local Arguments Z.mul : simpl never.
Local Arguments Z.add : simpl never.
Local Arguments Z.sub : simpl never.

Section Merge.
Context {T : Type} (klt : T -> T -> bool) (dir : Z) (hlt : item (T := T) -> item (T := T) -> bool).
Context (Hdir : dir * dir = 1).
Notation item := (item (T := T)).
Definition tag (i : item) : Z := order i * dir.
Context (Hhlt : forall a b, hlt a b = lex (fun x y => klt (value x) (value y)) (fun x y => tag x <? tag y) a b).
Definition all (i : item) : list T := value i :: gen i.
Definition allof (I : list item) : list T := concat (map all I).

Definition sorted_tags (I : list item) : Prop := StronglySorted (fun a b => tag a < tag b) I.
Definition runs_sorted (I : list item) : Prop := Forall (fun i => sorted_by klt (all i)) I.

Lemma hlt_sw : strict_weak klt -> strict_weak hlt.
Proof.
  intros W. pose proof (lex_sw _ _ (sw_map (value (T := T)) klt W) (sw_map tag Z.ltb sw_Zlt)) as L.
  split; intros *; rewrite !Hhlt; apply L.
Qed.

Lemma sorted_head (x : T) l y : sorted_by klt (x :: l) -> strict_weak klt -> In y (x :: l) -> klt y x = false.
Proof.
  intros S W [<-|Hy]; [apply (sw_irrefl klt W)|]. inversion S as [|? ? S' F]; subst. rewrite Forall_forall in F. auto.
Qed.
Lemma sorted_tl (x : T) l : sorted_by klt (x :: l) -> sorted_by klt l.
Proof. intros S. now inversion S. Qed.

Lemma tags_mid (I1 : list item) m I2 : sorted_tags (I1 ++ m :: I2) -> forall i, In i I1 -> tag i < tag m.
Proof.
  unfold sorted_tags. induction I1 as [|i I1 IH]; simpl; intros S j Hj; [destruct Hj|].
  inversion S as [|? ? S' F]; subst. destruct Hj as [<-|Hj]; auto.
  rewrite Forall_forall in F. apply F. apply in_or_app. right. now left.
Qed.
Lemma tags_drop (I1 : list item) m I2 : sorted_tags (I1 ++ m :: I2) -> sorted_tags (I1 ++ I2).
Proof.
  unfold sorted_tags. induction I1 as [|i I1 IH]; simpl; intros S; inversion S as [|? ? S' F]; subst; auto.
  constructor; auto. rewrite Forall_app in *. destruct F as [F1 F2]. split; auto. now inversion F2.
Qed.
Lemma tags_replace (I1 : list item) m m' I2 : tag m' = tag m -> sorted_tags (I1 ++ m :: I2) -> sorted_tags (I1 ++ m' :: I2).
Proof.
  intros E. unfold sorted_tags. induction I1 as [|i I1 IH]; simpl; intros S; inversion S as [|? ? S' F]; subst.
  - constructor; auto. now rewrite E.
  - constructor; auto. rewrite Forall_app in *. destruct F as [F1 F2]. split; auto. inversion F2; subst. constructor; auto. lia.
Qed.

(** Everything before the run of the least item is strictly greater than its value. *)
Lemma min_facts I1 m I2 d items : strict_weak klt -> Permutation items (I1 ++ m :: I2) -> sorted_tags (I1 ++ m :: I2) ->
  runs_sorted (I1 ++ m :: I2) -> heap_from hlt d 0 items -> 0 < zlen items -> m = zn d items 0 ->
  (forall y, In y (allof (I1 ++ m :: I2)) -> klt y (value m) = false) /\
  (forall y, In y (allof I1) -> klt (value m) y = true).
Proof.
  intros W P S R HH L Em.
  assert (G : forall i, In i (I1 ++ m :: I2) -> hlt i m = false).
  { intros i Hi. rewrite Em. apply (heap_root hlt d (hlt_sw W) items HH L). now apply (Permutation_in _ (Permutation_sym P)). }
  assert (V : forall i, In i (I1 ++ m :: I2) -> klt (value i) (value m) = false).
  { intros i Hi. specialize (G i Hi). rewrite Hhlt in G. unfold lex in G. now apply orb_false_iff in G. }
  assert (RS : forall i, In i (I1 ++ m :: I2) -> forall y, In y (all i) -> klt y (value i) = false).
  { intros i Hi y Hy. unfold runs_sorted in R. rewrite Forall_forall in R. apply (sorted_head (value i) (gen i)); auto. apply R; auto. }
  split.
  - intros y Hy. unfold allof in Hy. apply in_concat in Hy. destruct Hy as (l & Hl & Hy). apply in_map_iff in Hl.
    destruct Hl as (i & <- & Hi). apply (sw_negtrans klt W) with (y := value i); auto.
  - intros y Hy. unfold allof in Hy. apply in_concat in Hy. destruct Hy as (l & Hl & Hy). apply in_map_iff in Hl.
    destruct Hl as (i & <- & Hi). assert (Hi' : In i (I1 ++ m :: I2)) by (apply in_or_app; now left).
    assert (Li : klt (value m) (value i) = true).
    { specialize (G i Hi'). rewrite Hhlt in G. unfold lex in G. apply orb_false_iff in G. destruct G as [_ G].
      pose proof (tags_mid _ _ _ S i Hi). replace (tag i <? tag m) with true in G by lia.
      rewrite andb_true_r in G. now apply negb_false_iff in G. }
    destruct (klt (value m) y) eqn:E; auto.
    assert (klt (value m) (value i) = false) by (apply (sw_negtrans klt W) with (y := y); auto). congruence.
Qed.

Lemma allof_app I1 I2 : allof (I1 ++ I2) = allof I1 ++ allof I2.
Proof. unfold allof. now rewrite map_app, concat_app. Qed.
Lemma allof_perm I1 I2 : Permutation I1 I2 -> Permutation (allof I1) (allof I2).
Proof.
  unfold allof. induction 1; cbn [map concat]; auto.
  - now apply Permutation_app_head.
  - rewrite !app_assoc. apply Permutation_app_tail. apply Permutation_app_comm.
  - etransitivity; eauto.
Qed.

Lemma merge_loop_spec (d : item) fuel : forall items I, (length (allof I) < fuel)%nat -> Permutation items I ->
  exists out, merge_loop hlt fuel items = Ok out /\ Permutation (allof I) out /\
   (strict_weak klt -> heap_from hlt d 0 items -> sorted_tags I -> runs_sorted I -> stable_sort_of klt (allof I) out).
Proof.
  induction fuel as [|fuel IH]; intros items I F P; [lia|]. cbn [merge_loop].
  destruct (Z.ltb_spec 1 (zlen items)) as [L|L].
  - rewrite (aget_ok d) by lia. cbn [bind]. set (m := zn d items 0).
    assert (Im : In m I).
    { apply (Permutation_in _ P). unfold m, zn. apply nth_In. unfold zlen in L. simpl. lia. }
    apply in_split in Im. destruct Im as (I1 & I2 & ->). 
    assert (AF : allof (I1 ++ m :: I2) = allof I1 ++ value m :: gen m ++ allof I2) by (rewrite allof_app; reflexivity).
    rewrite AF in F. rewrite !app_length in F. cbn [length] in F. rewrite app_length in F.
    destruct (gen m) as [|x g] eqn:Eg.
    + pose proof (heappop_spec hlt d items ltac:(lia)) as HP.
      destruct (heappop hlt items) as [[m' h]| | |]; simpl in HP; try contradiction. destruct HP as (Em & Pm & Hm).
      cbn [bind]. fold m in Em. subst m'.
      assert (Ph : Permutation h (I1 ++ I2)).
      { apply (Permutation_cons_inv (a := m)). rewrite Pm, P. symmetry. apply Permutation_middle. }
      destruct (IH h (I1 ++ I2)) as (out & E & PO & HO); auto.
      { rewrite allof_app, app_length. simpl in F. lia. }
      rewrite E. cbn [bind]. exists (value m :: out). split; auto. rewrite AF. cbn [app].
      rewrite allof_app in PO, HO. split. { rewrite <- Permutation_middle. now constructor. }
      intros W HH S R. destruct (min_facts I1 m I2 d items W P S R HH) as (M1 & M2); [lia|reflexivity|].
      rewrite AF in M1. cbn [app] in M1. apply (stable_cons klt W); auto.
      * intros y Hy. apply M1. rewrite in_app_iff in *. simpl. tauto.
      * apply HO; auto.
        -- apply Hm; auto. now apply hlt_sw.
        -- now apply tags_drop in S.
        -- unfold runs_sorted in *. rewrite Forall_app in *. destruct R as [R1 R2]. inversion R2; auto.
    + pose proof (heapreplace_spec hlt d items (MI x (order m) g) ltac:(lia)) as HP.
      destruct (heapreplace hlt items (MI x (order m) g)) as [[m' h]| | |]; simpl in HP; try contradiction. destruct HP as (Em & Pm & Hm).
      cbn [bind]. fold m in Em. subst m'. set (m2 := MI x (order m) g) in *.
      assert (Ph : Permutation h (I1 ++ m2 :: I2)).
      { apply (Permutation_cons_inv (a := m)). rewrite Pm, P. rewrite <- !Permutation_middle. apply perm_swap. }
      assert (AF2 : allof (I1 ++ m2 :: I2) = allof I1 ++ (x :: g) ++ allof I2) by (rewrite allof_app; reflexivity).
      destruct (IH h (I1 ++ m2 :: I2)) as (out & E & PO & HO); auto.
      { rewrite AF2, !app_length. simpl in *. lia. }
      rewrite E. cbn [bind]. exists (value m :: out). split; auto. rewrite AF.
      rewrite AF2 in PO, HO. split. { rewrite <- Permutation_middle. now constructor. }
      intros W HH S R. destruct (min_facts I1 m I2 d items W P S R HH) as (M1 & M2); [lia|reflexivity|].
      rewrite AF in M1. apply (stable_cons klt W); auto.
      * intros y Hy. apply M1. rewrite in_app_iff in *. simpl in *. tauto.
      * apply HO; auto.
        -- apply Hm; auto. now apply hlt_sw.
        -- eapply tags_replace; [|exact S]. reflexivity.
        -- unfold runs_sorted in *. rewrite Forall_app in *. destruct R as [R1 R2]. split; auto.
           inversion R2 as [|? ? R3 R4]; subst. constructor; auto. unfold all in *. rewrite Eg in R3. cbn [m2 value gen].
           now apply sorted_tl in R3.
  - destruct items as [|m [|m2 r]].
    + apply Permutation_nil in P. subst I. exists []. split; auto. split; auto. intros W _ _ _. apply sorted_stable_self. constructor.
    + apply Permutation_length_1_inv in P. subst I. exists (value m :: gen m). unfold allof. cbn [map concat all]. rewrite app_nil_r.
      split; auto. split; auto. intros W _ _ R. apply sorted_stable_self. now inversion R.
    + unfold zlen in L. simpl in L. lia.
Qed.

Lemma start_spec its : forall o, let I := start dir o its in
  allof I = concat its /\ sorted_tags I /\ Forall (fun i => o <= tag i) I /\
  (Forall (sorted_by klt) its -> runs_sorted I).
Proof.
  induction its as [|[|x g] its IH]; intros o; cbn [start].
  - cbv zeta. repeat split; constructor.
  - destruct (IH (o + 1)) as (E & S & F & R). cbv zeta in *. split; auto. split; auto. split.
    + eapply Forall_impl; [|exact F]. intros; simpl in *; lia.
    + intros Q. inversion Q; auto.
  - destruct (IH (o + 1)) as (E & S & F & R). cbv zeta in *.
    assert (T0 : tag (MI x (o * dir) g) = o) by (unfold tag; cbn [order]; rewrite <- Z.mul_assoc, Hdir; lia).
    split; [unfold allof in *; cbn [map concat all value gen]; now rewrite E|]. split.
    + constructor; auto. eapply Forall_impl; [|exact F]. intros a Ha. simpl in *. lia.
    + split.
      * constructor; [lia|]. eapply Forall_impl; [|exact F]. intros; simpl in *; lia.
      * intros Q. inversion Q; subst. constructor; auto. now apply R.
Qed.

Lemma merge_core its : exists out,
  bind (heapify hlt (start dir 0 its)) (fun items => merge_loop hlt (S (length (concat its))) items) = Ok out /\
  Permutation (concat its) out /\
  (strict_weak klt -> Forall (sorted_by klt) its -> stable_sort_of klt (concat its) out).
Proof.
  destruct (start_spec its 0) as (EA & S & _ & R). cbv zeta in *.
  destruct (start dir 0 its) as [|d I0] eqn:ES.
  - exists []. cbv [heapify heapify_loop]. simpl. rewrite <- EA. split; auto. split; auto. intros. apply sorted_stable_self. constructor.
  - rewrite <- ES in *. pose proof (heapify_spec hlt d (start dir 0 its)) as HS.
    destruct (heapify hlt (start dir 0 its)) as [h| | |]; simpl in HS; try contradiction. destruct HS as (P & HH). cbn [bind].
    destruct (merge_loop_spec d (Datatypes.S (length (concat its))) h (start dir 0 its)) as (out & E & PO & HO).
    { rewrite EA. lia. } { now symmetry. }
    exists out. split; auto. rewrite EA in PO, HO. split; auto. intros W Q. apply HO; auto.
    apply HH. now apply hlt_sw.
Qed.
End Merge.
