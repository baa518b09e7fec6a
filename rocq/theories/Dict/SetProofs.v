(** Histories of set operations refine SetSpec.v. *)
From Coq Require Import List ZArith Lia Bool Permutation.
From Verif.Common Require Import Result Int64 Arr Tac.
From Verif.Dict Require Import Model Spec Flags Cells Proofs OpProofs Run SetModel SetSpec.
Import ListNotations.
Local Open Scope Z_scope.
Local Open Scope res_scope.
Local Arguments Z.add : simpl never.
Local Arguments Z.sub : simpl never.
Local Arguments Z.mul : simpl never.
Local Arguments Z.pow : simpl never.

Section SetRun.
Context {K : Type} (eqb : K -> K -> bool) (hash : K -> Z).
Notation tbl := (tbl K unit).

Definition scatch (t : tbl) (m : res (svalue K tbl * tbl)) : res (svalue K tbl * tbl) :=
  match m with Raise e => Ok (SVExn e, t) | m => m end.

(** Dispatch to the functions of SetModel.v. *)
Definition run_sop (t : tbl) (o : sop K tbl) : res (svalue K tbl * tbl) :=
  let upd (m : res tbl) := t1 <- m ;; Ok (SVNone, t1) in
  let new (m : res tbl) := c <- m ;; Ok (SVSet c, t) in
  let tst (m : res bool) := b <- m ;; Ok (SVBool b, t) in
  scatch t
  match o with
  | SAdd k => upd (add eqb hash t k)
  | SDiscard k => upd (discard eqb hash t k)
  | SRemove k => upd (SetModel.remove eqb hash t k)
  | SPop => '(t1, k) <- set_pop eqb hash t ;; Ok (SVKey k, t1)
  | SIn k => tst (contains eqb hash t k)
  | SLen => Ok (SVInt (sz t), t)
  | SItems => l <- elems t ;; Ok (SVItems l, t)
  | SClear => upd (kh_clear t)
  | SResize n => upd (kh_resize hash t n)
  | SCopy => new (copy t)
  | SUpdate y => upd (set_update eqb hash t y)
  | SDifferenceUpdate y => upd (difference_update eqb hash t y)
  | SIntersectionUpdate y => upd (intersection_update eqb hash t y)
  | SDifferenceUpdateSelf => upd (difference_update_self eqb hash t)
  | SIntersectionUpdateSelf => upd (intersection_update_self eqb hash t)
  | SOr y => new (union eqb hash t y)
  | SAnd y => new (intersection eqb hash t y)
  | SSub y => new (difference eqb hash t y)
  | SXor y => new (symmetric_difference eqb hash t y)
  | SEq y => tst (set_eq eqb hash t y)
  | SLe y => tst (issubset eqb hash t y)
  | SGe y => tst (issuperset eqb hash t y)
  | SLt y => tst (set_lt eqb hash t y)
  | SGt y => tst (set_gt eqb hash t y)
  | SDisjoint y => tst (isdisjoint eqb hash t y)
  end.
Lemma run_or t y : run_sop t (SOr y) = scatch t (c <- union eqb hash t y ;; Ok (SVSet c, t)).
Proof. reflexivity. Qed.
Lemma run_and t y : run_sop t (SAnd y) = scatch t (c <- intersection eqb hash t y ;; Ok (SVSet c, t)).
Proof. reflexivity. Qed.
Lemma run_sub t y : run_sop t (SSub y) = scatch t (c <- difference eqb hash t y ;; Ok (SVSet c, t)).
Proof. reflexivity. Qed.
Lemma run_xor t y : run_sop t (SXor y) = scatch t (c <- symmetric_difference eqb hash t y ;; Ok (SVSet c, t)).
Proof. reflexivity. Qed.
Fixpoint srun (t : tbl) (os : list (sop K tbl)) : res (list (svalue K tbl) * tbl) :=
  match os with
  | [] => Ok ([], t)
  | o :: os => '(v, t1) <- run_sop t o ;; '(vs, t2) <- srun t1 os ;; Ok (v :: vs, t2)
  end.

Context (eqb_refl : forall a, eqb a a = true).
Context (eqb_sym : forall a b, eqb a b = eqb b a).
Context (eqb_trans : forall a b c, eqb a b = true -> eqb b c = true -> eqb a c = true).
Context (hash_eq : forall a b, eqb a b = true -> hash a = hash b).

Definition tag (xs : list K) : list (K * unit) := map (fun k => (k, tt)) xs.
(** Table [t] holds the set [xs]. *)
Definition set_repr (t : tbl) (xs : list K) : Prop := repr eqb hash t (tag xs).

Definition sop_map {B C} (f : B -> C) (o : sop K B) : sop K C :=
  match o with
  | SAdd k => SAdd k | SDiscard k => SDiscard k | SRemove k => SRemove k | SPop => SPop
  | SIn k => SIn k | SLen => SLen | SItems => SItems | SClear => SClear
  | SResize n => SResize n | SCopy => SCopy
  | SUpdate y => SUpdate (f y) | SDifferenceUpdate y => SDifferenceUpdate (f y)
  | SIntersectionUpdate y => SIntersectionUpdate (f y)
  | SDifferenceUpdateSelf => SDifferenceUpdateSelf
  | SIntersectionUpdateSelf => SIntersectionUpdateSelf
  | SOr y => SOr (f y) | SAnd y => SAnd (f y) | SSub y => SSub (f y) | SXor y => SXor (f y)
  | SEq y => SEq (f y) | SLe y => SLe (f y) | SGe y => SGe (f y) | SLt y => SLt (f y)
  | SGt y => SGt (f y) | SDisjoint y => SDisjoint (f y)
  end.
Definition soperand_ok (o : sop K (tbl * list K)) : Prop :=
  match o with
  | SUpdate y | SDifferenceUpdate y | SIntersectionUpdate y | SOr y | SAnd y | SSub y | SXor y
  | SEq y | SLe y | SGe y | SLt y | SGt y | SDisjoint y => set_repr (fst y) (snd y)
  | SResize n => in64 n
  | _ => True
  end.
Definition svalue_repr (v : svalue K tbl) (w : svalue K (list K)) : Prop :=
  match v, w with
  | SVNone, SVNone => True
  | SVBool x, SVBool y => x = y
  | SVInt x, SVInt y => x = y
  | SVKey x, SVKey y => x = y
  | SVItems x, SVItems y => x = y
  | SVSet t, SVSet m => set_repr t m
  | SVExn e, SVExn e' => e = e'
  | _, _ => False
  end.
(** How many elements an operation may add to a set. *)
Definition sweight {B} (size : B -> Z) (o : sop K B) : Z :=
  match o with
  | SUpdate y | SOr y | SXor y | SAnd y => size y
  | _ => 1
  end.

(** ** Facts about element lists *)
Notation mem := (mem eqb).
Notation distinct := (distinct eqb).

Lemma tag_fst m : tag (map fst m) = m.
Proof. unfold tag. induction m as [|[k []] m IH]; simpl; f_equal; auto. Qed.
Lemma zlen_tag xs : zlen (tag xs) = zlen xs.
Proof. unfold zlen, tag. now rewrite map_length. Qed.
Lemma repr_set t m : repr eqb hash t m -> set_repr t (map fst m).
Proof. unfold set_repr. now rewrite tag_fst. Qed.

Lemma mem_in xs x : mem xs x = true <-> exists k, In k xs /\ eqb k x = true.
Proof. unfold SetSpec.mem. apply existsb_exists. Qed.
Lemma mem_respects ys a b : eqb a b = true -> mem ys a = mem ys b.
Proof.
  intros E. apply eq_true_iff_eq. rewrite !mem_in. split; intros (k & I & H); exists k; split; auto.
  - eapply eqb_trans; eauto.
  - eapply eqb_trans; [exact H|]. now rewrite eqb_sym.
Qed.
Lemma mem_perm xs ys x : Permutation xs ys -> mem xs x = mem ys x.
Proof.
  intros P. apply eq_true_iff_eq. rewrite !mem_in.
  split; intros (k & I & H); exists k; split; auto;
    [apply (Permutation_in k P)|apply (Permutation_in k (Permutation_sym P))]; auto.
Qed.
Lemma mem_app xs ys x : mem (xs ++ ys) x = mem xs x || mem ys x.
Proof. apply existsb_app. Qed.
Lemma mem_filter c l x : (forall a b, eqb a b = true -> c a = c b) ->
  mem (filter c l) x = mem l x && c x.
Proof.
  intros C. induction l as [|a l IH]; simpl; auto. destruct (c a) eqn:E; simpl; rewrite IH.
  - destruct (eqb a x) eqn:EX; simpl; auto. rewrite <- (C a x EX), E. now destruct (mem l x).
  - destruct (eqb a x) eqn:EX; simpl; auto. rewrite <- (C a x EX), E. now destruct (mem l x).
Qed.
Lemma mem_lookup xs x : mem xs x = match lookup eqb (tag xs) x with Some _ => true | None => false end.
Proof. induction xs as [|a xs IH]; simpl; auto. destruct (eqb a x); simpl; auto. Qed.

Lemma distinct_tag xs : distinct xs <-> keys_uniq eqb (tag xs).
Proof.
  unfold SetSpec.distinct, keys_uniq, tag. induction xs as [|a xs IH]; simpl.
  - split; constructor.
  - split; intros H; inversion H as [|? ? F1 F2]; subst; constructor; try now apply IH.
    + rewrite Forall_forall in *. intros [k []] I. apply in_map_iff in I. destruct I as (k' & E & I).
      injection E as <-. simpl. now apply F1.
    + rewrite Forall_forall in *. intros k I. apply (F1 (k, tt)). apply in_map_iff. eauto.
Qed.
Lemma set_repr_distinct t xs : set_repr t xs -> distinct xs.
Proof. intros R. apply distinct_tag. eapply repr_uniq; eauto. Qed.
Lemma set_repr_sz t xs : set_repr t xs -> sz t = zlen xs.
Proof. intros R. rewrite (repr_sz eqb hash t (tag xs) R). apply zlen_tag. Qed.

Lemma mem_store m k x : keys_uniq eqb m ->
  mem (map fst (store eqb m k tt)) x = mem (map fst m) x || eqb k x.
Proof.
  intros U. destruct (lookup_cases eqb m k) as [(F & _)|(k0 & v0 & I & E & _)].
  - rewrite (free_store eqb m k tt F), map_app, mem_app. simpl. now rewrite orb_false_r.
  - destruct (present_facts eqb eqb_sym eqb_trans m k0 v0 k U I E) as (_ & r & P1 & _ & P3).
    destruct v0. rewrite (mem_perm (map fst (store eqb m k tt)) (k0 :: map fst r)) by (rewrite (P3 tt); auto).
    rewrite (mem_perm (map fst m) (k0 :: map fst r)) by (rewrite P1; auto).
    simpl. destruct (eqb k x) eqn:EX; [|now rewrite orb_false_r].
    rewrite (eqb_trans k0 k x E EX). auto.
Qed.
Lemma mem_remove (m : list (K * unit)) k x :
  mem (map fst (Spec.remove eqb m k)) x = mem (map fst m) x && negb (eqb k x).
Proof.
  unfold Spec.remove. induction m as [|[a []] m IH]; simpl; auto.
  destruct (eqb a k) eqn:E; simpl; rewrite IH.
  - destruct (eqb a x) eqn:EX; simpl; auto. replace (eqb k x) with true; [simpl; now rewrite andb_false_r|].
    symmetry. apply (eqb_trans k a x); auto. now rewrite eqb_sym.
  - destruct (eqb a x) eqn:EX; simpl; auto. destruct (eqb k x) eqn:EK; simpl; auto.
    exfalso. assert (eqb a k = true); [|congruence].
    apply (eqb_trans a x k); auto. now rewrite eqb_sym.
Qed.
Lemma remove_len {V} (m : list (K * V)) k : zlen (Spec.remove eqb m k) <= zlen m.
Proof.
  unfold Spec.remove, zlen. induction m as [|e l IH]; simpl; [lia|].
  destruct (negb _); simpl length; lia.
Qed.

(** Pigeonhole: a set inside another has no more elements. *)
Lemma subset_len xs : forall ys, distinct xs -> (forall x, In x xs -> mem ys x = true) ->
  (length xs <= length ys)%nat.
Proof.
  induction xs as [|a xs IH]; intros ys D S; simpl; [lia|].
  inversion D as [|? ? F1 F2]; subst. rewrite Forall_forall in F1.
  assert (Ma : mem ys a = true) by (apply S; now left).
  apply mem_in in Ma. destruct Ma as (k & I & E).
  apply in_split in I. destruct I as (l1 & l2 & ->).
  assert (L : (length xs <= length (l1 ++ l2))%nat).
  { apply IH; auto. intros x Ix. specialize (S x (or_intror Ix)).
    rewrite mem_app in *. simpl in S. destruct (mem l1 x), (mem l2 x); auto. simpl in S.
    rewrite orb_false_r in S. specialize (F1 x Ix).
    assert (eqb a x = true); [|congruence]. apply (eqb_trans a k x); auto. now rewrite eqb_sym. }
  rewrite app_length in *. simpl. lia.
Qed.
Lemma subset_same xs ys : distinct xs -> distinct ys -> (length ys <= length xs)%nat ->
  subset eqb xs ys -> same_set eqb xs ys.
Proof.
  intros Dx Dy L S x. destruct (mem xs x) eqn:Mx; [symmetry; now apply S|].
  destruct (mem ys x) eqn:My; auto. exfalso.
  assert ((length (x :: xs) <= length ys)%nat); [|simpl in *; lia].
  apply subset_len.
  - constructor; auto. apply Forall_forall. intros b Ib. destruct (eqb x b) eqn:E; auto.
    assert (mem xs x = true); [|congruence]. apply mem_in. exists b. split; auto. now rewrite eqb_sym.
  - intros b [<-|Ib]; auto. apply S. apply mem_in. eauto.
Qed.

(** ** The operations *)

Lemma contains_ok t xs k : set_repr t xs -> wp (contains eqb hash t k) (fun b => b = mem xs k).
Proof.
  intros R. unfold contains. apply wp_bind. eapply wp_conseq; [eapply get_lookup; eauto|]. cbv beta.
  intros x G. apply wp_ok. rewrite mem_lookup. destruct G as [(-> & L & _)|(N & _ & _ & v & L & Rd)]; rewrite L.
  - now rewrite Z.eqb_refl.
  - destruct (Z.eqb_spec x (nb t)); [lia|]. auto.
Qed.
Lemma contains_eq t xs k : set_repr t xs -> contains eqb hash t k = Ok (mem xs k).
Proof. intros R. pose proof (contains_ok t xs k R) as H. apply wp_inv in H. destruct H as (b & -> & ->). auto. Qed.

Lemma add_ok t xs k : set_repr t xs -> zlen xs <= 2^60 ->
  wp (add eqb hash t k) (fun t' => exists xs', set_repr t' xs' /\
    (forall x, mem xs' x = mem xs x || eqb k x) /\ zlen xs' <= zlen xs + 1).
Proof.
  intros R L. unfold add. eapply wp_conseq; [eapply setitem_ok; eauto; now rewrite zlen_tag|]. cbv beta.
  intros t' R'. exists (map fst (store eqb (tag xs) k tt)). split; [now apply repr_set|]. split.
  - intros x. rewrite mem_store by (eapply repr_uniq; eauto). unfold tag. rewrite map_map. simpl. now rewrite map_id.
  - unfold zlen. rewrite map_length. pose proof (store_len eqb (tag xs) k tt) as SL. rewrite zlen_tag in SL.
    unfold zlen in SL. lia.
Qed.

Lemma set_remove_ok t xs k x : set_repr t xs -> wfn eqb hash t -> is_at eqb t k x ->
  wp (kh_del t x) (fun t' => exists xs', set_repr t' xs' /\
    (forall y, mem xs' y = mem xs y && negb (eqb k y)) /\ zlen xs' <= zlen xs).
Proof.
  intros R W At. eapply wp_conseq; [eapply (del_ok eqb hash eqb_sym eqb_trans t (tag xs) k x R W At)|]. cbv beta.
  intros t' R'. exists (map fst (Spec.remove eqb (tag xs) k)). split; [now apply repr_set|]. split.
  - intros y. rewrite mem_remove. unfold tag. rewrite map_map. simpl. now rewrite map_id.
  - unfold zlen. rewrite map_length. pose proof (remove_len (tag xs) k) as SL. rewrite zlen_tag in SL.
    unfold zlen in SL. lia.
Qed.

Lemma discard_ok t xs k : set_repr t xs ->
  wp (discard eqb hash t k) (fun t' => exists xs', set_repr t' xs' /\
    (forall x, mem xs' x = mem xs x && negb (eqb k x)) /\ zlen xs' <= zlen xs).
Proof.
  intros R. unfold discard. apply wp_bind. eapply wp_conseq; [eapply get_lookup; eauto|]. cbv beta.
  intros x [(-> & L & F)|(N & At & W & v & L & Rd)].
  - rewrite Z.eqb_refl. cbn [negb]. apply wp_ok. exists xs. split; auto. split; [|lia]. intros y.
    destruct (eqb k y) eqn:E; [|now rewrite andb_true_r]. cbn [negb]. rewrite andb_false_r.
    rewrite <- (mem_respects xs k y E), mem_lookup, L. auto.
  - destruct (Z.eqb_spec x (nb t)); [lia|]. cbn [negb]. eapply set_remove_ok; eauto.
Qed.

Lemma elems_ok t xs : set_repr t xs -> exists l, elems t = Ok l /\ Permutation l xs.
Proof.
  intros (W & P). unfold elems. rewrite (items_spec eqb hash t W). cbn [bind].
  exists (map fst (ents t)). split; auto. rewrite P. unfold tag. rewrite map_map. simpl. now rewrite map_id.
Qed.

(** A loop adding the elements of [l] that satisfy [c]. *)
Lemma for_add_ok body (c : K -> bool) l :
  (forall s a, body s a = if c a then add eqb hash s a else Ok s) ->
  forall t xs, set_repr t xs -> zlen xs + zlen l <= 2^60 ->
  wp (for_in body l t) (fun t' => exists xs', set_repr t' xs' /\
    (forall x, mem xs' x = mem xs x || mem (filter c l) x) /\ zlen xs' <= zlen xs + zlen l).
Proof.
  intros B. induction l as [|a l IH]; intros t xs R L; cbn [for_in].
  - apply wp_ok. exists xs. split; auto. change (zlen (@nil K)) with 0 in *. split; [|lia]. intros x. simpl. now rewrite orb_false_r.
  - replace (zlen (a :: l)) with (zlen l + 1) in * by (unfold zlen; simpl length; lia).
    pose proof (zlen_nonneg l). apply wp_bind. rewrite B. cbn [filter]. destruct (c a).
    + eapply wp_conseq; [apply (add_ok t xs a R); lia|]. cbv beta. intros t' (xs' & R' & M & L').
      eapply wp_conseq; [apply (IH t' xs' R'); lia|]. cbv beta. intros t2 (xs2 & R2 & M2 & L2).
      exists xs2. split; auto. split; [|lia]. intros x. rewrite M2, M. simpl. now rewrite orb_assoc.
    + apply wp_ok. eapply wp_conseq; [apply (IH t xs R); lia|]. cbv beta. intros t2 (xs2 & R2 & M2 & L2).
      exists xs2. split; auto. split; [|lia]. auto.
Qed.

Lemma filter_true {X} (l : list X) : filter (fun _ => true) l = l.
Proof. induction l; simpl; f_equal; auto. Qed.

Lemma for_discard_ok l : forall t xs, set_repr t xs ->
  wp (for_in (discard eqb hash) l t) (fun t' => exists xs', set_repr t' xs' /\
    (forall x, mem xs' x = mem xs x && negb (mem l x)) /\ zlen xs' <= zlen xs).
Proof.
  induction l as [|a l IH]; intros t xs R; cbn [for_in].
  - apply wp_ok. exists xs. split; auto. split; [|lia]. intros x. simpl. now rewrite andb_true_r.
  - apply wp_bind. eapply wp_conseq; [apply (discard_ok t xs a R)|]. cbv beta. intros t' (xs' & R' & M & L').
    eapply wp_conseq; [apply (IH t' xs' R')|]. cbv beta. intros t2 (xs2 & R2 & M2 & L2).
    exists xs2. split; auto. split; [|lia]. intros x. rewrite M2, M. simpl. rewrite negb_orb.
    now rewrite andb_assoc.
Qed.

(** A loop over a set that discards the elements not satisfying [c] from that set. *)
Lemma for_self_spec body (c : K -> bool) :
  (forall a b, eqb a b = true -> c a = c b) ->
  (forall s a x, wfn eqb hash s -> is_at eqb s a x -> body s a = if c a then Ok s else discard eqb hash s a) ->
  forall fuel t i, wfn eqb hash t -> 0 <= i <= nb t -> (Z.to_nat (nb t - i) < fuel)%nat ->
  wp (for_self fuel body t i) (fun t' => wfn eqb hash t' /\
    (forall e, In e (ents t') -> In e (ents t)) /\
    (forall e, In e (ents t) -> c (fst e) = true -> In e (ents t')) /\
    (forall j k, i <= j < nb t -> liveb (flags t') j = true -> zn None (keys t') j = Some k -> c k = true) /\
    (forall j, 0 <= j < i -> liveb (flags t') j = liveb (flags t) j) /\
    keys t' = keys t /\ nb t' = nb t).
Proof.
  intros C B. induction fuel as [|fuel IH]; intros t i W Hi F; [lia|]. cbn [for_self].
  destruct (Z.ltb_spec i (nb t)) as [Lt|Ge].
  2:{ apply wp_ok. split; auto. split; auto. split; auto. split; [intros; lia|]. auto. }
  destruct (iseither_eq (flags t) i) as (e & Ee & El); [lia| |].
  { pose proof (w_flags _ _ _ W). pose proof (fsize_enough (nb t) i (w_pow _ _ _ W)). lia. }
  rewrite Ee. cbn [bind]. fold (liveb (flags t) i) in El. rewrite El.
  destruct (liveb (flags t) i) eqn:Lv.
  - (* a live bucket *)
    destruct (w_full _ _ t W i) as (k & v & Ek & Ev); [lia|auto|].
    rewrite (rd_ok (keys t) i k) by (auto; rewrite (w_keys _ _ t W); lia). cbn [bind].
    assert (At : is_at eqb t k i) by (split; [lia|]; split; auto; exists k; auto).
    rewrite (B t k i W At). destruct (c k) eqn:Ck.
    + cbn [bind]. eapply wp_conseq; [apply (IH t (i + 1) W); lia|]. cbv beta.
      intros t' (W' & H1 & H2 & H3 & H4 & H5 & H6). split; auto. split; auto. split; auto. split.
      * intros j k' Hj L Kj. destruct (Z.eq_dec j i) as [->|]; [|apply (H3 j k'); auto; lia].
        rewrite H5, Ek in Kj. congruence.
      * split; auto. intros j Hj. apply H4. lia.
    + apply wp_bind. unfold discard. apply wp_bind. eapply wp_conseq; [apply get_spec; auto; now right|]. cbv beta.
      intros x [(-> & Ab)|Atx].
      { exfalso. assert (eqb k k = false); [|rewrite eqb_refl in *; discriminate].
        apply (absent_ents eqb eqb_sym t k Ab k v). apply in_cells. exists i. repeat split; auto; lia. }
      assert (EX : x = i).
      { destruct Atx as (Hx & Lx & k' & Ek' & E'). apply (w_uniq _ _ t W x i k' k); auto. lia. }
      subst x. destruct (Z.eqb_spec i (nb t)); [lia|]. cbn [negb].
      destruct (del_spec eqb hash t k i W At) as (k2 & v2 & Ev2 & E2 & D).
      eapply wp_conseq; [exact D|]. cbv beta. intros t1 (W1 & N1 & K1 & V1 & L1 & P1).
      eapply wp_conseq; [apply (IH t1 (i + 1) W1); lia|]. cbv beta.
      intros t' (W' & H1 & H2 & H3 & H4 & H5 & H6). split; auto. split.
      { intros e0 I. eapply Permutation_in; [symmetry; exact P1|]. right. auto. }
      split.
      { intros e0 I C0. apply H2; auto. eapply Permutation_in in I; [|exact P1]. destruct I as [<-|I]; auto.
        simpl in C0. rewrite (C k2 k E2), Ck in C0. discriminate. }
      split.
      { intros j k' Hj L Kj. destruct (Z.eq_dec j i) as [->|].
        - rewrite H4, L1, Z.eqb_refl in L by lia. discriminate.
        - apply (H3 j k'); auto. lia. }
      split; [|split; congruence]. intros j Hj. rewrite H4, L1 by lia. destruct (Z.eqb_spec j i); [lia|auto].
  - cbn [bind]. eapply wp_conseq; [apply (IH t (i + 1) W); lia|]. cbv beta.
    intros t' (W' & H1 & H2 & H3 & H4 & H5 & H6). split; auto. split; auto. split; auto. split.
    + intros j k' Hj L Kj. destruct (Z.eq_dec j i) as [->|]; [|apply (H3 j k'); auto; lia].
      rewrite H4, Lv in L by lia. discriminate.
    + split; auto. intros j Hj. apply H4. lia.
Qed.

Lemma mem_ents t xs x : Permutation (ents t) (tag xs) ->
  mem xs x = true <-> exists k, In (k, tt) (ents t) /\ eqb k x = true.
Proof.
  intros P. rewrite mem_in. split; intros (k & I & E); exists k; split; auto.
  - eapply Permutation_in; [symmetry; exact P|]. apply in_map_iff. eauto.
  - eapply Permutation_in in I; [|exact P]. apply in_map_iff in I. destruct I as (k' & EQ & I).
    injection EQ as <-. auto.
Qed.

Lemma for_self_ok body (c : K -> bool) :
  (forall a b, eqb a b = true -> c a = c b) ->
  (forall s a x, wfn eqb hash s -> is_at eqb s a x -> body s a = if c a then Ok s else discard eqb hash s a) ->
  forall t xs, set_repr t xs ->
  wp (for_self (S (Z.to_nat (nb t))) body t 0) (fun t' => exists xs', set_repr t' xs' /\
    (forall x, mem xs' x = mem xs x && c x) /\ zlen xs' <= zlen xs).
Proof.
  intros C B t xs R. pose proof R as ([->|W] & P).
  - cbn [for_self nb new]. change (0 <? 0) with false. apply wp_ok. exists xs. split; auto. split; [|lia].
    intros x. change (ents new) with (@nil (K * unit)) in P. apply Permutation_nil in P.
    destruct xs; [auto|discriminate].
  - pose proof (pow2_bounds _ (w_pow _ _ _ W)).
    eapply wp_conseq; [apply (for_self_spec body c C B (S (Z.to_nat (nb t))) t 0 W); lia|]. cbv beta.
    intros t' (W' & H1 & H2 & H3 & _ & H5 & H6).
    assert (R' : repr eqb hash t' (tag (map fst (ents t')))) by (split; [now right|rewrite tag_fst; auto]).
    exists (map fst (ents t')). split; [exact R'|].
    assert (PP : Permutation (ents t') (tag (map fst (ents t')))) by apply R'.
    split.
    + intros x. apply eq_true_iff_eq. rewrite andb_true_iff, (mem_ents t' _ x PP), (mem_ents t xs x P). split.
      * intros (k & I & E). split; [exists k; auto|]. rewrite <- (C k x E).
        apply in_cells in I. destruct I as (j & Hj & L & Kj & Vj). apply (H3 j k); auto. lia.
      * intros ((k & I & E) & Cx). exists k. split; auto. apply H2; auto. simpl. now rewrite (C k x E).
    + assert (NI : incl (map fst (ents t')) (map fst (ents t))).
      { intros k I. apply in_map_iff in I. destruct I as (e & <- & I). apply in_map. auto. }
      assert (DX : distinct (map fst (ents t'))) by (eapply set_repr_distinct; exact R').
      assert (DL : (length (map fst (ents t')) <= length xs)%nat).
      { apply subset_len; auto. intros x I. apply (mem_ents t xs x P). exists x. split; auto.
        apply in_map_iff in I. destruct I as ([k []] & <- & I). auto. }
      unfold zlen. lia.
Qed.

Lemma scan_ok o ys want l : set_repr o ys ->
  scan eqb hash o want l = Ok (forallb (fun a => negb (Bool.eqb (mem ys a) want)) l).
Proof.
  intros R. induction l as [|a l IH]; cbn [scan forallb]; auto.
  rewrite (contains_eq o ys a R). cbn [bind]. destruct (Bool.eqb (mem ys a) want); auto.
Qed.

Lemma scan_subset o ys l xs : set_repr o ys -> Permutation l xs ->
  exists b, scan eqb hash o false l = Ok b /\ (b = true <-> subset eqb xs ys).
Proof.
  intros R P. rewrite (scan_ok o ys false l R). eexists. split; [reflexivity|]. rewrite forallb_forall. split.
  - intros H x Mx. apply mem_in in Mx. destruct Mx as (k & I & E). rewrite <- (mem_respects ys k x E).
    specialize (H k (Permutation_in k (Permutation_sym P) I)). destruct (mem ys k); auto.
  - intros S x I. rewrite (S x); auto. apply mem_in. exists x. split; auto. eapply Permutation_in; eauto.
Qed.

Lemma zlen_perm {X} (l l' : list X) : Permutation l l' -> zlen l = zlen l'.
Proof. intros P. unfold zlen. now rewrite (Permutation_length P). Qed.

Lemma issubset_ok t xs o ys : set_repr t xs -> set_repr o ys ->
  exists b, issubset eqb hash t o = Ok b /\ (b = true <-> subset eqb xs ys).
Proof.
  intros R Ro. unfold issubset. rewrite (set_repr_sz t xs R), (set_repr_sz o ys Ro).
  destruct (Z.ltb_spec (zlen ys) (zlen xs)) as [L|L].
  - exists false. split; auto. split; [discriminate|]. intros S. exfalso.
    assert ((length xs <= length ys)%nat); [|unfold zlen in L; lia].
    apply subset_len; [eapply set_repr_distinct; eauto|]. intros x I. apply S. apply mem_in. eauto.
  - destruct (elems_ok t xs R) as (l & -> & P). cbn [bind]. now apply scan_subset.
Qed.

Lemma set_eq_ok t xs o ys : set_repr t xs -> set_repr o ys ->
  exists b, set_eq eqb hash t o = Ok b /\ (b = true <-> same_set eqb xs ys).
Proof.
  intros R Ro. unfold set_eq. rewrite (set_repr_sz t xs R), (set_repr_sz o ys Ro).
  pose proof (set_repr_distinct t xs R) as Dx. pose proof (set_repr_distinct o ys Ro) as Dy.
  destruct (Z.eqb_spec (zlen xs) (zlen ys)) as [L|L]; cbn [negb].
  - destruct (elems_ok t xs R) as (l & -> & P). cbn [bind].
    destruct (scan_subset o ys l xs Ro P) as (b & -> & Hb). exists b. split; auto. rewrite Hb. split.
    + apply subset_same; auto. unfold zlen in L. lia.
    + intros S x Mx. now rewrite <- (S x).
  - exists false. split; auto. split; [discriminate|]. intros S. exfalso. apply L. unfold zlen. f_equal.
    apply Nat.le_antisymm; apply subset_len; auto; intros x I; [rewrite <- (S x)|rewrite (S x)]; apply mem_in; eauto.
Qed.

Lemma isdisjoint_ok t xs o ys : set_repr t xs -> set_repr o ys ->
  exists b, isdisjoint eqb hash t o = Ok b /\ (b = true <-> forall x, mem xs x && mem ys x = false).
Proof.
  intros R Ro. unfold isdisjoint.
  assert (G : forall t xs o ys, set_repr t xs -> set_repr o ys ->
    exists b, (l <- elems t ;; scan eqb hash o true l) = Ok b /\ (b = true <-> forall x, mem xs x && mem ys x = false)).
  { clear t xs o ys R Ro. intros t xs o ys R Ro. destruct (elems_ok t xs R) as (l & -> & P). cbn [bind].
    rewrite (scan_ok o ys true l Ro). eexists. split; [reflexivity|]. rewrite forallb_forall. split.
    - intros H x. destruct (mem xs x) eqn:Mx; auto. simpl. apply mem_in in Mx. destruct Mx as (k & I & E).
      rewrite <- (mem_respects ys k x E). specialize (H k (Permutation_in k (Permutation_sym P) I)).
      destruct (mem ys k); auto.
    - intros H x I. specialize (H x). replace (mem xs x) with true in H.
      + simpl in H. now rewrite H.
      + symmetry. apply mem_in. exists x. split; auto. eapply Permutation_in; eauto. }
  destruct (sz o <? sz t).
  - destruct (G o ys t xs Ro R) as (b & E & Hb). exists b. split; auto. rewrite Hb.
    split; intros H x; rewrite andb_comm; auto.
  - now apply G.
Qed.

Lemma new_repr : set_repr new [].
Proof. split; [now left|]. constructor. Qed.

Theorem sop_ok t xs (o : sop K (tbl * list K)) : set_repr t xs -> soperand_ok o ->
  zlen xs + sweight (fun y => zlen (snd y)) o <= 2^60 ->
  exists v t' w xs', run_sop t (sop_map fst o) = Ok (v, t') /\
    spec_sop eqb xs (sop_map snd o) xs' w /\ svalue_repr v w /\ set_repr t' xs' /\
    zlen xs' <= zlen xs + sweight (fun y => zlen (snd y)) o.
Proof.
  intros R Ok1 Sm. pose proof (set_repr_distinct t xs R) as Dx. pose proof (zlen_nonneg xs) as Zx.
  (* the three kinds of operations *)
  assert (Upd : forall (c : res tbl), 0 <= sweight (fun y => zlen (snd y)) o ->
    wp c (fun t' => exists xs', set_repr t' xs' /\ spec_sop eqb xs (sop_map snd o) xs' SVNone /\
            zlen xs' <= zlen xs + sweight (fun y => zlen (snd y)) o) ->
    exists v t' w xs', scatch t (t1 <- c ;; Ok (SVNone, t1)) = Ok (v, t') /\
      spec_sop eqb xs (sop_map snd o) xs' w /\ svalue_repr v w /\ set_repr t' xs' /\
      zlen xs' <= zlen xs + sweight (fun y => zlen (snd y)) o).
  { intros c _ H. apply wp_inv in H. destruct H as (t' & -> & xs' & R' & S' & L'). cbn [bind scatch].
    exists SVNone, t', SVNone, xs'. split; auto. split; auto. split; auto. exact I. }
  assert (New : forall (c : res tbl), 0 <= sweight (fun y => zlen (snd y)) o ->
    wp c (fun t' => exists zs, set_repr t' zs /\ spec_sop eqb xs (sop_map snd o) xs (SVSet zs)) ->
    exists v t' w xs', scatch t (t1 <- c ;; Ok (SVSet t1, t)) = Ok (v, t') /\
      spec_sop eqb xs (sop_map snd o) xs' w /\ svalue_repr v w /\ set_repr t' xs' /\
      zlen xs' <= zlen xs + sweight (fun y => zlen (snd y)) o).
  { intros c Hw H. apply wp_inv in H. destruct H as (t' & -> & zs & R' & S'). cbn [bind scatch].
    exists (SVSet t'), t, (SVSet zs), xs. split; auto. split; auto. split; [exact R'|]. split; auto. lia. }
  assert (Tst : forall (c : res bool), 0 <= sweight (fun y => zlen (snd y)) o ->
    (exists b, c = Ok b /\ spec_sop eqb xs (sop_map snd o) xs (SVBool b)) ->
    exists v t' w xs', scatch t (b <- c ;; Ok (SVBool b, t)) = Ok (v, t') /\
      spec_sop eqb xs (sop_map snd o) xs' w /\ svalue_repr v w /\ set_repr t' xs' /\
      zlen xs' <= zlen xs + sweight (fun y => zlen (snd y)) o).
  { intros c Hw (b & -> & S'). cbn [bind scatch]. exists (SVBool b), t, (SVBool b), xs.
    split; auto. split; auto. split; [reflexivity|]. split; auto. lia. }
  assert (Raised : forall e, 0 <= sweight (fun y => zlen (snd y)) o ->
    spec_sop eqb xs (sop_map snd o) xs (SVExn e) ->
    exists v t' w xs', @Ok (svalue K tbl * tbl) (SVExn e, t) = Ok (v, t') /\
      spec_sop eqb xs (sop_map snd o) xs' w /\ svalue_repr v w /\ set_repr t' xs' /\
      zlen xs' <= zlen xs + sweight (fun y => zlen (snd y)) o).
  { intros e Hw S'. exists (SVExn e), t, (SVExn e), xs. split; auto. split; auto. split; [reflexivity|]. split; auto. lia. }
  assert (RD : forall t xs', set_repr t xs' -> distinct xs') by (intros; eapply set_repr_distinct; eauto).
  assert (GoneMem : forall k, mem xs k = false -> forall x, mem xs x = mem xs x && negb (eqb k x)).
  { intros k G x. destruct (eqb k x) eqn:E; [|now rewrite andb_true_r]. rewrite <- (mem_respects xs k x E), G. auto. }
  assert (Cong : forall ys a b, eqb a b = true -> negb (mem ys a) = negb (mem ys b))
    by (intros ys a b E; f_equal; now apply mem_respects).
  destruct o; cbn [sop_map sweight soperand_ok] in *; unfold run_sop; cbv zeta;
    try (destruct y as [yt ys]; cbn [fst snd] in *; pose proof (zlen_nonneg ys) as Zy;
         pose proof (set_repr_distinct yt ys Ok1) as Dy).
  - apply Upd; [lia|]. eapply wp_conseq; [apply (add_ok t xs k R); lia|]. cbv beta.
    intros t' (xs' & R' & M & L'). exists xs'. split; auto. split; [|lia]. simpl. split; auto. split; eauto.
  - apply Upd; [lia|]. eapply wp_conseq; [apply (discard_ok t xs k R)|]. cbv beta.
    intros t' (xs' & R' & M & L'). exists xs'. split; auto. split; [|lia]. simpl. split; auto. split; eauto.
  - (* remove *)
    pose proof (get_lookup eqb hash eqb_sym eqb_trans hash_eq t (tag xs) k R) as G. apply wp_inv in G.
    destruct G as (x & Ex & G). unfold SetModel.remove, delitem. rewrite Ex. cbn [bind].
    pose proof (mem_lookup xs k) as ML.
    destruct G as [(-> & L & F)|(N & At & W & v & L & Rd)]; rewrite L in ML.
    + rewrite Z.eqb_refl. cbn [negb bind scatch]. apply Raised; [lia|]. simpl. rewrite ML. split; auto. split; auto.
    + destruct (Z.eqb_spec x (nb t)); [lia|]. cbn [negb]. apply Upd; [lia|].
      eapply wp_conseq; [apply (set_remove_ok t xs k x R W At)|]. cbv beta. intros t' (xs' & R' & M & L').
      exists xs'. split; auto. split; [|lia]. simpl. rewrite ML. split; auto. split; eauto.
  - (* pop *)
    unfold set_pop. rewrite (set_repr_sz t xs R). destruct (Z.eqb_spec (zlen xs) 0) as [E|E].
    + cbn [bind scatch]. apply Raised; [lia|]. simpl. left. destruct xs; [auto|unfold zlen in E; simpl in E; lia].
    + destruct (elems_ok t xs R) as (l & -> & P). cbn [bind]. destruct l as [|a l].
      { exfalso. apply Permutation_nil in P. subst xs. apply E. reflexivity. }
      assert (Ia : In a xs) by (eapply Permutation_in; [exact P|now left]).
      pose proof (get_lookup eqb hash eqb_sym eqb_trans hash_eq t (tag xs) a R) as G. apply wp_inv in G.
      destruct G as (x & Ex & G). unfold SetModel.remove, delitem. rewrite Ex. cbn [bind].
      destruct G as [(-> & L & F)|(N & At & W & v & L & Rd)].
      { exfalso. specialize (F a tt). rewrite eqb_refl in F. discriminate F. apply in_map_iff. eauto. }
      destruct (Z.eqb_spec x (nb t)); [lia|]. cbn [negb].
      pose proof (set_remove_ok t xs a x R W At) as D. apply wp_inv in D. destruct D as (t' & -> & xs' & R' & M & L').
      cbn [bind scatch]. exists (SVKey a), t', (SVKey a), xs'. split; auto. split.
      { simpl. right. exists a. split; auto. split; auto. split; eauto. }
      split; [reflexivity|]. split; auto. lia.
  - apply Tst; [lia|]. rewrite (contains_eq t xs k R). eexists. split; [reflexivity|]. simpl. auto.
  - cbn [scatch]. exists (SVInt (sz t)), t, (SVInt (zlen xs)), xs. split; auto. split; [simpl; auto|].
    split; [simpl; now apply set_repr_sz|]. split; auto. lia.
  - destruct (elems_ok t xs R) as (l & -> & P). cbn [bind scatch]. exists (SVItems l), t, (SVItems l), xs.
    split; auto. split; [simpl; eauto|]. split; [reflexivity|]. split; auto. lia.
  - apply Upd; [lia|]. pose proof R as (W & P). eapply wp_conseq; [apply (clear_table eqb hash); exact W|]. cbv beta.
    intros t' (W' & E & _). exists []. split; [split; [auto|rewrite E; constructor]|].
    change (zlen (@nil K)) with 0. split; [|lia]. simpl. split; auto. split; [constructor|auto].
  - apply Upd; [lia|]. pose proof R as (W & P). eapply wp_conseq; [apply (resize_spec eqb hash eqb_sym); eauto|]. cbv beta.
    intros t' (W' & P' & _). exists xs. split; [split; [auto|now rewrite P']|]. split; [simpl; auto|lia].
  - apply New; [lia|]. pose proof R as (W & P). eapply wp_conseq; [apply (copy_spec eqb hash); exact W|]. cbv beta.
    intros c (Wc & Ec). exists xs. split; [split; [auto|now rewrite Ec]|]. simpl. auto.
  - (* update *)
    apply Upd; [lia|]. unfold set_update. destruct (elems_ok yt ys Ok1) as (l & -> & P). cbn [bind].
    pose proof (zlen_perm l ys P) as PL.
    eapply wp_conseq; [apply (for_add_ok (add eqb hash) (fun _ => true) l (fun s a => eq_refl) t xs R); lia|]. cbv beta.
    intros t' (xs' & R' & M & L'). exists xs'. split; auto. split; [|lia]. simpl. split; auto. split; eauto.
    intros x. now rewrite M, filter_true, (mem_perm l ys x P).
  - (* difference_update *)
    apply Upd; [lia|]. unfold difference_update. destruct (elems_ok yt ys Ok1) as (l & -> & P). cbn [bind].
    eapply wp_conseq; [apply (for_discard_ok l t xs R)|]. cbv beta.
    intros t' (xs' & R' & M & L'). exists xs'. split; auto. split; [|lia]. simpl. split; auto. split; eauto.
    intros x. now rewrite M, (mem_perm l ys x P).
  - (* intersection_update *)
    apply Upd; [lia|]. unfold intersection_update.
    eapply wp_conseq; [apply (for_self_ok _ (mem ys)) with (xs := xs); auto|].
    + intros. now apply mem_respects.
    + intros s a x _ _. rewrite (contains_eq yt ys a Ok1). cbn [bind]. now destruct (mem ys a).
    + cbv beta. intros t' (xs' & R' & M & L'). exists xs'. split; auto. split; [|lia]. simpl. split; auto. split; eauto.
  - (* a -= a *)
    apply Upd; [lia|]. unfold difference_update_self.
    eapply wp_conseq; [apply (for_self_ok _ (fun _ => false)) with (xs := xs); auto|].
    cbv beta. intros t' (xs' & R' & M & L'). exists xs'. split; auto. split; [|lia]. simpl. split; auto. split; eauto.
    intros x. now rewrite M, andb_false_r.
  - (* a &= a *)
    apply Upd; [lia|]. unfold intersection_update_self.
    eapply wp_conseq; [apply (for_self_ok _ (fun _ => true)) with (xs := xs); auto|].
    + intros s a x W At. assert (Rs : set_repr s (map fst (ents s))) by (split; [now right|rewrite tag_fst; auto]).
      rewrite (contains_eq s _ a Rs). cbn [bind]. replace (mem (map fst (ents s)) a) with true; auto.
      symmetry. apply mem_in. destruct At as (Hx & L & k & Ek & E).
      destruct (w_full _ _ s W x Hx L) as (k' & v & Ek' & Ev). rewrite Ek in Ek'. injection Ek' as <-.
      exists k. split; auto. apply in_map_iff. exists (k, v). split; auto. apply in_cells. exists x. auto.
    + cbv beta. intros t' (xs' & R' & M & L'). exists xs'. split; auto. split; [|lia]. simpl. split; auto. split; eauto.
      intros x. now rewrite M, andb_true_r.
  - (* or *)
    apply New; [lia|]. unfold union. apply wp_bind.
    assert (N64 : forall t xs, set_repr t xs -> 0 <= nb t <= 2^62).
    { intros t0 xs0 ([->|W0] & _); [simpl; lia|]. pose proof (w_pow _ _ _ W0) as (kk & Hk & ->).
      split; [apply Z.pow_nonneg; lia|apply Z.pow_le_mono_r; lia]. }
    pose proof (N64 t xs R). pose proof (N64 yt ys Ok1).
    eapply wp_conseq; [apply (resize_spec eqb hash eqb_sym new); [now left|]|].
    { unfold in64, min64, max64. destruct (nb yt <=? nb t); lia. }
    cbv beta. intros s0 (W0 & P0 & _).
    assert (R0 : set_repr s0 []) by (split; [auto|rewrite P0; constructor]).
    destruct (elems_ok t xs R) as (l & -> & P). cbn [bind]. apply wp_bind.
    pose proof (zlen_perm l xs P) as PL. change (zlen (@nil K)) with 0 in *.
    eapply wp_conseq; [apply (for_add_ok (add eqb hash) (fun _ => true) l (fun s a => eq_refl) s0 [] R0)|].
    { change (zlen (@nil K)) with 0. lia. }
    change (zlen (@nil K)) with 0. cbv beta. intros t' (xs' & R' & M & L').
    destruct (elems_ok yt ys Ok1) as (l2 & -> & P2). cbn [bind]. pose proof (zlen_perm l2 ys P2) as PL2.
    eapply wp_conseq; [apply (for_add_ok (add eqb hash) (fun _ => true) l2 (fun s a => eq_refl) t' xs' R'); lia|].
    cbv beta. intros t2 (xs2 & R2 & M2 & L2). exists xs2. split; auto. simpl. split; auto. exists xs2. split; auto.
    split; eauto. intros x. rewrite M2, M, !filter_true, (mem_perm l xs x P), (mem_perm l2 ys x P2). auto.
  - (* and *)
    apply New; [lia|]. unfold intersection.
    assert (G : forall t xs o ys, set_repr t xs -> set_repr o ys -> zlen xs <= 2^60 ->
      wp (l <- elems t ;; for_in (fun s a => c <- contains eqb hash o a ;; if (c : bool) then add eqb hash s a else Ok s) l new)
        (fun t' => exists zs, set_repr t' zs /\ forall x, mem zs x = mem xs x && mem ys x)).
    { clear - eqb_sym eqb_trans hash_eq. intros t xs o ys R Ro L.
      destruct (elems_ok t xs R) as (l & -> & P). cbn [bind].
      eapply wp_conseq; [apply (for_add_ok _ (mem ys) l) with (xs := []); auto|].
      - intros s a. rewrite (contains_eq o ys a Ro). cbn [bind]. reflexivity.
      - apply new_repr.
      - change (zlen (@nil K)) with 0. rewrite (zlen_perm l xs P). lia.
      - cbv beta. intros t' (zs & R' & M & _). exists zs. split; auto. intros x. rewrite M. simpl.
        rewrite mem_filter by (intros; now apply mem_respects). now rewrite (mem_perm l xs x P). }
    destruct (sz yt <? sz t).
    + eapply wp_conseq; [apply (G yt ys t xs Ok1 R); lia|]. cbv beta. intros t' (zs & R' & M).
      exists zs. split; auto. simpl. split; auto. exists zs. split; auto. split; eauto.
      intros x. now rewrite M, andb_comm.
    + eapply wp_conseq; [apply (G t xs yt ys R Ok1); lia|]. cbv beta. intros t' (zs & R' & M).
      exists zs. split; auto. simpl. split; auto. exists zs. split; auto. split; eauto.
  - (* sub *)
    apply New; [lia|]. unfold difference. destruct (elems_ok t xs R) as (l & -> & P). cbn [bind].
    eapply wp_conseq; [apply (for_add_ok _ (fun a => negb (mem ys a)) l) with (xs := []); auto|].
    + intros s a. rewrite (contains_eq yt ys a Ok1). cbn [bind]. reflexivity.
    + apply new_repr.
    + change (zlen (@nil K)) with 0. rewrite (zlen_perm l xs P). lia.
    + cbv beta. intros t' (zs & R' & M & _). exists zs. split; auto. simpl. split; auto. exists zs. split; auto.
      split; eauto. intros x. rewrite M. simpl. rewrite mem_filter by auto. now rewrite (mem_perm l xs x P).
  - (* xor *)
    apply New; [lia|]. unfold symmetric_difference. destruct (elems_ok t xs R) as (l & -> & P). cbn [bind].
    apply wp_bind. pose proof (zlen_perm l xs P) as PL.
    eapply wp_conseq; [apply (for_add_ok _ (fun a => negb (mem ys a)) l) with (xs := []); auto|].
    + intros s a. rewrite (contains_eq yt ys a Ok1). cbn [bind]. reflexivity.
    + apply new_repr.
    + change (zlen (@nil K)) with 0. lia.
    + change (zlen (@nil K)) with 0. cbv beta. intros t' (zs & R' & M & L').
      destruct (elems_ok yt ys Ok1) as (l2 & -> & P2). cbn [bind]. pose proof (zlen_perm l2 ys P2) as PL2.
      eapply wp_conseq; [apply (for_add_ok _ (fun a => negb (mem xs a)) l2) with (xs := zs); auto|].
      * intros s a. rewrite (contains_eq t xs a R). cbn [bind]. reflexivity.
      * lia.
      * cbv beta. intros t2 (zs2 & R2 & M2 & _). exists zs2. split; auto. simpl. split; auto. exists zs2. split; auto.
        split; eauto. intros x. rewrite M2, M. simpl. rewrite !mem_filter by auto.
        rewrite (mem_perm l xs x P), (mem_perm l2 ys x P2). now destruct (mem xs x), (mem ys x).
  - apply Tst; [lia|]. destruct (set_eq_ok t xs yt ys R Ok1) as (b & -> & Hb). exists b. split; auto. simpl. eauto.
  - apply Tst; [lia|]. destruct (issubset_ok t xs yt ys R Ok1) as (b & -> & Hb). exists b. split; auto. simpl. eauto.
  - apply Tst; [lia|]. unfold issuperset. destruct (issubset_ok yt ys t xs Ok1 R) as (b & -> & Hb).
    exists b. split; auto. simpl. eauto.
  - apply Tst; [lia|]. unfold set_lt. destruct (set_eq_ok t xs yt ys R Ok1) as (e & -> & He). cbn [bind].
    destruct (issubset_ok t xs yt ys R Ok1) as (b & -> & Hb). destruct e; cbn [negb].
    + exists false. split; auto. simpl. split; auto. exists false. split; auto. split; [discriminate|].
      intros (_ & N). exfalso. apply N. now apply He.
    + exists b. split; auto. simpl. split; auto. exists b. split; auto. rewrite Hb. split; [|tauto]. intros S. split; auto.
      intros E. apply He in E. discriminate.
  - apply Tst; [lia|]. unfold set_gt, issuperset. destruct (set_eq_ok t xs yt ys R Ok1) as (e & -> & He). cbn [bind].
    destruct (issubset_ok yt ys t xs Ok1 R) as (b & -> & Hb). destruct e; cbn [negb].
    + exists false. split; auto. simpl. split; auto. exists false. split; auto. split; [discriminate|].
      intros (_ & N). exfalso. apply N. now apply He.
    + exists b. split; auto. simpl. split; auto. exists b. split; auto. rewrite Hb. split; [|tauto]. intros S. split; auto.
      intros E. apply He in E. discriminate.
  - apply Tst; [lia|]. destruct (isdisjoint_ok t xs yt ys R Ok1) as (b & -> & Hb). exists b. split; auto. simpl. eauto.
Qed.

Theorem srun_ok os : forall t xs, set_repr t xs -> Forall soperand_ok os ->
  zlen xs + fold_right Z.add 0 (map (sweight (fun y => zlen (snd y))) os) <= 2^60 ->
  exists vs t' ws xs', srun t (map (sop_map fst) os) = Ok (vs, t') /\
    spec_srun eqb xs (map (sop_map snd) os) ws xs' /\ Forall2 svalue_repr vs ws /\ set_repr t' xs'.
Proof.
  induction os as [|o os IH]; intros t xs R F Sm; cbn [map fold_right srun] in *.
  - exists [], t, [], xs. split; auto. split; [constructor|]. split; auto.
  - inversion F as [|? ? Fo Fos]; subst.
    assert (NN : forall l : list (sop K (tbl * list K)), 0 <= fold_right Z.add 0 (map (sweight (fun y => zlen (snd y))) l)).
    { induction l as [|a l IHl]; simpl; [lia|].
      assert (0 <= sweight (fun y => zlen (snd y)) a); [|lia].
      destruct a; simpl; try lia; apply zlen_nonneg. }
    pose proof (NN os).
    destruct (sop_ok t xs o R Fo) as (v & t1 & w & m1 & E & S & VR & R1 & L1); [lia|].
    destruct (IH t1 m1 R1 Fos) as (vs & t2 & ws & m2 & E2 & S2 & VR2 & R2); [lia|].
    exists (v :: vs), t2, (w :: ws), m2. rewrite E. cbn [bind]. rewrite E2. cbn [bind].
    split; auto. split; [econstructor; eauto|]. split; auto.
Qed.

(** [symmetric_difference_update] leaves the difference. *)
Lemma symmetric_difference_update_ok t xs o ys : set_repr t xs -> set_repr o ys ->
  wp (symmetric_difference_update eqb hash t o) (fun t' => exists xs', set_repr t' xs' /\
    is_set eqb xs' (fun x => mem xs x && negb (mem ys x))).
Proof.
  intros R Ro. unfold symmetric_difference_update. destruct (elems_ok o ys Ro) as (l & -> & P). cbn [bind].
  apply wp_bind.
  assert (G : forall l t xs, set_repr t xs ->
    wp (for_in (fun s a => c <- contains eqb hash s a ;; if (c : bool) then discard eqb hash s a else Ok s) l t)
      (fun t' => exists xs', set_repr t' xs' /\ forall x, mem xs' x = mem xs x && negb (mem l x))).
  { clear - eqb_sym eqb_trans hash_eq. induction l as [|a l IH]; intros t xs R; cbn [for_in].
    - apply wp_ok. exists xs. split; auto. intros x. simpl. now rewrite andb_true_r.
    - apply wp_bind. rewrite (contains_eq t xs a R). cbn [bind]. destruct (mem xs a) eqn:Ma.
      + eapply wp_conseq; [apply (discard_ok t xs a R)|]. cbv beta. intros t' (xs' & R' & M & _).
        eapply wp_conseq; [apply (IH t' xs' R')|]. cbv beta. intros t2 (xs2 & R2 & M2). exists xs2. split; auto.
        intros x. rewrite M2, M. simpl. now rewrite negb_orb, andb_assoc.
      + apply wp_ok. eapply wp_conseq; [apply (IH t xs R)|]. cbv beta. intros t2 (xs2 & R2 & M2). exists xs2. split; auto.
        intros x. rewrite M2. simpl. destruct (eqb a x) eqn:E; simpl; auto. rewrite <- (mem_respects xs a x E), Ma. auto. }
  eapply wp_conseq; [apply (G l t xs R)|]. cbv beta. intros t1 (xs1 & R1 & M1).
  eapply wp_conseq; [apply (for_self_ok _ (fun a => negb (mem ys a))) with (xs := xs1); auto|].
  - intros a b E. f_equal. now apply mem_respects.
  - intros s a x _ _. rewrite (contains_eq o ys a Ro). cbn [bind]. now destruct (mem ys a).
  - cbv beta. intros t' (xs' & R' & M & _). exists xs'. split; auto. split; [eapply set_repr_distinct; eauto|].
    intros x. rewrite M, M1, (mem_perm l ys x P). now destruct (mem xs x), (mem ys x).
Qed.

(** The in-place updates one by one. *)
Definition leaves (c : res tbl) (P : K -> bool) : Prop :=
  exists s zs, c = Ok s /\ set_repr s zs /\ is_set eqb zs P.
Lemma leaves_wp c P Q : wp c (fun t' => exists xs', set_repr t' xs' /\ (forall x, mem xs' x = P x) /\ Q xs') -> leaves c P.
Proof.
  intros H. apply wp_inv in H. destruct H as (s & -> & zs & R & M & _). exists s, zs. split; auto. split; auto.
  split; auto. eapply set_repr_distinct; eauto.
Qed.

Lemma set_update_ok a xs b ys : set_repr a xs -> set_repr b ys -> zlen xs + zlen ys <= 2^60 ->
  leaves (set_update eqb hash a b) (fun x => mem xs x || mem ys x).
Proof.
  intros R Ro L. unfold set_update. destruct (elems_ok b ys Ro) as (l & -> & P). cbn [bind].
  pose proof (zlen_perm l ys P) as PL. eapply leaves_wp.
  eapply wp_conseq; [apply (for_add_ok (add eqb hash) (fun _ => true) l (fun s a => eq_refl) a xs R); lia|]. cbv beta.
  intros t' (xs' & R' & M & L'). exists xs'. split; auto. split; [|exact L'].
  intros x. now rewrite M, filter_true, (mem_perm l ys x P).
Qed.
Lemma difference_update_ok a xs b ys : set_repr a xs -> set_repr b ys ->
  leaves (difference_update eqb hash a b) (fun x => mem xs x && negb (mem ys x)).
Proof.
  intros R Ro. unfold difference_update. destruct (elems_ok b ys Ro) as (l & -> & P). cbn [bind]. eapply leaves_wp.
  eapply wp_conseq; [apply (for_discard_ok l a xs R)|]. cbv beta.
  intros t' (xs' & R' & M & L'). exists xs'. split; auto. split; [|exact L'].
  intros x. now rewrite M, (mem_perm l ys x P).
Qed.
Lemma intersection_update_ok a xs b ys : set_repr a xs -> set_repr b ys ->
  leaves (intersection_update eqb hash a b) (fun x => mem xs x && mem ys x).
Proof.
  intros R Ro. unfold intersection_update. eapply leaves_wp. apply (for_self_ok _ (mem ys)) with (xs := xs); auto.
  - intros. now apply mem_respects.
  - intros s k x _ _. rewrite (contains_eq b ys k Ro). cbn [bind]. now destruct (mem ys k).
Qed.
Lemma difference_update_self_ok a xs : set_repr a xs ->
  leaves (difference_update_self eqb hash a) (fun _ => false).
Proof.
  intros R. unfold difference_update_self. eapply leaves_wp.
  eapply wp_conseq; [apply (for_self_ok _ (fun _ => false)) with (xs := xs); auto|].
  cbv beta. intros t' (xs' & R' & M & L'). exists xs'. split; auto. split; [|exact L'].
  intros x. now rewrite M, andb_false_r.
Qed.
Lemma intersection_update_self_ok a xs : set_repr a xs ->
  leaves (intersection_update_self eqb hash a) (mem xs).
Proof.
  intros R. unfold intersection_update_self. eapply leaves_wp.
  eapply wp_conseq; [apply (for_self_ok _ (fun _ => true)) with (xs := xs); auto|].
  - intros s k x W At. assert (Rs : set_repr s (map fst (ents s))) by (split; [now right|rewrite tag_fst; auto]).
    rewrite (contains_eq s _ k Rs). cbn [bind]. replace (mem (map fst (ents s)) k) with true; auto.
    symmetry. apply mem_in. destruct At as (Hx & L & k0 & Ek & E).
    destruct (w_full _ _ s W x Hx L) as (k' & v & Ek' & Ev). rewrite Ek in Ek'. injection Ek' as <-.
    exists k0. split; auto. apply in_map_iff. exists (k0, v). split; auto. apply in_cells. exists x. auto.
  - cbv beta. intros t' (xs' & R' & M & L'). exists xs'. split; auto. split; [|exact L'].
    intros x. now rewrite M, andb_true_r.
Qed.
Lemma set_of_ok l : zlen l <= 2^60 -> leaves (set_of eqb hash l) (mem l).
Proof.
  intros L. unfold set_of. eapply leaves_wp.
  eapply wp_conseq; [apply (for_add_ok (add eqb hash) (fun _ => true) l (fun s a => eq_refl) new [] new_repr)|].
  - change (zlen (@nil K)) with 0. lia.
  - cbv beta. intros t' (xs' & R' & M & L'). exists xs'. split; auto. split; [|exact L'].
    intros x. now rewrite M, filter_true.
Qed.
End SetRun.
