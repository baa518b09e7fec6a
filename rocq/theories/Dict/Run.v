(** Histories of dict operations on the hash-table model, and their refinement. *)
From Coq Require Import List ZArith Lia Bool Permutation.
From Verif.Common Require Import Result Int64 Arr Tac.
From Verif.Dict Require Import Model Spec Flags Cells Proofs OpProofs.
Import ListNotations.
Local Open Scope Z_scope.
Local Open Scope res_scope.
Local Arguments Z.add : simpl never.
Local Arguments Z.sub : simpl never.
Local Arguments Z.mul : simpl never.
Local Arguments Z.pow : simpl never.

Section Run.
Context {K V : Type} (eqb : K -> K -> bool) (veq : V -> V -> bool) (plus : V -> V -> V) (hash : K -> Z).
Notation tbl := (tbl K V).

(** A raised exception is caught by the caller; every [Raise] of Model.v comes before any
    change of the table. *)
Definition catch (t : tbl) (m : res (value K V tbl * tbl)) : res (value K V tbl * tbl) :=
  match m with Raise e => Ok (VExn e, t) | m => m end.

(** Dispatch to the functions of Model.v. *)
Definition run_op (t : tbl) (o : op K V tbl) : res (value K V tbl * tbl) :=
  catch t
  match o with
  | OSet k v => t1 <- setitem eqb hash t k v ;; Ok (VNone, t1)
  | OGet k => v <- getitem eqb hash t k ;; Ok (VVal v, t)
  | ODel k => t1 <- delitem eqb hash t k ;; Ok (VNone, t1)
  | OIn k => b <- contains eqb hash t k ;; Ok (VBool b, t)
  | OGetOr k d => (* dict.codon:167-169 *)
      v <- get eqb hash t k ;; Ok (VVal (match v with Some v => v | None => d end), t)
  | OGetOpt k => v <- get eqb hash t k ;; Ok (VOpt v, t)
  | OSetDefault k v => '(t1, w) <- setdefault eqb hash t k v ;; Ok (VVal w, t1)
  | OIncr k v => t1 <- increment eqb hash plus t k v ;; Ok (VNone, t1)
  | OPop k => '(t1, v) <- pop eqb hash t k ;; Ok (VVal v, t1)
  | OPopItem => '(t1, (k, v)) <- popitem eqb hash t ;; Ok (VPair k v, t1)
  | OItems => l <- items t ;; Ok (VItems l, t)
  | OLen => Ok (VInt (sz t), t)
  | OClear => t1 <- kh_clear t ;; Ok (VNone, t1)
  | OResize n => t1 <- kh_resize hash t n ;; Ok (VNone, t1)
  | OUpdate y => l <- items y ;; t1 <- update eqb hash t l ;; Ok (VNone, t1)
  | OUpdateSeq l => t1 <- update eqb hash t l ;; Ok (VNone, t1)
  | OCopy => c <- copy t ;; Ok (VDict c, t)
  | OInit => c <- init_from t ;; Ok (VDict c, t)
  | OOr y => c <- dict_or eqb hash t y ;; Ok (VDict c, t)
  | OEq y => b <- dict_eq eqb hash veq t y ;; Ok (VBool b, t)
  end.

Fixpoint run (t : tbl) (os : list (op K V tbl)) : res (list (value K V tbl) * tbl) :=
  match os with
  | [] => Ok ([], t)
  | o :: os =>
      '(v, t1) <- run_op t o ;; '(vs, t2) <- run t1 os ;; Ok (v :: vs, t2)
  end.

(** ** Relating tables and dicts *)

Context (eqb_sym : forall a b, eqb a b = eqb b a).
Context (eqb_trans : forall a b c, eqb a b = true -> eqb b c = true -> eqb a c = true).
Context (hash_eq : forall a b, eqb a b = true -> hash a = hash b).

Definition repr (t : tbl) (m : list (K * V)) : Prop := wf eqb hash t /\ Permutation (ents t) m.

Definition op_map {B C} (f : B -> C) (o : op K V B) : op K V C :=
  match o with
  | OSet k v => OSet k v | OGet k => OGet k | ODel k => ODel k | OIn k => OIn k
  | OGetOr k d => OGetOr k d | OGetOpt k => OGetOpt k | OSetDefault k v => OSetDefault k v
  | OIncr k v => OIncr k v | OPop k => OPop k | OPopItem => OPopItem | OItems => OItems
  | OLen => OLen | OClear => OClear | OResize n => OResize n | OUpdate y => OUpdate (f y)
  | OUpdateSeq l => OUpdateSeq l | OCopy => OCopy | OInit => OInit | OOr y => OOr (f y)
  | OEq y => OEq (f y)
  end.
(** Dict operands come as a table with the dict it holds; resize arguments are ints. *)
Definition operand_ok (o : op K V (tbl * list (K * V))) : Prop :=
  match o with
  | OUpdate y | OOr y | OEq y => repr (fst y) (snd y)
  | OResize n => in64 n
  | _ => True
  end.
Definition value_repr (v : value K V tbl) (w : value K V (list (K * V))) : Prop :=
  match v, w with
  | VNone, VNone => True
  | VVal x, VVal y => x = y
  | VOpt x, VOpt y => x = y
  | VBool x, VBool y => x = y
  | VInt x, VInt y => x = y
  | VItems x, VItems y => x = y
  | VPair k x, VPair k' y => k = k' /\ x = y
  | VDict t, VDict m => repr t m
  | VExn e, VExn e' => e = e'
  | _, _ => False
  end.
(** How many entries an operation can add. *)
Definition weight {B} (size : B -> Z) (o : op K V B) : Z :=
  match o with
  | OUpdate y | OOr y => size y
  | OUpdateSeq l => zlen l
  | _ => 1
  end.

(** ** Association lists with distinct keys *)

Notation uniq := (keys_uniq (V := V) eqb).
Notation lookup := (lookup (V := V) eqb).
Notation store := (store (V := V) eqb).
Notation remove := (remove (V := V) eqb).
Definition free (m : list (K * V)) (key : K) : Prop := forall k v, In (k, v) m -> eqb k key = false.

Lemma free_lookup m key : free m key -> lookup m key = None.
Proof.
  induction m as [|[k v] m IH]; intros F; simpl; auto.
  rewrite (F k v) by (left; auto). apply IH. intros k' v' I. apply (F k' v'). now right.
Qed.
Lemma free_store m key v : free m key -> store m key v = m ++ [(key, v)].
Proof.
  induction m as [|[k w] m IH]; intros F; simpl; auto.
  rewrite (F k w) by (left; auto). f_equal. apply IH. intros k' v' I. apply (F k' v'). now right.
Qed.
Lemma free_remove m key : free m key -> remove m key = m.
Proof.
  induction m as [|[k v] m IH]; intros F; simpl; auto.
  rewrite (F k v) by (left; auto). simpl. f_equal. apply IH. intros k' v' I. apply (F k' v'). now right.
Qed.
Lemma free_app_lookup l1 l2 key : free l1 key -> lookup (l1 ++ l2) key = lookup l2 key.
Proof.
  induction l1 as [|[k v] m IH]; intros F; simpl; auto.
  rewrite (F k v) by (left; auto). apply IH. intros k' v' I. apply (F k' v'). now right.
Qed.
Lemma free_app_store l1 l2 key v : free l1 key -> store (l1 ++ l2) key v = l1 ++ store l2 key v.
Proof.
  induction l1 as [|[k w] m IH]; intros F; simpl; auto.
  rewrite (F k w) by (left; auto). f_equal. apply IH. intros k' v' I. apply (F k' v'). now right.
Qed.

(** A present key splits the list. *)
Lemma present_split m k0 v0 key : uniq m -> In (k0, v0) m -> eqb k0 key = true ->
  exists l1 l2, m = l1 ++ (k0, v0) :: l2 /\ free l1 key /\ free l2 key.
Proof.
  intros U I E. apply in_split in I. destruct I as (l1 & l2 & ->). exists l1, l2. split; auto.
  assert (PM : Permutation (l1 ++ (k0, v0) :: l2) ((k0, v0) :: l1 ++ l2)) by (symmetry; apply Permutation_middle).
  apply (keys_uniq_perm eqb eqb_sym _ _ PM) in U. inversion U as [|? ? F1 F2]; subst.
  rewrite Forall_forall in F1.
  assert (G : free (l1 ++ l2) key).
  { intros k v Ik. destruct (eqb k key) eqn:EK; auto. specialize (F1 (k, v) Ik). simpl in F1.
    rewrite (eqb_trans k0 key k) in F1; auto. now rewrite eqb_sym. }
  split; intros k v Ik; apply (G k v), in_or_app; auto.
Qed.
Lemma present_facts m k0 v0 key : uniq m -> In (k0, v0) m -> eqb k0 key = true ->
  lookup m key = Some v0 /\
  exists rest, Permutation m ((k0, v0) :: rest) /\ Permutation (remove m key) rest /\
    forall v, Permutation (store m key v) ((k0, v) :: rest).
Proof.
  intros U I E. destruct (present_split m k0 v0 key U I E) as (l1 & l2 & -> & F1 & F2). split.
  - rewrite free_app_lookup by auto. simpl. now rewrite E.
  - exists (l1 ++ l2). split; [symmetry; apply Permutation_middle|]. split.
    + unfold Spec.remove. rewrite filter_app. simpl. rewrite E. simpl.
      fold (remove l1 key). fold (remove l2 key). rewrite !free_remove by auto. auto.
    + intros v. rewrite free_app_store by auto. simpl. rewrite E. symmetry. apply Permutation_middle.
Qed.

Lemma free_perm m m' key : Permutation m m' -> free m key -> free m' key.
Proof. intros P F k v I. apply (F k v). eapply Permutation_in; [symmetry; exact P|auto]. Qed.

Lemma lookup_cases m key : (free m key /\ lookup m key = None) \/
  exists k0 v0, In (k0, v0) m /\ eqb k0 key = true /\ lookup m key = Some v0.
Proof.
  induction m as [|[k v] m IH]; simpl.
  - left. split; auto. intros k v [].
  - destruct (eqb k key) eqn:E.
    + right. exists k, v. auto.
    + destruct IH as [(F & L)|(k0 & v0 & I & E0 & L)].
      * left. split; auto. intros k' v' [EQ|I]; [congruence|]. now apply (F k' v').
      * right. exists k0, v0. auto.
Qed.

Lemma lookup_perm m m' key : uniq m -> Permutation m m' -> lookup m key = lookup m' key.
Proof.
  intros U P. destruct (lookup_cases m key) as [(F & ->)|(k0 & v0 & I & E & ->)].
  - rewrite free_lookup; auto. eapply free_perm; eauto.
  - symmetry. apply (present_facts m' k0 v0 key); auto.
    + eapply keys_uniq_perm; eauto.
    + eapply Permutation_in; eauto.
Qed.

Lemma store_perm m m' key v : uniq m -> Permutation m m' -> Permutation (store m key v) (store m' key v).
Proof.
  intros U P. destruct (lookup_cases m key) as [(F & _)|(k0 & v0 & I & E & _)].
  - rewrite !free_store; auto; [|eapply free_perm; eauto]. now apply Permutation_app_tail.
  - destruct (present_facts m k0 v0 key U I E) as (_ & r & P1 & _ & P3).
    assert (U' : uniq m') by (eapply keys_uniq_perm; eauto).
    destruct (present_facts m' k0 v0 key U' (Permutation_in _ P I) E) as (_ & r' & P1' & _ & P3').
    rewrite P3, P3'. apply perm_skip. apply (Permutation_cons_inv (a := (k0, v0))).
    now rewrite <- P1, <- P1'.
Qed.

Lemma repr_uniq t m : repr t m -> uniq m.
Proof. intros (W & P). eapply keys_uniq_perm; [auto|exact P|]. now apply (wf_keys_uniq eqb hash). Qed.
Lemma repr_sz t m : repr t m -> sz t = zlen m.
Proof. intros (W & P). rewrite (wf_sz _ _ _ W). unfold zlen. now rewrite (Permutation_length P). Qed.

(** ** The operations *)

(** A lookup finds the bucket holding the value of the key, or the end. *)
Lemma get_lookup t m key : repr t m ->
  wp (kh_get eqb hash t key) (fun x =>
    (x = nb t /\ lookup m key = None /\ free m key) \/
    (x <> nb t /\ is_at eqb t key x /\ wfn eqb hash t /\
     exists v, lookup m key = Some v /\ rd (vals t) x = Ok v)).
Proof.
  intros R. pose proof (repr_uniq t m R) as U. destruct R as (W & P).
  eapply wp_conseq; [apply get_spec; auto|]. cbv beta. intros x [(-> & A)|At].
  - left. split; auto. assert (F : free m key).
    { intros k v I. apply (absent_ents eqb eqb_sym t key A k v). eapply Permutation_in; [symmetry; exact P|auto]. }
    split; auto. now apply free_lookup.
  - right. destruct W as [->|W]; [destruct At as (? & _); simpl in *; lia|].
    pose proof At as (Hx & L & k & Ek & E). split; [lia|]. split; auto. split; auto.
    destruct (w_full _ _ t W x Hx L) as (k' & v & Ek' & Ev). rewrite Ek in Ek'. injection Ek' as <-.
    exists v. split.
    + apply (present_facts m k v key); auto. eapply Permutation_in; [exact P|]. apply in_cells. exists x. auto.
    + apply rd_ok; auto. rewrite (w_vals _ _ t W). lia.
Qed.

(** [_kh_put]: an absent key waits for its value; a present one is found. *)
Lemma put_lookup t m key : repr t m -> zlen m <= 2^60 ->
  wp (kh_put eqb hash t key) (fun r => let '(t', ret, x) := r in
    (ret <> 0 /\ lookup m key = None /\
     forall v, wp (set_val t' x v) (fun t'' => repr t'' (store m key v))) \/
    (ret = 0 /\ repr t' m /\ exists v0, lookup m key = Some v0 /\ rd (vals t') x = Ok v0 /\
     forall v, wp (set_val t' x v) (fun t'' => repr t'' (store m key v)))).
Proof.
  intros R Sm. pose proof (repr_uniq t m R) as U. pose proof (repr_sz t m R) as SZ. destruct R as (W & P).
  eapply wp_conseq; [apply put_spec; auto; unfold roomy; lia|]. intros [[t' ret] x] (_ & [H|H]).
  - right. destruct H as (-> & W' & P' & At). split; auto.
    assert (PM : Permutation (ents t') m) by (now rewrite P').
    split; [split; [now right|auto]|]. pose proof At as (Hx & L & k & Ek & E).
    destruct (w_full _ _ t' W' x Hx L) as (k' & v0 & Ek' & Ev). rewrite Ek in Ek'. injection Ek' as <-.
    assert (I : In (k, v0) m).
    { eapply Permutation_in; [exact PM|]. apply in_cells. exists x. auto. }
    destruct (present_facts m k v0 key U I E) as (LK & rest & P1 & _ & P3).
    exists v0. split; auto. split; [apply rd_ok; auto; rewrite (w_vals _ _ t' W'); lia|].
    intros v. destruct (set_val_spec eqb hash t' x v W' Hx L) as (k2 & v2 & rest2 & E2 & E2' & P2 & S2).
    rewrite Ek in E2. injection E2 as <-. rewrite Ev in E2'. injection E2' as <-.
    eapply wp_conseq; [exact S2|]. cbv beta. intros t'' (W'' & P''). split; [now right|].
    rewrite P'', P3. apply perm_skip. apply (Permutation_cons_inv (a := (k, v0))).
    now rewrite <- P1, <- P2.
  - left. destruct H as (Rn & A & Hx & H). split; auto.
    assert (F : free m key) by (intros k v I; apply (A k v); eapply Permutation_in; [symmetry; exact P|auto]).
    split; [now apply free_lookup|]. intros v. eapply wp_conseq; [apply H|]. cbv beta.
    intros t'' (W'' & P''). split; [now right|]. rewrite P'', free_store by auto. rewrite P.
    apply Permutation_cons_append.
Qed.

Lemma setitem_ok t m k v : repr t m -> zlen m <= 2^60 ->
  wp (setitem eqb hash t k v) (fun t' => repr t' (store m k v)).
Proof.
  intros R Sm. unfold setitem. apply wp_bind. eapply wp_conseq; [now apply (put_lookup t m k)|].
  intros [[t' ret] x] [(_ & _ & H)|(_ & _ & v0 & _ & _ & H)]; apply H.
Qed.

Lemma store_len m k v : zlen (store m k v) <= zlen m + 1.
Proof.
  unfold zlen. induction m as [|[k' v'] m IH]; simpl; [lia|]. destruct (eqb k' k); simpl length; lia.
Qed.
Lemma storeall_len (l m : list (K * V)) : zlen (storeall eqb m l) <= zlen m + zlen l.
Proof.
  revert m. induction l as [|[k v] l IH]; intros m; unfold storeall in *; simpl.
  - change (zlen (@nil (K * V))) with 0. lia.
  - specialize (IH (store m k v)). pose proof (store_len m k v).
    replace (zlen ((k, v) :: l)) with (zlen l + 1) by (unfold zlen; simpl length; lia). lia.
Qed.

Lemma update_ok l : forall t m, repr t m -> zlen m + zlen l <= 2^60 ->
  wp (update eqb hash t l) (fun t' => repr t' (storeall eqb m l)).
Proof.
  induction l as [|[k v] l IH]; intros t m R Sm; cbn [update].
  - apply wp_ok. exact R.
  - replace (zlen ((k, v) :: l)) with (zlen l + 1) in Sm by (unfold zlen; simpl length; lia).
    apply wp_bind. pose proof (zlen_nonneg l).
    eapply wp_conseq; [apply (setitem_ok t m k v R); lia|]. cbv beta. intros t' R'.
    apply (IH t' (store m k v)); auto. pose proof (store_len m k v). lia.
Qed.

Lemma del_ok t m key x : repr t m -> wfn eqb hash t -> is_at eqb t key x ->
  wp (kh_del t x) (fun t' => repr t' (remove m key)).
Proof.
  intros R W At. pose proof (repr_uniq t m R) as U. destruct R as (_ & P).
  destruct (del_spec eqb hash t key x W At) as (k & v & Ev & E & D).
  eapply wp_conseq; [exact D|]. cbv beta. intros t' (W' & _ & _ & _ & _ & P'). split; [now right|].
  assert (I : In (k, v) m).
  { eapply Permutation_in; [exact P|]. eapply Permutation_in; [symmetry; exact P'|]. now left. }
  destruct (present_facts m k v key U I E) as (_ & rest & P1 & P2 & _). rewrite P2.
  apply (Permutation_cons_inv (a := (k, v))). now rewrite <- P', <- P1.
Qed.

Lemma eq_loop_ok o y l : repr o y ->
  wp (eq_loop eqb hash veq o l) (fun b => b = forallb (fun e => match lookup y (fst e) with Some w => veq w (snd e) | None => false end) l).
Proof.
  intros R. induction l as [|[k v] l IH]; cbn [eq_loop]; [apply wp_ok; reflexivity|].
  apply wp_bind. unfold contains. apply wp_bind. eapply wp_conseq; [now apply (get_lookup o y k)|].
  cbv beta. intros x H. apply wp_ok. cbn [forallb fst snd].
  destruct H as [(-> & L & _)|(N & _ & _ & w & L & Rd)]; rewrite L.
  - rewrite Z.eqb_refl. cbn [negb]. apply wp_ok. reflexivity.
  - destruct (Z.eqb_spec x (nb o)); [lia|]. cbn [negb]. apply wp_bind. unfold getitem. apply wp_bind.
    eapply wp_conseq; [now apply (get_lookup o y k)|]. cbv beta.
    intros x2 [(-> & L2 & _)|(N2 & _ & _ & w2 & L2 & Rd2)]; [congruence|].
    rewrite L in L2. injection L2 as <-.
    destruct (Z.eqb_spec x2 (nb o)); [lia|]. cbn [negb]. rewrite Rd2. apply wp_ok.
    destruct (veq w v); cbn [negb andb]; [exact IH|apply wp_ok; reflexivity].
Qed.

Lemma forallb_perm {X} (f : X -> bool) l l' : Permutation l l' -> forallb f l = forallb f l'.
Proof.
  induction 1; simpl; auto; try congruence. destruct (f x), (f y); auto.
Qed.

Lemma dict_eq_ok t m o y : repr t m -> repr o y ->
  wp (dict_eq eqb hash veq t o) (fun b => b = same_dict eqb veq m y).
Proof.
  intros R Ro. unfold dict_eq, same_dict. rewrite (repr_sz t m R), (repr_sz o y Ro).
  fold (zlen m). fold (zlen y). destruct (zlen m =? zlen y); cbn [negb andb]; [|apply wp_ok; reflexivity].
  pose proof R as (W & P). rewrite (items_spec _ _ _ W). cbn [bind].
  eapply wp_conseq; [now apply (eq_loop_ok o y)|]. cbv beta. intros b ->. now apply forallb_perm.
Qed.

Lemma bind_raise {X Y} (e : exn) (k : X -> res Y) : bind (Raise e) k = Raise e.
Proof. reflexivity. Qed.

(** Finish an operation with a result value and state. *)
Lemma catch_wp t m (Q : value K V tbl * tbl -> Prop) : wp m Q -> wp (catch t m) Q.
Proof. destruct m; simpl; auto; contradiction. Qed.

Lemma popitem_ok t m : repr t m ->
  match ents t with
  | [] => popitem eqb hash t = Raise KeyError
  | (k, v) :: _ => eqb k k = true ->
      wp (popitem eqb hash t) (fun r => let '(t', (k', v')) := r in k' = k /\ v' = v /\ In (k, v) m /\ repr t' (remove m k))
  end.
Proof.
  intros R. pose proof R as (W & P). unfold popitem. rewrite (items_spec _ _ _ W). cbn [bind].
  destruct (ents t) as [|[k v] es] eqn:EE; auto. intros RF.
  assert (I : In (k, v) m) by (eapply Permutation_in; [exact P|now left]).
  destruct (present_facts m k v k (repr_uniq t m R) I RF) as (LK & _).
  unfold pop. apply wp_bind. apply wp_bind. eapply wp_conseq; [now apply (get_lookup t m k)|]. cbv beta.
  intros x [(-> & L & _)|(N & At & W' & v' & L & Rd)]; [congruence|].
  destruct (Z.eqb_spec x (nb t)); [lia|]. cbn [negb]. rewrite Rd. cbn [bind].
  apply wp_bind. eapply wp_conseq; [now apply (del_ok t m k)|]. cbv beta. intros t' R'.
  apply wp_ok. apply wp_ok. rewrite LK in L. injection L as <-. auto.
Qed.

Context (eqb_refl : forall a, eqb a a = true).

Theorem op_ok t m (o : op K V (tbl * list (K * V))) : repr t m -> operand_ok o ->
  zlen m + weight (fun y => zlen (snd y)) o <= 2^60 ->
  exists v t' w m', run_op t (op_map fst o) = Ok (v, t') /\
    spec_op eqb veq plus m (op_map snd o) m' w /\ value_repr v w /\ repr t' m' /\
    zlen m' <= zlen m + weight (fun y => zlen (snd y)) o.
Proof.
  intros R Ok1 Sm.
  assert (Fin : forall (c : res (value K V tbl * tbl)),
    wp c (fun r => let '(v, t') := r in exists w m', spec_op eqb veq plus m (op_map snd o) m' w /\ value_repr v w /\ repr t' m' /\
       zlen m' <= zlen m + weight (fun y => zlen (snd y)) o) ->
    exists v t' w m', catch t c = Ok (v, t') /\ spec_op eqb veq plus m (op_map snd o) m' w /\ value_repr v w /\ repr t' m' /\
       zlen m' <= zlen m + weight (fun y => zlen (snd y)) o).
  { intros c H. apply wp_inv in H. destruct H as ([v t'] & -> & w & m' & H). exists v, t', w, m'. split; auto. }
  assert (FinE : forall (c : res (value K V tbl * tbl)) e, c = Raise e ->
    spec_op eqb veq plus m (op_map snd o) m (VExn e) -> 0 <= weight (fun y => zlen (snd y)) o ->
    exists v t' w m', catch t c = Ok (v, t') /\ spec_op eqb veq plus m (op_map snd o) m' w /\ value_repr v w /\ repr t' m' /\
       zlen m' <= zlen m + weight (fun y => zlen (snd y)) o).
  { intros c e -> H Hw. exists (VExn e), t, (VExn e), m. repeat split; auto; try apply R. lia. }
  assert (RL : forall k, zlen (remove m k) <= zlen m).
  { intros k. unfold Spec.remove, zlen. induction m as [|e l IH]; simpl; [lia|].
    assert (Z.of_nat (length (filter (fun e => negb (eqb (fst e) k)) l)) <= Z.of_nat (length l)).
    { clear. induction l as [|a l IH]; simpl; [lia|]. destruct (negb _); simpl length; lia. }
    destruct (negb _); simpl length; lia. }
  pose proof (zlen_nonneg m) as Zm.
  destruct o; cbn [op_map weight operand_ok] in *; unfold run_op.
  - (* set *)
    apply Fin. apply wp_bind. eapply wp_conseq; [apply (setitem_ok t m k v R); lia|]. cbv beta. intros t' R'.
    apply wp_ok. exists VNone, (store m k v). simpl. pose proof (store_len m k v). auto 6.
  - (* get *)
    pose proof (get_lookup t m k R) as G. apply wp_inv in G. destruct G as (x & Ex & G). unfold getitem. rewrite Ex. cbn [bind].
    destruct G as [(-> & L & _)|(N & _ & _ & v & L & Rd)].
    + rewrite Z.eqb_refl. cbn [negb bind]. apply (FinE _ KeyError); auto; try lia. simpl. rewrite L. auto.
    + destruct (Z.eqb_spec x (nb t)); [lia|]. cbn [negb]. rewrite Rd. cbn [bind]. apply Fin. apply wp_ok.
      exists (VVal v), m. simpl. rewrite L. split; auto. split; auto. split; auto. lia.
  - (* del *)
    pose proof (get_lookup t m k R) as G. apply wp_inv in G. destruct G as (x & Ex & G). unfold delitem. rewrite Ex. cbn [bind].
    destruct G as [(-> & L & F)|(N & At & W & v & L & Rd)].
    + rewrite Z.eqb_refl. cbn [negb bind]. apply (FinE _ KeyError); auto; try lia. simpl. rewrite L. split; auto.
      symmetry. now apply free_remove.
    + destruct (Z.eqb_spec x (nb t)); [lia|]. cbn [negb]. apply Fin. apply wp_bind.
      eapply wp_conseq; [now apply (del_ok t m k)|]. cbv beta. intros t' R'. apply wp_ok.
      exists VNone, (remove m k). simpl. rewrite L. specialize (RL k). repeat split; auto; try apply R'. lia.
  - (* in *)
    apply Fin. unfold contains. apply wp_bind. apply wp_bind. eapply wp_conseq; [now apply (get_lookup t m k)|]. cbv beta.
    intros x G. apply wp_ok. apply wp_ok. destruct G as [(-> & L & _)|(N & _ & _ & v & L & Rd)].
    + exists (VBool false), m. simpl. rewrite L, Z.eqb_refl. repeat split; auto; try apply R. lia.
    + exists (VBool true), m. simpl. rewrite L. destruct (Z.eqb_spec x (nb t)); [lia|]. repeat split; auto; try apply R. lia.
  - (* get with a default *)
    apply Fin. unfold get. apply wp_bind. apply wp_bind. eapply wp_conseq; [now apply (get_lookup t m k)|]. cbv beta.
    intros x G. destruct G as [(-> & L & _)|(N & _ & _ & v & L & Rd)].
    + rewrite Z.eqb_refl. cbn [negb]. apply wp_ok. apply wp_ok.
      exists (VVal d), m. simpl. rewrite L. repeat split; auto; try apply R. lia.
    + destruct (Z.eqb_spec x (nb t)); [lia|]. cbn [negb]. rewrite Rd. cbn [bind]. apply wp_ok. apply wp_ok.
      exists (VVal v), m. simpl. rewrite L. repeat split; auto; try apply R. lia.
  - (* get without a default *)
    apply Fin. unfold get. apply wp_bind. apply wp_bind. eapply wp_conseq; [now apply (get_lookup t m k)|]. cbv beta.
    intros x G. destruct G as [(-> & L & _)|(N & _ & _ & v & L & Rd)].
    + rewrite Z.eqb_refl. cbn [negb]. apply wp_ok. apply wp_ok.
      exists (VOpt None), m. simpl. rewrite L. repeat split; auto; try apply R. lia.
    + destruct (Z.eqb_spec x (nb t)); [lia|]. cbn [negb]. rewrite Rd. cbn [bind]. apply wp_ok. apply wp_ok.
      exists (VOpt (Some v)), m. simpl. rewrite L. repeat split; auto; try apply R. lia.
  - (* setdefault *)
    apply Fin. unfold setdefault. apply wp_bind. apply wp_bind. eapply wp_conseq; [apply (put_lookup t m k R); lia|].
    intros [[t' ret] x] [(Rn & L & H)|(-> & R' & v0 & L & Rd & H)].
    + destruct (Z.eqb_spec ret 0); [lia|]. cbn [negb]. apply wp_bind. eapply wp_conseq; [apply H|]. cbv beta. intros t'' R''.
      apply wp_ok. apply wp_ok. exists (VVal v), (store m k v). simpl. rewrite L. pose proof (store_len m k v).
      repeat split; auto; apply R''.
    + change (negb (0 =? 0)) with false. cbn iota. rewrite Rd. cbn [bind]. apply wp_ok. apply wp_ok.
      exists (VVal v0), m. simpl. rewrite L. repeat split; auto; try apply R'. lia.
  - (* increment *)
    apply Fin. unfold increment. apply wp_bind. apply wp_bind. eapply wp_conseq; [apply (put_lookup t m k R); lia|].
    intros [[t' ret] x] [(Rn & L & H)|(-> & R' & v0 & L & Rd & H)].
    + destruct (Z.eqb_spec ret 0); [lia|]. cbn [negb]. eapply wp_conseq; [apply H|]. cbv beta. intros t'' R''.
      apply wp_ok. exists VNone, (store m k v). simpl. rewrite L. pose proof (store_len m k v).
      repeat split; auto; apply R''.
    + change (negb (0 =? 0)) with false. cbn iota. rewrite Rd. cbn [bind]. eapply wp_conseq; [apply H|]. cbv beta. intros t'' R''.
      apply wp_ok. exists VNone, (store m k (plus v0 v)). simpl. rewrite L. pose proof (store_len m k (plus v0 v)).
      repeat split; auto; apply R''.
  - (* pop *)
    pose proof (get_lookup t m k R) as G. apply wp_inv in G. destruct G as (x & Ex & G). unfold pop. rewrite Ex. cbn [bind].
    destruct G as [(-> & L & F)|(N & At & W & v & L & Rd)].
    + rewrite Z.eqb_refl. cbn [negb bind]. apply (FinE _ KeyError); auto; try lia. simpl. rewrite L. split; auto.
      symmetry. now apply free_remove.
    + destruct (Z.eqb_spec x (nb t)); [lia|]. cbn [negb]. rewrite Rd. cbn [bind]. apply Fin. apply wp_bind. apply wp_bind.
      eapply wp_conseq; [now apply (del_ok t m k)|]. cbv beta. intros t' R'. apply wp_ok. apply wp_ok.
      exists (VVal v), (remove m k). simpl. rewrite L. specialize (RL k). repeat split; auto; try apply R'. lia.
  - (* popitem *)
    pose proof (popitem_ok t m R) as PI. destruct (ents t) as [|[k v] es] eqn:EE.
    + rewrite PI, bind_raise. apply (FinE _ KeyError); auto; [|lia]. simpl. left.
      destruct R as (_ & P). rewrite EE in P. apply Permutation_nil in P. auto.
    + apply Fin. apply wp_bind. eapply wp_conseq; [apply PI; auto|].
      intros [t' [k' v']] (-> & -> & I & R'). apply wp_ok. exists (VPair k v), (remove m k).
      simpl. specialize (RL k). split; [right; eauto|]. repeat split; auto; try apply R'. lia.
  - (* items *)
    apply Fin. pose proof R as (W & P). rewrite (items_spec _ _ _ W). cbn [bind]. apply wp_ok.
    exists (VItems (ents t)), m. simpl. split; [eauto|]. repeat split; auto; try apply R. lia.
  - (* len *)
    apply Fin. apply wp_ok. exists (VInt (zlen m)), m. simpl. rewrite (repr_sz t m R).
    repeat split; auto; try apply R. lia.
  - (* clear *)
    apply Fin. apply wp_bind. pose proof R as (W & _). eapply wp_conseq; [apply clear_table; exact W|]. cbv beta.
    intros t' (W' & E & _). apply wp_ok. exists VNone, []. simpl. repeat split; auto; [now rewrite E|].
    change (zlen (@nil (K * V))) with 0. lia.
  - (* resize *)
    apply Fin. apply wp_bind. pose proof R as (W & P). eapply wp_conseq; [apply resize_spec; eauto|]. cbv beta.
    intros t' (W' & P' & _). apply wp_ok. exists VNone, m. simpl. repeat split; auto; [now rewrite P'|lia].
  - (* update from a dict *)
    apply Fin. destruct y as [yt ym]. cbn [fst snd] in *. pose proof Ok1 as (Wy & Py).
    rewrite (items_spec _ _ _ Wy). cbn [bind]. apply wp_bind.
    assert (EL : zlen (ents yt) = zlen ym) by (unfold zlen; now rewrite (Permutation_length Py)).
    eapply wp_conseq; [apply (update_ok (ents yt) t m R); lia|]. cbv beta. intros t' R'. apply wp_ok.
    exists VNone, (storeall eqb m (ents yt)). simpl. pose proof (storeall_len (ents yt) m).
    split; [eauto|]. repeat split; auto; try apply R'. lia.
  - (* update from pairs *)
    apply Fin. apply wp_bind. eapply wp_conseq; [apply (update_ok l t m R); lia|]. cbv beta. intros t' R'. apply wp_ok.
    exists VNone, (storeall eqb m l). simpl. pose proof (storeall_len l m). repeat split; auto; apply R'.
  - (* copy *)
    apply Fin. apply wp_bind. pose proof R as (W & P). eapply wp_conseq; [apply copy_spec; exact W|]. cbv beta.
    intros c (Wc & Ec). apply wp_ok. exists (VDict m), m. simpl. repeat split; auto; [now rewrite Ec|lia].
  - (* dict(d) *)
    apply Fin. apply wp_bind. pose proof R as (W & P). eapply wp_conseq; [apply init_from_spec; exact W|]. cbv beta.
    intros c (Wc & Ec). apply wp_ok. exists (VDict m), m. simpl. repeat split; auto; [now rewrite Ec|lia].
  - (* or *)
    apply Fin. destruct y as [yt ym]. cbn [fst snd] in *. pose proof Ok1 as (Wy & Py). unfold dict_or. apply wp_bind.
    apply wp_bind. pose proof R as (W & P). eapply wp_conseq; [apply copy_spec; exact W|]. cbv beta.
    intros c (Wc & Ec). rewrite (items_spec _ _ _ Wy). cbn [bind].
    assert (EL : zlen (ents yt) = zlen ym) by (unfold zlen; now rewrite (Permutation_length Py)).
    assert (Rc : repr c m) by (split; [auto|now rewrite Ec]).
    eapply wp_conseq; [apply (update_ok (ents yt) c m Rc); lia|]. cbv beta. intros t' R'. apply wp_ok.
    exists (VDict (storeall eqb m (ents yt))), m. simpl. pose proof (zlen_nonneg ym).
    split; [eauto|]. repeat split; auto; try apply R'. lia.
  - (* eq *)
    apply Fin. destruct y as [yt ym]. cbn [fst snd] in *. apply wp_bind.
    eapply wp_conseq; [apply (dict_eq_ok t m yt ym R Ok1)|]. cbv beta. intros b ->. apply wp_ok.
    exists (VBool (same_dict eqb veq m ym)), m. simpl. repeat split; auto; try apply R. lia.
Qed.

Theorem run_ok os : forall t m, repr t m -> Forall operand_ok os ->
  zlen m + fold_right Z.add 0 (map (weight (fun y => zlen (snd y))) os) <= 2^60 ->
  exists vs t' ws m', run t (map (op_map fst) os) = Ok (vs, t') /\
    spec_run eqb veq plus m (map (op_map snd) os) ws m' /\ Forall2 value_repr vs ws /\ repr t' m'.
Proof.
  induction os as [|o os IH]; intros t m R F Sm; cbn [map fold_right run] in *.
  - exists [], t, [], m. repeat split; auto; try apply R. constructor.
  - inversion F as [|? ? Fo Fos]; subst.
    assert (NN : forall l : list (op K V (tbl * list (K * V))), 0 <= fold_right Z.add 0 (map (weight (fun y => zlen (snd y))) l)).
    { induction l as [|a l IHl]; simpl; [lia|].
      assert (0 <= weight (fun y => zlen (snd y)) a); [|lia].
      destruct a; simpl; try lia; apply zlen_nonneg. }
    pose proof (NN os).
    destruct (op_ok t m o R Fo) as (v & t1 & w & m1 & E & S & VR & R1 & L1); [lia|].
    destruct (IH t1 m1 R1 Fos) as (vs & t2 & ws & m2 & E2 & S2 & VR2 & R2); [lia|].
    exists (v :: vs), t2, (w :: ws), m2. rewrite E. cbn [bind]. rewrite E2. cbn [bind].
    split; auto. split; [econstructor; eauto|]. split; auto.
Qed.
End Run.
