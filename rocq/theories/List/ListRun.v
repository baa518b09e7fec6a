(** Histories of list operations on the model, and their refinement. *)
From Coq Require Import List ZArith Lia Bool.
From Verif.Common Require Import Result Int64 Arr Tac.
From Verif.List Require Import SliceSpec SliceModel SliceProofs ListSpec ListModel ListProofs ListSliceProofs.
Import ListNotations.
Local Open Scope Z_scope.
Local Open Scope res_scope.

Section Run.
Context {A : Type} (eqb ltb : A -> A -> bool).
Notation lst := (lst A).

(** A raised exception is caught by the caller and the list stays as it was. *)
Definition catch (l : lst) (m : res (value A lst * lst)) : res (value A lst * lst) :=
  match m with Raise e => Ok (VExn e, l) | m => m end.

(** Dispatch to the functions of ListModel.v. *)
Definition do_op (l : lst) (o : op A lst) : res (value A lst * lst) :=
  catch l
  match o with
  | OLen => Ok (VInt (len l), l)
  | OGet i => x <- getitem l i ;; Ok (VElem x, l)
  | OSet i x => l1 <- setitem l i x ;; Ok (VNone, l1)
  | ODel i => l1 <- delitem l i ;; Ok (VNone, l1)
  | OAppend x => l1 <- append l x ;; Ok (VNone, l1)
  | OExtend ys => l1 <- extend l ys ;; Ok (VNone, l1)
  | OInsert i x => l1 <- insert l i x ;; Ok (VNone, l1)
  | OPop i => '(x, l1) <- pop l i ;; Ok (VElem x, l1)
  | ORemove x => '(b, l1) <- remove eqb l x ;; Ok (VBool b, l1)
  | OIndex x => i <- index eqb l x ;; Ok (VInt i, l)
  | OFind x => i <- find eqb l x ;; Ok (VInt i, l)
  | OCount x => i <- count eqb l x ;; Ok (VInt i, l)
  | OContains x => b <- contains eqb l x ;; Ok (VBool b, l)
  | OReverse => l1 <- reverse l ;; Ok (VNone, l1)
  | OClear => Ok (VNone, clear l)
  | OCopy => c <- copy l ;; Ok (VList c, l)
  | OEq y => b <- list_eq eqb l y ;; Ok (VBool b, l)
  | OCmp y => c <- cmp eqb ltb l y ;; Ok (VInt c, l)
  | OAdd y => c <- add l y ;; Ok (VList c, l)
  | OIadd y => l1 <- iadd l y ;; Ok (VNone, l1)
  | OIaddSelf => l1 <- iadd_self l ;; Ok (VNone, l1)
  | OMul n => c <- mul l n ;; Ok (VList c, l)
  | OImul n => l1 <- imul l n ;; Ok (VNone, l1)
  | OGetSlice s => c <- getslice l s ;; Ok (VList c, l)
  | OSetSlice s y => l1 <- setslice l s y ;; Ok (VNone, l1)
  | OSetSliceSelf s => l1 <- setslice_self l s ;; Ok (VNone, l1)
  | ODelSlice s => l1 <- delslice l s ;; Ok (VNone, l1)
  end.

Fixpoint run (l : lst) (os : list (op A lst)) : res (list (value A lst) * lst) :=
  match os with
  | [] => Ok ([], l)
  | o :: os =>
      '(v, l1) <- do_op l o ;;
      '(vs, l2) <- run l1 os ;;
      Ok (v :: vs, l2)
  end.

(** ** Relating the two sides *)

(** List operands are given as a model list together with the sequence it holds. *)
Definition op_map {B C} (f : B -> C) (o : op A B) : op A C :=
  match o with
  | OLen => OLen | OGet i => OGet i | OSet i x => OSet i x | ODel i => ODel i
  | OAppend x => OAppend x | OExtend ys => OExtend ys | OInsert i x => OInsert i x | OPop i => OPop i
  | ORemove x => ORemove x | OIndex x => OIndex x | OFind x => OFind x | OCount x => OCount x
  | OContains x => OContains x | OReverse => OReverse | OClear => OClear | OCopy => OCopy
  | OEq y => OEq (f y) | OCmp y => OCmp (f y) | OAdd y => OAdd (f y) | OIadd y => OIadd (f y)
  | OIaddSelf => OIaddSelf | OMul n => OMul n | OImul n => OImul n | OGetSlice s => OGetSlice s
  | OSetSlice s y => OSetSlice s (f y) | OSetSliceSelf s => OSetSliceSelf s
  | ODelSlice s => ODelSlice s
  end.

Definition operand_ok (o : op A (lst * list A)) : Prop :=
  match o with
  | OEq y | OCmp y | OAdd y | OIadd y | OSetSlice _ y => repr (fst y) (snd y)
  | _ => True
  end.

Definition value_repr (v : value A lst) (w : value A (list A)) : Prop :=
  match v, w with
  | VNone, VNone => True
  | VElem x, VElem y => x = y
  | VInt x, VInt y => x = y
  | VBool x, VBool y => x = y
  | VExn x, VExn y => x = y
  | VList l, VList xs => repr l xs
  | _, _ => False
  end.

(** Lists fit in memory. *)
Definition small (xs : list A) : Prop := size xs <= 2^59.
Definition small_value (v : value A (list A)) : Prop :=
  match v with VList xs => small xs | _ => True end.

(** The conditions under which the code is right; see the refuted statements in
    Properties.v for what happens outside them. *)
Definition op_ok (xs : list A) (o : op A (list A)) : Prop :=
  match o with
  | OGetSlice s => slice64 s /\ py_step s <= 2^63 - 1 - size xs
  | OSetSlice s _ => slice64 s
  | OSetSliceSelf s =>
      slice64 s /\ ~ (sl_start s = None /\ sl_stop s = None /\ sl_step s = None)
  | ODelSlice s => slice64 s /\ Z.abs (py_step s) <= 2^63 - 1 - size xs
  | _ => True
  end.

Fixpoint history_ok (xs : list A) (os : list (op A (list A))) : Prop :=
  match os with
  | [] => True
  | o :: os =>
      small xs /\ op_ok xs o /\ small_value (fst (py_op eqb ltb xs o)) /\
      small (snd (py_op eqb ltb xs o)) /\ history_ok (snd (py_op eqb ltb xs o)) os
  end.

Lemma catch_wp l m (Q : value A lst * lst -> Prop) : wp m Q -> wp (catch l m) Q.
Proof. destruct m; simpl; auto; contradiction. Qed.

Lemma catch_bind {B} l (m : res B) k e : m = Raise e -> catch l (bind m k) = Ok (VExn e, l).
Proof. now intros ->. Qed.

Ltac upd_op H := apply catch_wp, wp_bind; eapply wp_conseq; [apply H; eauto|];
  cbv beta; intros ? ?; apply wp_ok; simpl; auto.

Lemma do_op_spec (l : lst) xs (o : op A (lst * list A)) :
  repr l xs -> operand_ok o -> small xs -> op_ok xs (op_map snd o) ->
  small_value (fst (py_op eqb ltb xs (op_map snd o))) ->
  small (snd (py_op eqb ltb xs (op_map snd o))) ->
  wp (do_op l (op_map fst o)) (fun '(v, l') =>
    value_repr v (fst (py_op eqb ltb xs (op_map snd o))) /\
    repr l' (snd (py_op eqb ltb xs (op_map snd o)))).
Proof.
  intros R OK SM OO SV SX. unfold small in SM. unfold do_op.
  assert (RL := repr_len _ _ R).
  destruct o; cbn [op_map py_op fst snd] in *.
  - simpl. auto.
  - rewrite (getitem_spec l xs) by auto. destruct (item xs i); simpl; auto.
  - pose proof (setitem_spec l xs i x R) as H. destruct (valid xs i).
    + upd_op H.
    + rewrite (catch_bind _ _ _ _ H). simpl. auto.
  - pose proof (delitem_spec l xs i R) as H. destruct (valid xs i).
    + upd_op H.
    + rewrite (catch_bind _ _ _ _ H). simpl. auto.
  - upd_op (append_spec l xs).
  - upd_op (extend_spec itr l xs).
  - upd_op (insert_spec l xs).
  - pose proof (pop_spec l xs i R) as H. destruct (item xs i).
    + apply catch_wp, wp_bind. eapply wp_conseq; [exact H|]. intros [y l1] [-> R1]. apply wp_ok. simpl. auto.
    + rewrite (catch_bind _ _ _ _ H). simpl. auto.
  - unfold remove. rewrite (find_spec eqb l xs) by auto. cbn [bind].
    destruct (first_index eqb xs x) as [i|] eqn:E.
    + pose proof (first_index_bound eqb xs x i E) as B. replace (i =? -1) with false by lia.
      pose proof (delitem_spec l xs i R) as H.
      assert (N : norm xs i = i) by (unfold norm; destruct (Z.ltb_spec i 0); lia).
      unfold valid in H. rewrite N in H. szz.
      replace ((0 <=? i) && (i <? zlen xs)) with true in H by lia.
      apply catch_wp, wp_bind, wp_bind. eapply wp_conseq; [exact H|]. intros l1 R1. simpl. auto.
    + simpl. auto.
  - unfold index. rewrite (find_spec eqb l xs) by auto. cbn [bind].
    destruct (first_index eqb xs x) as [i|] eqn:E; [|simpl; auto].
    pose proof (first_index_bound eqb xs x i E) as B. replace (i =? -1) with false by lia. simpl. auto.
  - rewrite (find_spec eqb l xs) by auto. simpl. split; auto. destruct (first_index eqb xs x); reflexivity.
  - rewrite (count_spec eqb l xs) by auto. simpl. auto.
  - unfold contains. rewrite (find_spec eqb l xs) by auto. simpl. split; auto.
    rewrite existsb_first_index. destruct (first_index eqb xs x) as [i|] eqn:E; [|reflexivity].
    pose proof (first_index_bound eqb xs x i E) as B. lia.
  - upd_op (reverse_spec l xs).
  - simpl. split; auto. apply empty_repr. reflexivity.
  - upd_op (copy_spec l xs).
  - simpl in OK. rewrite (list_eq_spec eqb l (fst ys) xs (snd ys)) by auto. simpl. auto.
  - simpl in OK. rewrite (cmp_spec eqb ltb l (fst ys) xs (snd ys)) by auto. simpl. auto.
  - upd_op (add_spec l (fst ys) xs (snd ys)).
  - upd_op (iadd_spec l (fst ys) xs (snd ys)).
  - upd_op (iadd_self_spec l xs).
  - upd_op (mul_spec l xs).
  - upd_op (imul_spec l xs).
  - destruct OO as (S64 & F). szz. destruct (Z.eqb_spec (py_step s) 0) as [K|K].
    + assert (H : getslice l s = Raise ValueError).
      { unfold getslice. destruct (full_slice s) eqn:E; [apply full_slice_step in E; lia|].
        rewrite adj_zero by auto. destruct (sl_step s); reflexivity. }
      rewrite (catch_bind _ _ _ _ H). simpl. auto.
    + upd_op (getslice_spec l xs s).
  - pose proof (setslice_spec l (fst ys) xs (snd ys) s R OK SM OO) as H.
    destruct (set_slice xs s (snd ys)) as [v zs] eqn:E. simpl in *. unfold set_slice in E.
    destruct (py_step s =? 0); [|destruct (py_step s =? 1); [|destruct (size (snd ys) =? py_count (size xs) s)]];
      inversion E; subst v; subst.
    + rewrite (catch_bind _ _ _ _ H). simpl. auto.
    + upd_op H.
    + upd_op H.
    + rewrite (catch_bind _ _ _ _ H). simpl. auto.
  - destruct OO as (S64 & NF).
    assert (F : full_slice s = false).
    { unfold full_slice. destruct (sl_start s), (sl_stop s), (sl_step s); auto. exfalso; auto. }
    pose proof (setslice_self_spec l xs s R F SM S64) as H.
    destruct (set_slice xs s xs) as [v zs] eqn:E. simpl in *. unfold set_slice in E.
    destruct (py_step s =? 0); [|destruct (py_step s =? 1); [|destruct (size xs =? py_count (size xs) s)]];
      inversion E; subst v; subst.
    + rewrite (catch_bind _ _ _ _ H). simpl. auto.
    + upd_op H.
    + upd_op H.
    + rewrite (catch_bind _ _ _ _ H). simpl. auto.
  - destruct OO as (S64 & F). szz. destruct (Z.eqb_spec (py_step s) 0) as [K|K].
    + assert (H : delslice l s = Raise ValueError).
      { unfold delslice. destruct (full_slice s) eqn:E; [apply full_slice_step in E; lia|].
        rewrite adj_zero by auto. reflexivity. }
      rewrite (catch_bind _ _ _ _ H). simpl. auto.
    + upd_op (delslice_spec l xs s).
Qed.

Theorem run_spec os : forall (l : lst) xs,
  repr l xs -> Forall operand_ok os -> history_ok xs (map (op_map snd) os) ->
  wp (run l (map (op_map fst) os)) (fun '(vs, l') =>
    Forall2 value_repr vs (fst (py_run eqb ltb xs (map (op_map snd) os))) /\
    repr l' (snd (py_run eqb ltb xs (map (op_map snd) os)))).
Proof.
  induction os as [|o os IH]; intros l xs R FO HO; simpl.
  - auto.
  - inversion FO; subst. simpl in HO. destruct HO as (H3 & H4 & H5 & H6 & H7).
    apply wp_bind. eapply wp_conseq; [apply (do_op_spec l xs o); auto|].
    intros [v l1] [V R1].
    destruct (py_op eqb ltb xs (op_map snd o)) as [w xs1]. simpl in *.
    apply wp_bind. eapply wp_conseq; [apply (IH l1 xs1); auto|].
    intros [vs l2] [VS R2]. destruct (py_run eqb ltb xs1 (map (op_map snd) os)) as [ws xs2].
    apply wp_ok. simpl in *. auto.
Qed.

End Run.
