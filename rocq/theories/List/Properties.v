(** C05-C08: lists, slices, ranges.  C34: fused list addition.

    Reading guide.  A Codon list is a block of cells with a length ([lst]); [repr l xs]
    says that the first [len l] cells of [l] hold exactly the sequence [xs] (see
    [repr_means] below).  [wp m Q] says that [m] terminates normally, without leaving
    its memory block, in a result satisfying [Q].  The Python side ([py_run],
    [py_positions], [slice_get], ...) is in ListSpec.v and SliceSpec.v. *)
From Coq Require Import List ZArith Lia Bool.
From Verif.Common Require Import Result Int64 Arr Tac.
From Verif.List Require Import SliceSpec SliceModel SliceProofs ListSpec ListModel ListProofs
  ListSliceProofs ListRun FusionModel FusionProofs.
Import ListNotations.
Local Open Scope Z_scope.
Local Arguments Z.add : simpl never.
Local Arguments Z.sub : simpl never.
Local Arguments Z.mul : simpl never.
Local Arguments Z.pow : simpl never.

Theorem repr_means : forall (A : Type) (l : lst A) xs,
  repr l xs <-> len l = size xs /\ exists spare, cells l = map Some xs ++ spare.
Proof. intros. exact (repr_iff l xs). Qed.

(** ** C07: slice normalisation *)

(** The tuple computed is Python's start, stop, step, and the number of positions;
    every position is inside the sequence. *)
Theorem C07_slice_normalisation :
  forall (s : slice) (n : Z), 0 <= n <= 2^62 -> slice64 s -> py_step s <> 0 ->
  adjust_indices s n = Ok (py_start n s, py_stop n s, py_step s, py_count n s) /\
  forall k, 0 <= k < py_count n s -> 0 <= py_start n s + k * py_step s < n.
Proof.
  intros s n Hn (H1 & H2 & H3) Hk. split; [now apply adjust_indices_spec|].
  intros k Hc. apply (py_positions_in_bounds n s); auto; [lia|].
  unfold py_positions. apply progression_in. eauto.
Qed.
Print Assumptions C07_slice_normalisation.

(** The count is the number of positions Python's definition selects: those between
    the bounds at a whole number of steps from the start. *)
Theorem C07_positions_meaning :
  forall (s : slice) (n x : Z), py_step s <> 0 ->
  In x (py_positions n s) <->
  (if 0 <? py_step s then py_start n s <= x < py_stop n s
   else py_stop n s < x <= py_start n s) /\ (x - py_start n s) mod (py_step s) = 0.
Proof. intros. now apply py_positions_meaning. Qed.
Print Assumptions C07_positions_meaning.

Theorem C07_zero_step : forall (s : slice) (n : Z), py_step s = 0 ->
  adjust_indices s n = Raise ValueError.
Proof. exact adj_zero. Qed.
Print Assumptions C07_zero_step.

Example C07_example :
  adjust_indices (Slice (Some (-2)) None (Some (-3))) 10 = Ok (8, -1, -3, 3) /\
  py_positions 10 (Slice (Some (-2)) None (Some (-3))) = [8; 5; 2] /\
  adjust_indices (Slice (Some min64) (Some max64) (Some min64)) 5 = Ok (-1, 4, min64, 0).
Proof. vm_compute. auto. Qed.

(** ** C08: ranges *)

Lemma getitem_range r i : range_ok r -> span_fits r -> range_count_spec r <= max64 -> in64 i ->
  range_getitem r i = match item (range_elems r) i with Some x => Ok x | None => Raise IndexError end.
Proof.
  intros Hr Hs Hc Hi. destruct (range_len_spec r Hr Hs) as [HL B]. unfold range_getitem.
  rewrite HL by auto. cbn [bind]. unfold item, valid, norm, size, range_elems.
  rewrite progression_length, Z2Nat.id by lia. set (n := range_count_spec r) in *.
  assert (W : (if i <? 0 then w64 (i + n) else i) = (if i <? 0 then i + n else i)).
  { unfold in64, min64, max64 in *. destruct (Z.ltb_spec i 0); auto. apply w64_small. lia. }
  rewrite W. set (j := if i <? 0 then i + n else i).
  destruct ((0 <=? j) && (j <? n)) eqn:E.
  - replace ((j <? 0) || (n <=? j)) with false by lia.
    rewrite range_get_raw_spec by (auto; fold n; lia).
    destruct (nth_error _ _) as [x|] eqn:N.
    + apply nth_error_nth with (d := 0) in N. rewrite progression_nth in N by lia.
      subst x. rewrite Z2Nat.id by lia. reflexivity.
    + apply nth_error_None in N. rewrite progression_length in N. lia.
  - now replace ((j <? 0) || (n <=? j)) with true by lia.
Qed.

(** All queries describe the progression [range_elems r], whenever its span and its
    length fit the machine integers.  [_partial]: outside those bounds the statement is
    false, see the refutations below. *)
Theorem C08_range_queries_partial :
  forall r, range_ok r -> span_fits r -> range_count_spec r <= max64 ->
  range_len r = Ok (size (range_elems r)) /\
  (forall i, in64 i -> range_getitem r i =
     match item (range_elems r) i with Some x => Ok x | None => Raise IndexError end) /\
  (forall x, in64 x -> exists b, range_contains r x = Ok b /\ (b = true <-> In x (range_elems r))) /\
  (forall x, in64 x -> In x (range_elems r) ->
     exists m, range_index r x = Ok m /\ item (range_elems r) m = Some x) /\
  (forall x, in64 x -> ~ In x (range_elems r) -> range_index r x = Raise ValueError).
Proof.
  intros r Hr Hs Hc. destruct (range_len_spec r Hr Hs) as [HL B].
  split; [|split; [|split; [|split]]].
  - rewrite HL by auto. unfold size, range_elems. rewrite progression_length. f_equal. lia.
  - intros. now apply getitem_range.
  - intros. now apply range_contains_spec.
  - intros x Hx HI. destruct (range_index_spec r x Hr Hs Hx HI) as (m & E & Hm & Ex).
    exists m. split; [exact E|]. unfold item, valid, norm, size, range_elems.
    rewrite progression_length, Z2Nat.id by lia.
    replace (if m <? 0 then m + range_count_spec r else m) with m by (destruct (Z.ltb_spec m 0); lia).
    replace ((0 <=? m) && (m <? range_count_spec r)) with true by lia.
    rewrite (nth_error_nth' _ 0) by (rewrite progression_length; lia).
    rewrite progression_nth by lia. rewrite Z2Nat.id by lia. now f_equal.
  - intros x Hx HI. unfold range_index. destruct (range_contains_spec r x Hr Hs Hx) as (b & -> & Hb).
    destruct b; [|reflexivity]. exfalso. apply HI, Hb. reflexivity.
Qed.
Print Assumptions C08_range_queries_partial.

(** Iteration and reversal yield the progression in order, if one more step than the
    last element still fits. *)
Theorem C08_range_iteration_partial :
  forall r fuel, range_ok r -> (Z.to_nat (range_count_spec r) < fuel)%nat ->
  (in64 (r_start r + range_count_spec r * r_step r) -> range_iter fuel r = Ok (range_elems r)) /\
  (span_fits r -> range_count_spec r <= max64 -> in64 (r_start r - r_step r) -> in64 (- r_step r) ->
   range_reversed fuel r = Ok (rev (range_elems r))).
Proof.
  intros r fuel Hr Hf. split; intros.
  - now apply range_iter_spec.
  - now apply range_reversed_spec.
Qed.
Print Assumptions C08_range_iteration_partial.

(** A slice of a range is the range of the selected elements. *)
Theorem C08_range_slice_partial :
  forall r s, range_ok r -> span_fits r -> range_count_spec r <= 2^62 -> slice64 s -> py_step s <> 0 ->
  in64 (r_start r + range_count_spec r * r_step r) -> in64 (r_start r - r_step r) ->
  in64 (r_step r * py_step s) ->
  exists r', range_slice r s = Ok r' /\
    range_elems r' = map (fun m => r_start r + m * r_step r) (py_positions (range_count_spec r) s).
Proof. intros r s Hr Hs Hc (H1 & H2 & H3) Hz E1 E2 E3. now apply range_slice_spec. Qed.
Print Assumptions C08_range_slice_partial.

Example C08_example : let r := Range 10 (-5) (-4) in
  range_ok r /\ span_fits r /\ range_elems r = [10; 6; 2; -2] /\
  range_len r = Ok 4 /\ range_reversed 9 r = Ok [-2; 2; 6; 10].
Proof. unfold range_ok, span_fits, in64, min64, max64. simpl. repeat split; lia. Qed.

(** Without the bounds: len() of a wide range is wrong, iteration runs past the end,
    membership is wrong. *)
Theorem C08_range_len_refuted :
  exists r, range_ok r /\ range_count_spec r <= max64 /\ range_len r <> Ok (range_count_spec r).
Proof.
  exists (Range min64 max64 4). split; [|split].
  - unfold range_ok, in64, min64, max64. simpl. lia.
  - vm_compute. discriminate.
  - vm_compute. discriminate.
Qed.
Print Assumptions C08_range_len_refuted.

Theorem C08_range_iteration_refuted :
  exists r, range_ok r /\ range_elems r = [0; 2^62] /\
  forall fuel, (7 < fuel)%nat -> range_iter fuel r <> Ok (range_elems r).
Proof.
  exists (Range 0 (2^63-1) (2^62)). split; [|split].
  - unfold range_ok, in64, min64, max64. simpl. lia.
  - reflexivity.
  - intros fuel Hf. replace (range_elems _) with [0; 2^62] by reflexivity.
    destruct fuel as [|[|[|[|f]]]]; try lia. unfold range_iter.
    set (r := Range 0 (2^63-1) (2^62)). change (r_stop r) with 9223372036854775807.
    change (r_step r) with 4611686018427387904. change (r_start r) with 0.
    cbn [range_iter_from].
    destruct (range_iter_from f 9223372036854775807 4611686018427387904 _);
      vm_compute; congruence.
Qed.
Print Assumptions C08_range_iteration_refuted.

(** ** C05 and C06: lists *)

Definition is_slice_op {A B} (o : op A B) : Prop :=
  match o with
  | OGetSlice _ | OSetSlice _ _ | OSetSliceSelf _ | ODelSlice _ => True
  | _ => False
  end.

(** Lists stay below 2^59 elements (8-byte elements then fill 2^62 bytes). *)
Fixpoint fits {A} (eqb ltb : A -> A -> bool) (xs : list A) (os : list (op A (list A))) : Prop :=
  match os with
  | [] => True
  | o :: os =>
      small xs /\ small_value (fst (py_op eqb ltb xs o)) /\ small (snd (py_op eqb ltb xs o)) /\
      fits eqb ltb (snd (py_op eqb ltb xs o)) os
  end.

Lemma fits_history {A} (eqb ltb : A -> A -> bool) os : forall xs,
  fits eqb ltb xs os -> Forall (fun o => ~ is_slice_op o) os -> history_ok eqb ltb xs os.
Proof.
  induction os as [|o os IH]; intros xs F S; simpl in *; auto.
  inversion S; subst. destruct F as (F1 & F2 & F3 & F4). repeat split; auto.
  destruct o; simpl in *; auto; exfalso; auto.
Qed.

(** C05: any history of non-slice operations, from any list, gives the results and the
    final contents that Python's sequence operations give.  List operands are pairs of a
    model list and the sequence it holds.  [_partial]: [l.extend(l)] is not in the
    operation type, see [C05_extend_self_refuted]. *)
Theorem C05_list_history_partial :
  forall (A : Type) (eqb ltb : A -> A -> bool) (os : list (op A (lst A * list A))) (l : lst A) xs,
  repr l xs -> Forall operand_ok os -> Forall (fun o => ~ is_slice_op o) os ->
  fits eqb ltb xs (map (op_map snd) os) ->
  wp (run eqb ltb l (map (op_map fst) os)) (fun '(vs, l') =>
    Forall2 value_repr vs (fst (py_run eqb ltb xs (map (op_map snd) os))) /\
    repr l' (snd (py_run eqb ltb xs (map (op_map snd) os)))).
Proof.
  intros A eqb ltb os l xs R FO NS FI. apply run_spec; auto.
  apply fits_history; auto. clear - NS. induction NS; simpl; constructor; auto.
  destruct x; simpl in *; auto.
Qed.
Print Assumptions C05_list_history_partial.

(** C06: the same for any history including slice operations.  [_partial]: the
    conditions [op_ok] exclude steps so large that adding one to an index overflows 64
    bits and the statement [l[:] = l]; both are refuted below. *)
Theorem C06_list_slices_partial :
  forall (A : Type) (eqb ltb : A -> A -> bool) (os : list (op A (lst A * list A))) (l : lst A) xs,
  repr l xs -> Forall operand_ok os -> history_ok eqb ltb xs (map (op_map snd) os) ->
  wp (run eqb ltb l (map (op_map fst) os)) (fun '(vs, l') =>
    Forall2 value_repr vs (fst (py_run eqb ltb xs (map (op_map snd) os))) /\
    repr l' (snd (py_run eqb ltb xs (map (op_map snd) os)))).
Proof. intros A eqb ltb os l xs. apply run_spec. Qed.
Print Assumptions C06_list_slices_partial.

Definition lst_of {A} (xs : list A) : lst A := L (map Some xs) (zlen xs).
Lemma lst_of_repr {A} (xs : list A) : repr (lst_of xs) xs.
Proof. apply repr_iff. split; [reflexivity|]. exists []. now rewrite app_nil_r. Qed.

(** The hypotheses hold of a history mixing element, list and slice operations. *)
Example C06_example :
  let ys := (lst_of [7; 8; 9], [7; 8; 9]) in
  let os : list (op Z (lst Z * list Z)) :=
    [OAppend 4; OInsert (-1) 5; OSetSlice (Slice (Some 0) (Some 2) None) ys; OIadd ys; OPop 0;
     ODelSlice (Slice None None (Some (-2))); OGetSlice (Slice (Some 1) None (Some 2)); OImul 2; OReverse;
     OGet 100; OIndex 99; OSetSliceSelf (Slice (Some 1) (Some 1) None)] in
  repr (lst_of [1; 2; 3]) [1; 2; 3] /\ Forall operand_ok os /\
  history_ok Z.eqb Z.ltb [1; 2; 3] (map (op_map snd) os) /\
  py_run Z.eqb Z.ltb [1; 2; 3] (map (op_map snd) os) =
    ([VNone; VNone; VNone; VNone; VElem 7; VNone; VList [3; 8]; VNone; VNone; VExn IndexError;
      VExn ValueError; VNone],
     [8; 8; 4; 3; 8; 8; 4; 3; 8; 4; 3; 8; 8; 4; 3; 8]).
Proof.
  cbv zeta. split; [apply lst_of_repr|]. split; [|split].
  - repeat constructor; apply lst_of_repr.
  - assert (S64 : forall a b c, (forall v, a = Some v -> in64 v) -> (forall v, b = Some v -> in64 v) ->
      (forall v, c = Some v -> in64 v) -> slice64 (Slice a b c)) by (unfold slice64; auto).
    cbn; unfold small, size; simpl length;
    repeat match goal with
    | |- _ /\ _ => split
    | |- True => exact I
    | |- slice64 _ => apply S64; intros ? K; inversion K; unfold in64, min64, max64; lia
    | |- ~ _ => intros (? & ? & ?); discriminate
    | |- small_value _ => vm_compute; (exact I || discriminate)
    | |- _ <= _ => vm_compute; discriminate
    end.
  - vm_compute. reflexivity.
Qed.

Example C05_example :
  let ys := (lst_of [7; 8; 9], [7; 8; 9]) in
  let os : list (op Z (lst Z * list Z)) :=
    [OAppend 4; OInsert (-1) 5; OIadd ys; OPop 0; OImul 2; OReverse; OGet 100; OIaddSelf; ORemove 9] in
  Forall operand_ok os /\ Forall (fun o => ~ is_slice_op o) os /\
  fits Z.eqb Z.ltb [1; 2] (map (op_map snd) os) /\
  exists l', run Z.eqb Z.ltb (lst_of [1; 2]) (map (op_map fst) os) = Ok l' /\ len (snd l') = 23.
Proof.
  cbv zeta. split; [|split; [|split]].
  - repeat constructor; apply lst_of_repr.
  - repeat constructor; simpl; auto.
  - cbn; unfold small, size; simpl length; repeat split; vm_compute; discriminate.
  - eexists. split; [vm_compute; reflexivity|reflexivity].
Qed.

(** [l[:] = l] leaves an empty list instead of an unchanged one. *)
Theorem C06_full_slice_self_assignment_refuted :
  exists (l : lst Z) xs l', repr l xs /\ xs <> [] /\
  set_slice xs (Slice None None None) xs = (VNone, xs) /\
  setslice_self l (Slice None None None) = Ok l' /\ repr l' [].
Proof.
  exists (lst_of [1; 2]), [1; 2], (L [Some 1; Some 2] 0). split; [apply lst_of_repr|].
  split; [discriminate|]. split; [vm_compute; reflexivity|]. split; [vm_compute; reflexivity|].
  now apply empty_repr.
Qed.
Print Assumptions C06_full_slice_self_assignment_refuted.

(** [l[1::2**63-1]] and [del l[1::2**63-1]] access memory outside the list: the index
    overflows to a negative number that passes the loop test. *)
Theorem C06_huge_step_refuted :
  exists (l : lst Z) xs s, repr l xs /\ slice64 s /\ py_step s <> 0 /\ slice_get xs s = [2] /\
  getslice l s = Undef /\ delslice l s = Undef.
Proof.
  exists (lst_of [1; 2]), [1; 2], (Slice (Some 1) None (Some (2^63-1))).
  split; [apply lst_of_repr|]. split; [|vm_compute; repeat split; try discriminate].
  unfold slice64, in64, min64, max64. simpl. repeat split; inversion H; lia.
Qed.
Print Assumptions C06_huge_step_refuted.

(** [l.extend(l)] reads a freed block once [append] moves the elements. *)
Theorem C05_extend_self_refuted :
  exists (l : lst Z) xs, repr l xs /\ xs = [1; 2] /\ extend_self l = Undef.
Proof. exists (lst_of [1; 2]), [1; 2]. repeat split; try apply lst_of_repr; reflexivity. Qed.
Print Assumptions C05_extend_self_refuted.

(** [l *= n] with len(l)*n >= 2^63 writes outside the list instead of failing. *)
Theorem C05_huge_repeat_refuted :
  exists (l : lst Z) xs n, repr l xs /\ in64 n /\ imul l n = Undef.
Proof.
  exists (lst_of [1; 2; 3; 4]), [1; 2; 3; 4], (2^62). split; [apply lst_of_repr|].
  split; [unfold in64, min64, max64; lia|]. lazy. reflexivity.
Qed.
Print Assumptions C05_huge_repeat_refuted.

(** ** C34: fused list addition *)

(** For operands whose evaluation does not change the lists being added ([quiet]) and
    slices the helper handles ([opd_ok]), the fused code and the additions one by one
    both terminate, in lists holding the concatenation of the operands.  [_partial]: both
    conditions are needed, see the refutations. *)
Theorem C34_list_add_fusion_partial :
  forall (A : Type) (e : expr A) (h : heap A) (env : nat -> list A),
  let os := inspect e in
  holds h env (flat_map ids os) -> Forall (opd_ok env) os -> Forall (quiet (flat_map ids os)) os ->
  wp (fused e h) (fun '(_, r) => repr r (flat_map (denote env) os)) /\
  wp (eval e h) (fun '(h', v) => exists r, deref h' v = Ok r /\ repr r (flat_map (denote env) os)).
Proof.
  intros A e h env os H F Q. split.
  - now apply fused_spec.
  - eapply wp_conseq; [apply (eval_spec e h env (flat_map ids os)); auto; apply incl_refl|].
    cbv beta. intros [h' v] (H1 & H2). apply H2. exact H1.
Qed.
Print Assumptions C34_list_add_fusion_partial.

Definition nop {A} : effect A := fun h => Ok h.

Example C34_example :
  let e := Add (Add (Leaf (ODefault nop 0)) (Leaf (OSlice nop 1 (Slice None None (Some (-2))))))
               (Add (Leaf (OLiteral nop [5; 6])) (Leaf (OSlice nop 0 (Slice (Some 1) None None)))) in
  let env := fun n => match n with O => [1; 2] | _ => [7; 8; 9] end in
  let h := [lst_of [1; 2]; lst_of [7; 8; 9]] in
  holds h env (flat_map ids (inspect e)) /\ Forall (opd_ok env) (inspect e) /\
  Forall (quiet (flat_map ids (inspect e))) (inspect e) /\
  flat_map (denote env) (inspect e) = [1; 2; 9; 7; 5; 6; 2] /\
  fused e h = Ok (h, lst_of [1; 2; 9; 7; 5; 6; 2]).
Proof.
  cbv zeta. split; [|split; [|split; [|split]]].
  - intros id [<-|[<-|[<-|[]]]]; eexists; (split; [reflexivity|]); apply lst_of_repr.
  - assert (S64 : forall a b c, (forall v, a = Some v -> in64 v) -> (forall v, b = Some v -> in64 v) ->
      (forall v, c = Some v -> in64 v) -> slice64 (Slice a b c)) by (unfold slice64; auto).
    cbn [inspect app].
    repeat match goal with
    | |- Forall _ _ => constructor
    | |- opd_ok _ _ => unfold opd_ok
    | |- True => exact I
    | |- _ /\ _ => split
    | |- slice64 _ => apply S64; intros ? K; inversion K; unfold in64, min64, max64; lia
    | |- py_step _ <> 0 => vm_compute; discriminate
    | |- _ <= _ => vm_compute; discriminate
    | |- _ -> _ => intros K
    end.
  - repeat constructor; intros h; exists h; split; reflexivity.
  - vm_compute. reflexivity.
  - vm_compute. reflexivity.
Qed.

(** [a[1:0] + b]: the helper copies stop - start = -1 elements. *)
Theorem C34_empty_slice_refuted :
  exists (e : expr Z) h v r, 
  eval e h = Ok (h, v) /\ deref h v = Ok r /\ repr r [3] /\ fused e h = Undef.
Proof.
  exists (Add (Leaf (OSlice nop 0 (Slice (Some 1) (Some 0) None))) (Leaf (ODefault nop 1))),
    [lst_of [1; 2]; lst_of [3]], (Tmp (lst_of [3])), (lst_of [3]).
  split; [vm_compute; reflexivity|]. split; [reflexivity|]. split; [apply lst_of_repr|].
  vm_compute. reflexivity.
Qed.
Print Assumptions C34_empty_slice_refuted.

(** [a + b + f()] where [f] appends to [a] and returns [b]: fused, the sum sees the
    appended element. *)
Theorem C34_effects_refuted :
  exists (e : expr Z) h h1 v r h2 r2,
  eval e h = Ok (h1, v) /\ deref h1 v = Ok r /\ repr r [1; 2; 2] /\
  fused e h = Ok (h2, r2) /\ repr r2 [1; 9; 2; 2].
Proof.
  set (f := fun h : heap Z => match h with [a; b] => Ok [lst_of [1; 9]; b] | _ => Undef end).
  exists (Add (Add (Leaf (ODefault nop 0)) (Leaf (ODefault nop 1))) (Leaf (ODefault f 1))),
    [lst_of [1]; lst_of [2]], [lst_of [1; 9]; lst_of [2]], (Tmp (lst_of [1; 2; 2])), (lst_of [1; 2; 2]),
    [lst_of [1; 9]; lst_of [2]], (lst_of [1; 9; 2; 2]).
  split; [vm_compute; reflexivity|]. split; [reflexivity|]. split; [apply lst_of_repr|].
  split; [vm_compute; reflexivity|]. apply lst_of_repr.
Qed.
Print Assumptions C34_effects_refuted.
