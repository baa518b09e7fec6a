(** C57: basic indexing; C58: broadcasting. *)
From Coq Require Import List ZArith Lia Bool Permutation.
From Verif.Common Require Import Result Int64.
From Verif.List Require Import SliceSpec SliceModel.
From Verif.Nd Require Import Spec Model Grid Copy Reshape Views IndexModel Index Properties.
Import ListNotations.
Local Open Scope Z_scope.

(** The index is one the compiler accepts for an array of [n] axes: at most one
    ellipsis, not more integers and slices than axes; and its numbers are of 64 bits. *)
Definition accepted (its : list item) (n : nat) : Prop :=
  (dots its <= 1)%nat /\ (axes_used its <= n)%nat /\
  forall s, In (ISlice s) its ->
    (forall v, sl_start s = Some v -> in64 v) /\ (forall v, sl_stop s = Some v -> in64 v) /\
    (forall v, sl_step s = Some v -> in64 v).

(** No extent above 2^62. *)
Definition extents (a : nd) : Prop := Forall (fun d => 0 <= d <= 2 ^ 62) (shape a).

(** The shape and the elements that an index selects. *)
Definition selected_shape (a : nd) (its : list item) : list Z :=
  sel_shape (spread its (length (shape a))) (shape a).
Definition selected (a : nd) (its : list item) (c : list Z) : list Z :=
  sel_from (spread its (length (shape a))) (shape a) c.
Definition valid (a : nd) (its : list item) : Prop :=
  sel_ok (spread its (length (shape a))) (shape a).

(** Reading: an element if no axis is left, else a view of the selected elements; an
    error exactly if an integer is out of range or a step is zero. *)
Theorem C57_getitem {V} (h : heap V) a its : array h a -> extents a -> accepted its (length (shape a)) ->
  (valid a its /\
   if list_eqb (selected_shape a its) []
   then inside (shape a) (selected a its []) /\ getitem h a its = Ok (inl (item_at h a (selected a its [])))
   else exists r, getitem h a its = Ok (inr r) /\ array h r /\ shape r = selected_shape a its /\
        forall c, inside (shape r) c -> inside (shape a) (selected a its c) /\ ptr r c = ptr a (selected a its c)) \/
  (~ valid a its /\ exists e, getitem h a its = Raise e).
Proof.
  intros A F (D & U & I). apply array_wf in A. destruct A as [W B].
  unfold valid, selected_shape, selected. change (length (shape a)) with (ndim a) in *.
  destruct (index_view_ok a its W F D U I) as [(Hok & r & some & E & Wr & Br & Sr & So & H)|(Hno & e & E)];
    unfold getitem; rewrite E; cbn [bind]; [left|right; eauto].
  split; [assumption|]. rewrite <- Sr. destruct (list_eqb (shape r) []) eqn:L.
  - apply list_eqb_spec in L. destruct some; [now apply So in L|].
    destruct (H []) as [H1 H2]; [rewrite L; constructor|]. split; [assumption|].
    unfold item_at. rewrite <- H2. unfold ptr. simpl. now rewrite Z.add_0_r.
  - destruct some.
    + exists r. split; [reflexivity|]. split; [|split; [reflexivity|exact H]].
      apply array_wf. split; [assumption|]. now rewrite Br.
    + exfalso. destruct So as [So _]. specialize (So eq_refl). rewrite So in L. discriminate.
Qed.

(** Too many indices or ellipses are reported by the compiler. *)
Theorem C57_rejected {V} (h : heap V) a its :
  (1 < dots its)%nat \/ (length (shape a) < axes_used its)%nat -> getitem h a its = Raise TypeError.
Proof.
  intros H. unfold getitem, index_view. rewrite <- dots_filter. pose proof (items_count its) as IC.
  rewrite <- dots_filter in IC. unfold ndim.
  destruct (Nat.ltb_spec 1 (dots its)); [reflexivity|].
  destruct (Nat.ltb_spec (length (shape a)) (length its - length (filter is_new its) - dots its)); [reflexivity|lia].
Qed.

(** Writing a number: exactly the cells of the selected elements get it. *)
Theorem C57_set_number {V} (h : heap V) a its v : array h a -> extents a -> accepted its (length (shape a)) ->
  (valid a its /\ exists h', setitem_one h a its v = Ok h' /\ next h' = next h /\
     (forall c, inside (selected_shape a its) c -> item_at h' a (selected a its c) = v) /\
     (forall p, (forall c, inside (selected_shape a its) c -> p <> ptr a (selected a its c)) -> load h' p = load h p)) \/
  (~ valid a its /\ exists e, setitem_one h a its v = Raise e).
Proof.
  intros A F (D & U & I). apply array_wf in A. destruct A as [W B].
  unfold valid, selected_shape, selected. change (length (shape a)) with (ndim a) in *.
  destruct (index_view_ok a its W F D U I) as [(Hok & r & some & E & Wr & Br & Sr & So & H)|(Hno & e & E)];
    unfold setitem_one; rewrite E; cbn [bind]; [left|right; eauto].
  split; [assumption|]. eexists. split; [reflexivity|].
  set (h1 := if some then h else store h (blk r, base r) v).
  destruct (assign_one_ok h1 r v Wr) as (N & X1 & X2). rewrite <- Sr.
  split; [rewrite N; unfold h1; destruct some; reflexivity|]. split.
  - intros c Hc. destruct (H c Hc) as [_ H2]. unfold item_at. rewrite <- H2. apply X1. exists c. auto.
  - intros p Hp. rewrite X2.
    + unfold h1. destruct some; [reflexivity|]. apply load_store_other. intros ->.
      assert (S : shape r = []) by (now apply So). apply (Hp []); [rewrite S; constructor|].
      destruct (H [] ltac:(rewrite S; constructor)) as [_ H2]. rewrite <- H2. unfold ptr. simpl. f_equal. lia.
    + intros (c & Hc & ->). apply (Hp c Hc). now destruct (H c Hc).
Qed.

(** Writing an array.  Partial: if elements of [b] that are read lie in cells that are
    written, they must be written with themselves; see [C57_overlap_refuted]. *)
Theorem C57_set_array_partial {V} (h : heap V) a its b : array h a -> array h b -> extents a ->
  accepted its (length (shape a)) -> valid a its ->
  (length (shape b) <= length (selected_shape a its))%nat ->
  (* the elements of [a] are in different cells *)
  (forall c d, inside (shape a) c -> inside (shape a) d -> ptr a c = ptr a d -> c = d) ->
  (forall c d, inside (selected_shape a its) c -> inside (selected_shape a its) d ->
     ptr a (selected a its c) = ptr b (pick (shape b) d) -> c = d) ->
  (broadcasts [shape b; selected_shape a its] (selected_shape a its) /\
   exists h', setitem_array h a its b = Ok h' /\ next h' = next h /\
     (forall c, inside (selected_shape a its) c ->
        item_at h' a (selected a its c) = item_at h b (pick (shape b) c)) /\
     (forall p, (forall c, inside (selected_shape a its) c -> p <> ptr a (selected a its c)) -> load h' p = load h p)) \/
  (~ broadcasts [shape b; selected_shape a its] (selected_shape a its) /\
   setitem_array h a its b = Raise ValueError).
Proof.
  intros A Ab F (D & U & I) Ok Lb Inj Dis. apply array_wf in A, Ab. destruct A as [W B], Ab as [Wb Bb].
  unfold valid, selected_shape, selected in *. change (length (shape a)) with (ndim a) in *.
  destruct (index_view_ok a its W F D U I) as [(Hok & r & some & E & Wr & Br & Sr & So & H)|(Hno & e & E)]; [|contradiction].
  unfold setitem_array. rewrite E. cbn [bind]. rewrite <- Sr in *. pose proof Wr as [Lr Fr Pr].
  destruct (shape b) as [|nb shb] eqn:Sb.
  - left. split.
    { apply fits_broadcasts. split; [simpl; lia|]. simpl. rewrite Nat.sub_0_r, skipn_all. constructor. }
    eexists. split; [reflexivity|].
    destruct (assign_one_ok h r (load h (blk b, base b)) Wr) as (N & X1 & X2). split; [assumption|]. split.
    + intros c Hc. destruct (H c Hc) as [_ H2]. unfold item_at. rewrite <- H2, X1 by (exists c; auto).
      unfold pick, ptr. simpl. now rewrite Z.add_0_r.
    + intros p Hp. apply X2. intros (c & Hc & ->). apply (Hp c Hc). now destruct (H c Hc).
  - rewrite <- Sb in *. destruct (broadcast_to_ok b (shape r) Wb Fr Lb) as [(Bc & x & Ex & Wx & Sx & Bx & Hx)|(Bc & Ex)];
      rewrite Ex; cbn [bind]; [left|right; auto].
    split; [assumption|].
    destruct (copy_into_ok h r x Wr Wx Sx) as (N & X1 & X2).
    + intros c d Hc Hd Ep. destruct (H c Hc) as [C1 C2], (H d Hd) as [D1 D2]. rewrite C2, D2 in Ep.
      apply Inj in Ep; [|assumption|assumption].
      rewrite Sr in Hc, Hd. apply (sel_from_inj (spread its (ndim a)) (shape a) c d Ok Hc Hd Ep).
    + intros c d Hc Hd Ep. destruct (H c Hc) as [C1 C2]. destruct (Hx d Hd) as [D1 D2]. rewrite C2, D2 in Ep. eauto.
    + exists (if contig_match r x then copy_range h r x (Z.to_nat (size x)) else copy_elems h r x (multirange (shape r))).
      split; [destruct (contig_match r x); reflexivity|]. split; [exact N|]. split.
      * intros c Hc. destruct (H c Hc) as [_ H2]. unfold item_at. rewrite <- H2.
        rewrite (X1 c Hc). destruct (Hx c Hc) as [_ H3]. now rewrite H3.
      * intros p Hp. apply X2. intros (c & Hc & ->). apply (Hp c Hc). now destruct (H c Hc).
Qed.

(** Different coordinates of the selection are different elements of the array. *)
Theorem C57_selection_distinct a its c d : valid a its ->
  inside (selected_shape a its) c -> inside (selected_shape a its) d ->
  selected a its c = selected a its d -> c = d.
Proof. apply sel_from_inj. Qed.

(** ** Examples *)

(** a[1, ::-1] of a 2x3x2 array, with newaxis *)
Example get_ex :
  array mem a1 /\ accepted [IInt (-1); INew; ISlice (Slice None None (Some (-1)))] 3 /\
  valid a1 [IInt (-1); INew; ISlice (Slice None None (Some (-1)))] /\
  selected_shape a1 [IInt (-1); INew; ISlice (Slice None None (Some (-1)))] = [1; 3; 2] /\
  (exists r, getitem mem a1 [IInt (-1); INew; ISlice (Slice None None (Some (-1)))] = Ok (inr r) /\
     items OC mem r = [80; 88; 64; 72; 48; 56]) /\
  getitem mem a1 [IInt 1; IInt 2; IInt 0] = Ok (inl 80) /\
  getitem mem a1 [IInt 2] = Raise IndexError.
Proof.
  split; [apply mem_arrays|]. split.
  { split; [apply Nat.leb_le; reflexivity|]. split; [apply Nat.leb_le; reflexivity|].
    intros s [E|[E|[E|[]]]]; try discriminate. injection E as <-.
    split; [discriminate|]. split; [discriminate|]. intros v [= <-]. unfold in64, min64, max64. lia. }
  split; [vm_compute; intuition discriminate|]. split; [reflexivity|]. split; [|split; reflexivity].
  eexists. split; vm_compute; reflexivity.
Qed.

(** a[...] = b with b of one column *)
Example set_ex : exists h', setitem_array mem (mk 0 0 8 [2; 2] false) [IDots] (Nd 0 64 8 [2; 1] [8; 8]) = Ok h' /\
  items OC h' (mk 0 0 8 [2; 2] false) = [64; 64; 72; 72].
Proof. eexists. split; [vm_compute; reflexivity|]. vm_compute. reflexivity. Qed.

Example set_one_ex : exists h', setitem_one mem (mk 0 0 8 [2; 3] false) [IDots; ISlice (Slice (Some 1) None None)] 7 = Ok h' /\
  items OC h' (mk 0 0 8 [2; 3] false) = [0; 7; 7; 24; 7; 7].
Proof. eexists. split; [vm_compute; reflexivity|]. vm_compute. reflexivity. Qed.

(** The hypotheses of [C57_set_array_partial] hold for arrays of different blocks. *)
Example set_hyps : let h := Heap 2 (fun _ (o : Z) => o) in let a := mk 0 0 8 [2; 2] false in let b := mk 1 0 8 [2] false in
  array h a /\ array h b /\ accepted [IDots] 2 /\ valid a [IDots] /\
  (forall c d, inside (shape a) c -> inside (shape a) d -> ptr a c = ptr a d -> c = d) /\
  (forall c d, inside (selected_shape a [IDots]) c -> inside (selected_shape a [IDots]) d ->
     ptr a (selected a [IDots] c) = ptr b (pick (shape b) d) -> c = d).
Proof.
  intros h a b. split; [repeat split; simpl; auto; repeat constructor; lia|].
  split; [repeat split; simpl; auto; repeat constructor; lia|].
  split. { split; [apply Nat.leb_le; reflexivity|]. split; [apply Nat.leb_le; reflexivity|]. intros s [E|[]]. discriminate. }
  split; [vm_compute; intuition discriminate|]. split.
  - intros c d Hc Hd E. apply (mk_inj [2; 2] false 8 c d); auto; [repeat constructor; lia|lia|].
    unfold ptr in E. simpl in *. injection E as E. exact E.
  - intros c d _ _ E. discriminate.
Qed.

(** ** Refuted *)

(** a[1:] = a[:-1] for a = [0, 8, 16, 24]: the first element is copied over all. *)
Theorem C57_overlap_refuted :
  let a := mk 0 0 8 [4] false in
  let b := Nd 0 0 8 [3] [8] in
  array mem a /\ getitem mem a [ISlice (Slice None (Some (-1)) None)] = Ok (inr b) /\
  items OC mem b = [0; 8; 16] /\
  exists h', setitem_array mem a [ISlice (Slice (Some 1) None None)] b = Ok h' /\
    items OC h' a = [0; 0; 0; 0].
Proof.
  intros a b. split; [repeat split; simpl; auto; repeat constructor; lia|]. split; [reflexivity|].
  split; [reflexivity|]. eexists. split; [vm_compute; reflexivity|]. vm_compute. reflexivity.
Qed.

(** ** C58 *)

Theorem C58_broadcast_shapes args : args <> [] -> (forall a, In a args -> Forall (fun d => 0 <= d) a) ->
  (exists out, broadcast_shapes args = Ok out /\ broadcasts args out /\ forall o, broadcasts args o -> o = out) \/
  (broadcast_shapes args = Raise ValueError /\ forall out, ~ broadcasts args out).
Proof.
  intros NE NN. destruct (broadcast_shapes_ok args NE NN) as [(out & E & B & _)|H]; [left|right; exact H].
  exists out. split; [assumption|]. split; [assumption|]. intros o Ho. eapply broadcasts_unique; eauto.
Qed.

Theorem C58_negative_shape args a d : In a args -> In d a -> d < 0 -> broadcast_shapes args = Raise ValueError.
Proof.
  intros Ha Hd N. unfold broadcast_shapes. destruct args as [|x args]; [contradiction|].
  assert (E : existsb (existsb (fun i => i <? 0)) (x :: args) = true); [|now rewrite E].
  apply existsb_exists. exists a. split; [assumption|]. apply existsb_exists. exists d. split; [assumption|lia].
Qed.

Theorem C58_broadcast_to {V} (h : heap V) x sh : array h x -> Forall (fun d => 0 <= d) sh ->
  (length (shape x) <= length sh)%nat ->
  (broadcasts [shape x; sh] sh /\ exists r, broadcast_to x sh = Ok r /\ array h r /\ shape r = sh /\
     forall c, inside sh c -> inside (shape x) (pick (shape x) c) /\ ptr r c = ptr x (pick (shape x) c)) \/
  (~ broadcasts [shape x; sh] sh /\ broadcast_to x sh = Raise ValueError).
Proof.
  intros A F L. apply array_wf in A. destruct A as [W B].
  destruct (broadcast_to_ok x sh W F L) as [(Bc & r & E & Wr & Sr & Br & H)|H]; [left|right; exact H].
  split; [assumption|]. exists r. split; [assumption|]. split; [apply array_wf; split; [assumption|congruence]|]. auto.
Qed.

(** Arrays broadcast together: views of all operands of the common shape. *)
Theorem C58_broadcast_arrays {V} (h : heap V) l : l <> [] -> Forall (array h) l ->
  (exists out rs, broadcasts (map shape l) out /\ broadcast_arrays l = Ok rs /\
     Forall2 (fun x r => array h r /\ shape r = out /\
       forall c, inside out c -> inside (shape x) (pick (shape x) c) /\ ptr r c = ptr x (pick (shape x) c)) l rs) \/
  ((forall out, ~ broadcasts (map shape l) out) /\ broadcast_arrays l = Raise ValueError).
Proof.
  intros NE F. unfold broadcast_arrays.
  destruct (broadcast_shapes_ok (map shape l)) as [(out & E & B & P)|(E & N)].
  - destruct l; [congruence|discriminate].
  - intros a Ha. apply in_map_iff in Ha. destruct Ha as (x & <- & Hx). rewrite Forall_forall in F.
    destruct (F x Hx) as (_ & D & _). exact D.
  - left. exists out. rewrite E. cbn [bind].
    assert (G : forall x, In x l -> array h x /\ broadcasts [shape x; out] out).
    { intros x Hx. rewrite Forall_forall in F. split; [auto|]. eapply broadcasts_each; [exact B|]. now apply in_map. }
    clear E F NE.
    assert (X : exists rs, mapm (fun a => broadcast_to a out) l = Ok rs /\
       Forall2 (fun x r => array h r /\ shape r = out /\
       forall c, inside out c -> inside (shape x) (pick (shape x) c) /\ ptr r c = ptr x (pick (shape x) c)) l rs).
    { clear B. induction l as [|x l IH]; [exists []; split; [reflexivity|constructor]|]. cbn [mapm].
      destruct (G x (or_introl eq_refl)) as [A Bx].
      assert (L : (length (shape x) <= length out)%nat) by (destruct Bx as [Q _]; apply Q; simpl; auto).
      destruct (C58_broadcast_to h x out A P L) as [(_ & r & E & H)|[H _]]; [|contradiction].
      rewrite E. cbn [bind]. destruct IH as (rs & Er & Hr); [intros y Hy; apply G; simpl; auto|].
      rewrite Er. cbn [bind]. eexists. split; [reflexivity|]. constructor; [exact H|exact Hr]. }
    destruct X as (rs & E & H). exists rs. auto.
  - right. split; [assumption|]. now rewrite E.
Qed.

(** Iterating over [np.broadcast(x, y, ...)] goes through the common shape in C order. *)
Theorem C58_iterate {V} (h : heap V) l out : Forall (array h) l -> broadcasts (map shape l) out ->
  Forall (fun d => 0 <= d) out -> exists fuel,
  biter fuel h l out 0 = Ok (map (fun c => map (fun x => item_at h x (pick (shape x) c)) l) (grid out)).
Proof.
  intros F B P. pose proof (product_nonneg _ P). exists (S (Z.to_nat (product out))).
  rewrite (biter_ok h l out (Z.to_nat (product out)) P 0) by lia. simpl skipn. f_equal.
  apply map_ext_in. intros c Hc. apply map_ext_in. intros x Hx. unfold item_at. f_equal.
  apply grid_in, inside_length in Hc. rewrite Forall_forall in F. specialize (F x Hx). apply array_wf in F. destruct F.
  apply ptr_bcast_pick; [assumption|]. rewrite Hc. destruct B as [Q _]. apply Q. now apply in_map.
Qed.

(** Rank and coordinates: [index_to_coords] enumerates the coordinates in C order. *)
Theorem C58_index_to_coords sh k : Forall (fun d => 0 <= d) sh -> 0 <= k < product sh ->
  exists c, index_to_coords k sh = Ok c /\ nth_error (grid sh) (Z.to_nat k) = Some c.
Proof. apply index_to_coords_ok. Qed.

Example broadcast_ex : broadcast_shapes [[3; 1]; [1; 4]; [4]; []] = Ok [3; 4] /\
  broadcast_shapes [[3]; [4]] = Raise ValueError /\ broadcast_shapes [[1]; [0; 1]] = Ok [0; 1] /\
  broadcasts [[3; 1]; [4]] [3; 4].
Proof.
  repeat (split; [reflexivity|]). split; [intros sh [<-|[<-|[]]]; simpl; lia|].
  split; [exists [3; 1]; simpl; auto|]. intros [|[|k]] d E.
  - injection E as <-. split; [exists [4]; simpl; auto|]. intros sh e [<-|[<-|[]]] [= <-]; auto.
  - injection E as <-. split; [exists [3; 1]; simpl; auto|]. intros sh e [<-|[<-|[]]] He; [injection He as <-; auto|discriminate].
  - unfold from_end in E. simpl in E. destruct k; discriminate.
Qed.

Example iterate_ex : biter 10 mem [mk 0 0 8 [2; 1] false; mk 0 16 8 [2] false] [2; 2] 0 =
  Ok [[0; 16]; [0; 24]; [8; 16]; [8; 24]].
Proof. reflexivity. Qed.

(** [np.broadcast_to(x, (-3,))] is accepted and gives an array of negative extent. *)
Theorem C58_negative_refuted : exists r, array mem (mk 0 0 8 [1] false) /\
  broadcast_to (mk 0 0 8 [1] false) [-3] = Ok r /\ shape r = [-3].
Proof. eexists. split; [repeat split; simpl; auto; repeat constructor; lia|]. split; reflexivity. Qed.

Print Assumptions C57_getitem.
Print Assumptions C57_rejected.
Print Assumptions C57_set_number.
Print Assumptions C57_set_array_partial.
Print Assumptions C57_selection_distinct.
Print Assumptions C57_overlap_refuted.
Print Assumptions C58_broadcast_shapes.
Print Assumptions C58_negative_shape.
Print Assumptions C58_broadcast_to.
Print Assumptions C58_broadcast_arrays.
Print Assumptions C58_iterate.
Print Assumptions C58_index_to_coords.
Print Assumptions C58_negative_refuted.
