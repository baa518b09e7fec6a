(** C56: reshaping, flattening and transposing arrays. *)
From Coq Require Import List ZArith Lia Bool Permutation.
From Verif.Common Require Import Result Int64.
From Verif.Nd Require Import Spec Model Grid Copy Reshape Views.
Import ListNotations.
Local Open Scope Z_scope.

(** An array that exists: one stride per axis, no negative extent, and its block has
    been allocated. *)
Definition array {V} (h : heap V) (a : nd) : Prop :=
  length (strides a) = length (shape a) /\ Forall (fun d => 0 <= d) (shape a) /\ 0 < isz a /\
  (blk a < next h)%nat.

(** [a[c]] *)
Definition item_at {V} (h : heap V) (a : nd) (c : list Z) : V := load h (ptr a c).

(** All elements, last axis fastest ('C') or first axis fastest ('F'). *)
Definition items {V} (o : order) (h : heap V) (a : nd) : list V :=
  map (item_at h a) (ogrid o (shape a)).

(** Every array that existed before still has its elements. *)
Definition unchanged {V} (h h' : heap V) : Prop :=
  forall b c, array h b -> inside (shape b) c -> item_at h' b c = item_at h b c.

Lemma array_wf {V} (h : heap V) a : array h a <-> wf a /\ (blk a < next h)%nat.
Proof. split; [intros (L & F & P & B); repeat split; assumption|intros [[L F P] B]; repeat split; assumption]. Qed.

Lemma kept_unchanged {V} (h h' : heap V) : kept h h' -> unchanged h h'.
Proof. intros [_ K] b c (_ & _ & _ & B) _. apply K. exact B. Qed.

(** ** The contiguity flags *)

(** The elements are next to each other in memory, in that order. *)
Theorem C56_flags (a : nd) : length (strides a) = length (shape a) -> Forall (fun d => 0 <= d) (shape a) -> 0 < isz a ->
  (fst (contig a) = true <->
     map (fun c => snd (ptr a c)) (grid (shape a)) = map (fun k => base a + k * isz a) (zrange (product (shape a)))) /\
  (snd (contig a) = true <->
     map (fun c => snd (ptr a c)) (fgrid (shape a)) = map (fun k => base a + k * isz a) (zrange (product (shape a)))).
Proof. intros L F P. apply contig_flags. now split. Qed.

(** ** reshape *)

Theorem C56_reshape {V} (zero : V) h a req o od : array h a -> meant a o = Some od -> req <> [] ->
  product (shape a) < 2 ^ 63 -> product (filter (fun r => 0 <=? r) req) < 2 ^ 63 ->
  (exists sh h' r, wanted (product (shape a)) req sh /\ reshape zero h a req o = Ok (h', r) /\
     array h' r /\ shape r = sh /\ items od h' r = items od h a /\ unchanged h h' /\
     (* it is a view of [a], or new memory *)
     ((h' = h /\ forall c, inside (shape r) c -> exists d, inside (shape a) d /\ ptr r c = ptr a d) \/
      (blk r = next h))) \/
  ((forall sh, ~ wanted (product (shape a)) req sh) /\ reshape zero h a req o = Raise ValueError).
Proof.
  intros A M N S1 S2. apply array_wf in A. destruct A as [W B].
  destruct (reshape_ok zero h a req o od W B M S1 S2 N) as [(sh & h' & r & H1 & H2 & H3 & H4 & H5 & H6 & H7 & H8)|H]; [left|right; exact H].
  exists sh, h', r. split; [assumption|]. split; [assumption|]. split.
  { apply array_wf. split; [assumption|]. destruct H8 as [(-> & -> & _)|[-> ->]]; [assumption|lia]. }
  split; [assumption|]. split; [exact H6|]. split; [now apply kept_unchanged|].
  destruct H8 as [(E & _ & H8)|[E _]]; auto.
Qed.

(** The shape is determined by the request. *)
Theorem C56_reshape_shape size req sh1 sh2 : wanted size req sh1 -> wanted size req sh2 -> sh1 = sh2.
Proof.
  intros (P1 & F1 & M1 & U & Z1) (P2 & F2 & M2 & _ & _).
  assert (G : forall req sh1 sh2, Forall2 (fun r d => r < 0 \/ r = d) req sh1 ->
    Forall2 (fun r d => r < 0 \/ r = d) req sh2 -> filter (fun r => r <? 0) req = [] -> sh1 = sh2).
  { clear. intros req sh1 sh2 M1. revert sh2. induction M1 as [|r d req sh1 H M1 IH]; intros sh2 M2 U;
      inversion M2 as [|? d2 ? ? H2 M2']; subst; [reflexivity|].
    simpl in U. destruct (Z.ltb_spec r 0); [discriminate|]. f_equal; [lia|auto]. }
  assert (K : forall req sh, Forall2 (fun r d => r < 0 \/ r = d) req sh -> filter (fun r => r <? 0) req = [] ->
    product sh = product (filter (fun r => 0 <=? r) req)).
  { clear. induction 1 as [|r d req sh H M IH]; intros U; [reflexivity|]. simpl in U.
    destruct (Z.ltb_spec r 0); [discriminate|]. simpl. destruct (Z.leb_spec 0 r); [|lia].
    rewrite !product_cons, IH by assumption. f_equal. lia. }
  assert (X : filter (fun r => r <? 0) req = [] \/ exists x, filter (fun r => r <? 0) req = [x]).
  { destruct (filter _ req) as [|x [|y l]]; [auto|eauto|]. simpl in U. lia. }
  destruct X as [X|[x X]]; [now apply G with req|].
  assert (NZ : product (filter (fun r => 0 <=? r) req) <> 0).
  { intros E. specialize (Z1 E). assert (In x (filter (fun r => r <? 0) req)) by (rewrite X; simpl; auto).
    apply filter_In in H. destruct H as [H1 H2]. rewrite Forall_forall in Z1. specialize (Z1 x H1). simpl in Z1.
    apply Z.ltb_lt in H2. lia. }
  assert (Y : forall req sh1 sh2, Forall2 (fun r d => r < 0 \/ r = d) req sh1 ->
    Forall2 (fun r d => r < 0 \/ r = d) req sh2 -> filter (fun r => r <? 0) req = [x] ->
    product (filter (fun r => 0 <=? r) req) <> 0 -> product sh1 = product sh2 -> sh1 = sh2).
  { clear - G K. intros req sh1 sh2 M1. revert sh2. induction M1 as [|r d req sh1 H M1 IH]; intros sh2 M2 U NZ E;
      inversion M2 as [|? d2 ? sh2' H2 M2']; subst; [reflexivity|].
    simpl in U. rewrite !product_cons in E. simpl in NZ. destruct (Z.ltb_spec r 0).
    - injection U as -> U. destruct (Z.leb_spec 0 x); [lia|].
      rewrite (K _ _ M1 U), (K _ _ M2' U) in E. f_equal; [|now apply G with req].
      apply Z.mul_reg_r in E; assumption.
    - destruct (Z.leb_spec 0 r); [|lia]. rewrite product_cons in NZ. f_equal; [lia|].
      apply IH; [assumption|assumption|intros X0; apply NZ; rewrite X0; lia|]. replace d2 with d in E by lia.
      apply Z.mul_reg_l in E; [assumption|]. intros X0. apply NZ. replace r with 0 by lia. reflexivity. }
  apply (Y req); auto. congruence.
Qed.

(** To no dimensions. *)
Theorem C56_reshape_scalar {V} (zero : V) h a o : array h a ->
  if product (shape a) =? 1
  then exists r, reshape zero h a [] o = Ok (h, r) /\ array h r /\ shape r = [] /\ items OC h r = items OC h a
  else reshape zero h a [] o = Raise ValueError.
Proof.
  intros A. pose proof A as A0. apply array_wf in A. destruct A as [W B].
  rewrite (reshape_nil zero h a o W). destruct (Z.eqb_spec (product (shape a)) 1) as [E|E]; [|reflexivity].
  eexists. split; [reflexivity|]. pose proof W as [L F P]. split; [repeat split; simpl; auto|].
  split; [reflexivity|].
  assert (G : forall sh, Forall (fun d => 0 <= d) sh -> product sh = 1 -> grid sh = [map (fun _ => 0) sh]).
  { clear. induction 1 as [|d sh H F IH]; intros E; [reflexivity|]. rewrite product_cons in E.
    pose proof (product_nonneg _ F). assert (d = 1) by (now apply Z.eq_mul_1_nonneg in E). subst d. rewrite Z.mul_1_l in E. cbn [grid]. rewrite IH by assumption. reflexivity. }
  unfold items. cbn [ogrid shape]. rewrite (G _ F E). simpl. unfold item_at, ptr. cbn [blk base strides].
  now rewrite dot_zeros.
Qed.

(** ** flatten and ravel *)

(** Partial: order 'F' of a non-contiguous array with more than six axes is wrong, see
    [C56_flatten_7d_refuted]. *)
Theorem C56_flatten_partial {V} (zero : V) h a o h' r : array h a ->
  (o = RF -> snd (contig a) = true \/ (length (shape a) <= 6)%nat) ->
  flatten zero h a o = (h', r) ->
  blk r = next h /\ unchanged h h' /\ shape r = [product (shape a)] /\
  match o with
  | RC => items OC h' r = items OC h a
  | RF => items OC h' r = items OF h a
  | RA => items OC h' r = items (if snd (contig a) then OF else OC) h a
  | RK => Permutation (items OC h' r) (items OC h a)
  end.
Proof.
  intros A D E. apply array_wf in A. destruct A as [W B].
  pose proof (flatten_ravel_ok zero h a o W B D _ (or_introl eq_refl)) as H.
  pose proof (flatten_fresh zero h a o) as Fr. rewrite E in H, Fr. destruct H as (K & S & H).
  split; [exact Fr|]. split; [now apply kept_unchanged|]. split; [assumption|].
  destruct o; exact H.
Qed.

Theorem C56_ravel_partial {V} (zero : V) h a o h' r : array h a ->
  (o = RF -> snd (contig a) = true \/ (length (shape a) <= 6)%nat) ->
  ravel zero h a o = (h', r) ->
  unchanged h h' /\ shape r = [product (shape a)] /\
  match o with
  | RC => items OC h' r = items OC h a
  | RF => items OC h' r = items OF h a
  | RA => items OC h' r = items (if snd (contig a) then OF else OC) h a
  | RK => Permutation (items OC h' r) (items OC h a)
  end /\
  (* an array already laid out that way is not copied *)
  ((o = RC /\ fst (contig a) = true) \/ (o = RF /\ snd (contig a) = true) ->
   h' = h /\ blk r = blk a /\ base r = base a).
Proof.
  intros A D E. apply array_wf in A. destruct A as [W B].
  pose proof (flatten_ravel_ok zero h a o W B D _ (or_intror eq_refl)) as H.
  pose proof (ravel_shares zero h a o) as Fr. rewrite E in H, Fr. destruct H as (K & S & H).
  split; [now apply kept_unchanged|]. split; [assumption|].
  split; [destruct o; exact H|]. intros [[-> C]|[-> C]]; eapply Fr; try reflexivity; exact C.
Qed.

(** ** copy *)
Theorem C56_copy {V} (zero : V) h a o h' r : array h a -> copy zero h a o = (h', r) ->
  array h' r /\ blk r = next h /\ unchanged h h' /\ shape r = shape a /\
  forall c, inside (shape a) c -> item_at h' r c = item_at h a c.
Proof.
  intros A E. apply array_wf in A. destruct A as [W B].
  destruct (copy_ok zero h a o h' r W B E) as (Wx & Sx & Ix & Bx & Ax & Nx & Kx & Vx & _).
  split; [apply array_wf; split; [assumption|lia]|]. split; [assumption|].
  split; [now apply kept_unchanged|]. split; [assumption|]. exact Vx.
Qed.

(** ** transpose and swapaxes *)

(** [r] has [a]'s axes in the order [p]: axis [k] of [r] is axis [p_k] of [a], and the
    elements of [r] are those of [a] with the indices in that order. *)
Definition axes_in_order (p : list nat) (a r : nd) : Prop :=
  Permutation p (seq 0 (length (shape a))) /\
  shape r = map (fun j => nth j (shape a) 0) p /\
  forall c, inside (shape a) c ->
    inside (shape r) (map (fun j => nth j c 0) p) /\ ptr r (map (fun j => nth j c 0) p) = ptr a c.

Lemma transposed_axes p a r : transposed p a r -> axes_in_order p a r.
Proof.
  intros (W & S & P & H & _). split; [exact P|]. split; [exact S|]. intros c Hc. split; [|now apply H].
  rewrite S. now apply permute_inside.
Qed.

(** The axis meant by a number, counted from the end if negative. *)
Definition names_axis (n : nat) (ax : Z) (j : nat) : Prop :=
  (j < n)%nat /\ (ax = Z.of_nat j \/ ax = Z.of_nat j - Z.of_nat n).

Lemma axis_names n ax j : axis_of n ax j <-> names_axis n ax j.
Proof.
  unfold axis_of, names_axis, wrap. destruct (Z.ltb_spec ax 0); lia.
Qed.

Lemma axes_name n l p : Forall2 (axis_of n) l p <-> Forall2 (names_axis n) l p.
Proof. split; induction 1; constructor; auto; now apply axis_names. Qed.

Theorem C56_transpose (a : nd) axes : length (strides a) = length (shape a) -> Forall (fun d => 0 <= d) (shape a) ->
  0 < isz a -> length axes = length (shape a) -> axes <> [] ->
  (exists p r, transpose a axes = Ok r /\ Forall2 (names_axis (length (shape a))) axes p /\ axes_in_order p a r) \/
  (exists e, transpose a axes = Raise e /\
     forall p, Forall2 (names_axis (length (shape a))) axes p -> ~ NoDup p).
Proof.
  intros L F P HL NE. assert (W : wf a) by (now split).
  destruct (transpose_ok a axes W (or_intror HL)) as [(p & r & E & T & _ & HN)|[(E & ax & Hi & Hb)|(E & p & Hp & Hd)]].
  - left. exists p, r. split; [assumption|]. split; [apply axes_name; auto|now apply transposed_axes].
  - right. exists OtherError. split; [assumption|]. intros p Hp _. apply axes_name in Hp.
    clear - Hi Hb Hp. induction Hp as [|x j l p H Hp IH]; [contradiction|].
    destruct Hi as [<-|Hi]; [|auto]. now destruct H.
  - right. exists ValueError. split; [assumption|]. intros q Hq. apply axes_name in Hq.
    enough (p = q) by (subst; assumption). clear - Hp Hq. revert q Hq.
    induction Hp as [|x j l p [H H'] Hp IH]; intros q Hq; inversion Hq as [|? k ? ? [G G']]; subst; [reflexivity|].
    f_equal; [apply Nat2Z.inj; etransitivity; [exact H'|symmetry; exact G']|auto].
Qed.

Theorem C56_transpose_all (a : nd) : length (strides a) = length (shape a) -> Forall (fun d => 0 <= d) (shape a) ->
  0 < isz a -> exists r, transpose a [] = Ok r /\ shape r = rev (shape a) /\
  forall c, inside (shape a) c -> inside (shape r) (rev c) /\ ptr r (rev c) = ptr a c.
Proof.
  intros L F P. assert (W : wf a) by (now split). eexists. split; [reflexivity|]. split; [reflexivity|].
  intros c Hc. cbn [shape]. split.
  - apply inside_rev_iff. now rewrite !rev_involutive.
  - unfold ptr. cbn [blk base strides]. apply inside_length in Hc. rewrite dot_rev by congruence. reflexivity.
Qed.

Theorem C56_swapaxes (a : nd) ax1 ax2 : length (strides a) = length (shape a) -> Forall (fun d => 0 <= d) (shape a) ->
  0 < isz a ->
  (exists i j r, swapaxes a ax1 ax2 = Ok r /\ names_axis (length (shape a)) ax1 i /\ names_axis (length (shape a)) ax2 j /\
     axes_in_order (map (fun k => if (k =? i)%nat then j else if (k =? j)%nat then i else k)
                        (seq 0 (length (shape a)))) a r) \/
  (exists e, swapaxes a ax1 ax2 = Raise e /\
     forall i j, ~ (names_axis (length (shape a)) ax1 i /\ names_axis (length (shape a)) ax2 j)).
Proof.
  intros L F P. assert (W : wf a) by (now split).
  destruct (swapaxes_ok a ax1 ax2 W) as [(i & j & r & E & Hi & Hj & T)|[E H]].
  - left. exists i, j, r. split; [assumption|]. split; [now apply axis_names|]. split; [now apply axis_names|].
    now apply transposed_axes.
  - right. exists OtherError. split; [assumption|]. intros i j [Hi Hj]. apply axis_names in Hi, Hj.
    apply H. destruct Hi, Hj. unfold ndim. auto.
Qed.

(** A list of axes: right if none is negative; see [C56_transpose_list_refuted]. *)
Theorem C56_transpose_list_partial (a : nd) axes : length (strides a) = length (shape a) ->
  Forall (fun d => 0 <= d) (shape a) -> 0 < isz a -> Forall (fun ax => 0 <= ax) axes ->
  (exists p r, transpose_list a axes = Ok r /\ axes = map Z.of_nat p /\ axes_in_order p a r) \/
  (exists e, transpose_list a axes = Raise e /\
     forall p, Permutation p (seq 0 (length (shape a))) -> axes <> map Z.of_nat p).
Proof.
  intros L F P NN. assert (W : wf a) by (now split).
  destruct (transpose_list_ok a axes W NN) as [(p & r & E & T & A)|H]; [left|right; exact H].
  exists p, r. split; [assumption|]. split; [assumption|now apply transposed_axes].
Qed.

(** ** Examples *)

Definition mem : heap Z := Heap 1 (fun _ o => o).

(** a 2x3x2 array of 8-byte elements in C order, and every second column of a 4x4 one *)
Definition a1 : nd := mk 0 0 8 [2; 3; 2] false.
Definition a2 : nd := Nd 0 8 8 [4; 2] [32; 16].

Example mem_arrays : array mem a1 /\ array mem a2.
Proof. repeat split; simpl; auto; repeat constructor; lia. Qed.

Example flags_ex : contig a1 = (true, false) /\ contig a2 = (false, false) /\
  contig (Nd 0 0 8 [3; 1] [8; 999]) = (true, true).
Proof. repeat split. Qed.

(** A view is possible in one case and not in the other. *)
Example reshape_ex :
  (exists r, reshape 0 mem a2 [2; -1] RC = Ok (mem, r) /\ strides r = [64; 16] /\ shape r = [2; 4]) /\
  (exists h r, reshape 0 mem (Nd 0 8 8 [4; 2] [32; 8]) [2; -1] RC = Ok (h, r) /\ blk r = 1%nat /\
     items OC h r = [8; 16; 40; 48; 72; 80; 104; 112]) /\
  reshape 0 mem a2 [3; -1] RC = Raise ValueError.
Proof.
  split; [|split; [|reflexivity]].
  - eexists. repeat split; vm_compute; reflexivity.
  - eexists. eexists. repeat split; vm_compute; reflexivity.
Qed.

Example reshape_ex_hyps : array mem a2 /\ meant a2 RA = Some OC /\ product (shape a2) < 2 ^ 63 /\
  wanted (product (shape a2)) [2; -1] [2; 4].
Proof.
  split; [exact (proj2 mem_arrays)|]. split; [reflexivity|]. split; [reflexivity|].
  split; [reflexivity|]. split; [repeat constructor; lia|]. split; [repeat constructor; lia|].
  split; [simpl; lia|]. discriminate.
Qed.

Example flatten_ex : (let '(h, r) := flatten 0 mem a2 RF in items OC h r) = [8; 40; 72; 104; 24; 56; 88; 120].
Proof. vm_compute. reflexivity. Qed.

Example transpose_ex : exists r, transpose a1 [-1; 0; 1] = Ok r /\ shape r = [2; 2; 3] /\ strides r = [8; 48; 16].
Proof. eexists. repeat split. Qed.

(** ** Refuted *)

(** [a.reshape((4, 2), order='F')] and [np.reshape(a, (4, 2), 'F')] use order 'C'. *)
Theorem C56_reshape_tuple_order_refuted : exists h r,
  array mem a2 /\ wanted (product (shape a2)) [2; 4] [2; 4] /\
  reshape_tuple 0 mem a2 [2; 4] RF = Ok (h, r) /\ items OF h r <> items OF mem a2.
Proof.
  exists mem. eexists. split; [exact (proj2 mem_arrays)|].
  split; [|split; [vm_compute; reflexivity|vm_compute; discriminate]].
  split; [reflexivity|]. split; [repeat constructor; lia|]. split; [repeat constructor; lia|].
  split; [simpl; lia|]. discriminate.
Qed.

(** The number of elements asked for is computed modulo 2^64: an empty array takes a
    shape with 2^64 elements. *)
Theorem C56_reshape_overflow_refuted : exists r,
  array mem (mk 0 0 8 [0] false) /\ reshape 0 mem (mk 0 0 8 [0] false) [2 ^ 32; 2 ^ 32] RC = Ok (mem, r) /\
  shape r = [2 ^ 32; 2 ^ 32] /\ inside (shape r) [5; 7] /\
  ~ wanted (product [0]) [2 ^ 32; 2 ^ 32] (shape r).
Proof.
  eexists. split; [repeat split; simpl; auto; repeat constructor; lia|].
  split; [vm_compute; reflexivity|]. split; [reflexivity|].
  split; [repeat constructor; lia|]. intros [H _]. vm_compute in H. discriminate.
Qed.

(** flatten('F') of a seven-dimensional array in C order reads outside the array. *)
Theorem C56_flatten_7d_refuted :
  let a := mk 0 0 8 [2; 1; 1; 1; 1; 1; 3] false in
  array mem a /\
  items OF mem a = [0; 24; 8; 32; 16; 40] /\
  (let '(h, r) := flatten 0 mem a RF in items OC h r) = [0; 8; 24; 32; 48; 56] /\
  ~ exists c, inside (shape a) c /\ snd (ptr a c) = 48.
Proof.
  intros a. split; [repeat split; simpl; auto; repeat constructor; lia|].
  split; [vm_compute; reflexivity|]. split; [vm_compute; reflexivity|].
  intros (c & Hc & E). apply grid_in in Hc. apply (in_map (fun c => snd (ptr a c))) in Hc.
  rewrite E in Hc. vm_compute in Hc. intuition discriminate.
Qed.

(** [a.transpose([0, -2])] is accepted for a matrix and gives a view that reaches
    outside it. *)
Theorem C56_transpose_list_refuted :
  let a := mk 0 0 8 [3; 2] false in
  array mem a /\ exists r, transpose_list a [0; -2] = Ok r /\ shape r = [3; 3] /\
  inside (shape r) [2; 2] /\ ~ exists c, inside (shape a) c /\ ptr a c = ptr r [2; 2].
Proof.
  intros a. split; [repeat split; simpl; auto; repeat constructor; lia|].
  eexists. split; [vm_compute; reflexivity|]. split; [reflexivity|]. split; [repeat constructor; lia|].
  intros (c & Hc & E). apply grid_in in Hc. apply (in_map (fun c => snd (ptr a c))) in Hc.
  rewrite E in Hc. vm_compute in Hc. intuition discriminate.
Qed.

Print Assumptions C56_flags.
Print Assumptions C56_reshape.
Print Assumptions C56_reshape_shape.
Print Assumptions C56_reshape_scalar.
Print Assumptions C56_flatten_partial.
Print Assumptions C56_ravel_partial.
Print Assumptions C56_copy.
Print Assumptions C56_transpose.
Print Assumptions C56_transpose_all.
Print Assumptions C56_swapaxes.
Print Assumptions C56_transpose_list_partial.
Print Assumptions C56_reshape_tuple_order_refuted.
Print Assumptions C56_reshape_overflow_refuted.
Print Assumptions C56_flatten_7d_refuted.
Print Assumptions C56_transpose_list_refuted.
