(** C61: indexing with a boolean array. *)
From Coq Require Import List ZArith Lia Bool Permutation.
From Verif.Common Require Import Result Int64.
From Verif.Nd Require Import Spec Model Grid Copy Reshape Views IndexModel Index LoopModel Loop LoopAll Properties LoopProperties
  MaskModel Mask.
Import ListNotations.
Local Open Scope Z_scope.

(** The coordinates at which the mask is true, last axis fastest. *)
Definition true_at {V} (tr : V -> bool) (h : heap V) (m : nd) : list (list Z) :=
  filter (fun c => tr (item_at h m c)) (grid (shape m)).

(** No element of [x] is in a cell of [a]. *)
Definition disjoint (a x : nd) : Prop :=
  forall c d, inside (shape a) c -> inside (shape x) d -> ptr x d <> ptr a c.

(** The elements of an item with one axis are next to each other. *)
Definition adjacent (x : nd) : Prop := forall n, shape x = [n] -> strides x = [isz x].

(** A number, an array of one element, or as many elements as there are true values. *)
Definition item_fits {V} (tr : V -> bool) (h : heap V) (m x : nd) : Prop :=
  shape x = [] \/ shape x = [1] \/ shape x = [Z.of_nat (length (true_at tr h m))].

Section Mask.
Context {V : Type} (zero : V) (tr : V -> bool).
Local Notation heap := (heap V).

Lemma selected_true (h : heap) a m : shape m = shape a ->
  selected tr h (map (fun c => (ptr m c, ptr a c)) (grid (shape a))) = map (ptr a) (true_at tr h m).
Proof.
  intros S. unfold selected, true_at. rewrite S. rewrite filter_map, map_map. reflexivity.
Qed.

Lemma items_nth (h : heap) r n l : shape r = [n] -> n = Z.of_nat (length l) ->
  (forall j v, nth_error l j = Some v -> item_at h r [Z.of_nat j] = v) -> items OC h r = l.
Proof.
  intros S N H. unfold items. rewrite S, N. cbn [ogrid grid map]. rewrite flat_map_single with (f := fun i => [i]), map_map.
  rewrite zrange_nat, map_map. clear S N.
  assert (G : forall k, (forall j v, nth_error l j = Some v -> item_at h r [Z.of_nat (k + j)] = v) ->
    map (fun x => item_at h r [Z.of_nat x]) (seq k (length l)) = l).
  { clear H. induction l as [|v l IH]; intros k H; [reflexivity|]. cbn [length seq map]. f_equal.
    - rewrite <- (H O v eq_refl). now rewrite Nat.add_0_r.
    - apply IH. intros j w E. rewrite <- (H (S j) w E). now rewrite <- Nat.add_succ_comm. }
  apply (G O). exact H.
Qed.

(** ** Reading *)

Theorem C61_get (h : heap) a m : array h a -> array h m -> ndim m = ndim a -> (0 < ndim a)%nat ->
  (shape m = shape a /\ exists h' r, getset_bool_get zero tr h a m = Ok (h', r) /\
     array h' r /\ blk r = next h /\ shape r = [Z.of_nat (length (true_at tr h m))] /\
     items OC h' r = map (item_at h a) (true_at tr h m) /\ unchanged h h') \/
  (shape m <> shape a /\ getset_bool_get zero tr h a m = Raise IndexError).
Proof.
  intros A M N P. apply array_wf in A. apply array_wf in M. destruct A as [Wa Ba], M as [Wm Bm].
  unfold getset_bool_get. rewrite (proj2 (Nat.eqb_eq _ _) N). cbn [negb].
  destruct (Nat.eqb_spec (ndim a) 0) as [|_]; [lia|]. rewrite same_extents_ok by (exact N).
  destruct (list_eq_dec Z.eq_dec (shape a) (shape m)) as [S|S]; [left|right; split; [congruence|reflexivity]].
  symmetry in S. split; [exact S|]. cbn [alloc]. rewrite Z.mul_1_l. rewrite visited_ok by assumption.
  replace (num_true tr h m (product (shape a))) with (Z.of_nat (length (true_at tr h m)))
    by (rewrite <- S; now rewrite num_true_ok).
  eexists _, _. split; [reflexivity|].
  set (h1 := Heap _ _).
  assert (L1 : forall p, (fst p < next h)%nat -> load h1 p = load h p).
  { intros p Hp. unfold load, h1. cbn [cell]. destruct (Nat.eqb_spec (fst p) (next h)); [lia|reflexivity]. }
  pose proof Wa as [_ _ Ia].
  destruct (get_loop_ok tr (next h) (isz a) ltac:(lia) (map (fun c => (ptr m c, ptr a c)) (grid (shape a))) h1 0) as (Nx & O & _ & G).
  { intros x Hx. apply in_map_iff in Hx. destruct Hx as (c & <- & _). cbn. lia. }
  set (h' := get_loop _ _ _ _ _ _) in *.
  assert (Same : selected tr h1 (map (fun c => (ptr m c, ptr a c)) (grid (shape a))) = map (ptr a) (true_at tr h m)).
  { rewrite <- selected_true by assumption. apply selected_ext. intros x Hx. apply in_map_iff in Hx. destruct Hx as (c & <- & _).
    apply L1. exact Bm. }
  rewrite Same in G.
  split. { split; [reflexivity|]. split; [repeat constructor; lia|]. split; [exact Ia|]. rewrite Nx. cbn. lia. }
  split; [reflexivity|]. split; [reflexivity|]. split.
  - apply (items_nth h' _ (Z.of_nat (length (true_at tr h m)))); [reflexivity|now rewrite map_length|].
    intros j v E. rewrite nth_error_map in E. destruct (nth_error (true_at tr h m) j) as [c|] eqn:Ec; [|discriminate].
    injection E as <-. unfold item_at at 1. unfold mk, ptr at 1. cbn [blk base strides mk_strides rev strides_walk app dot].
    specialize (G j (ptr a c)). rewrite nth_error_map, Ec in G. specialize (G eq_refl).
    replace (0 + (Z.of_nat j * isz a + 0)) with ((0 + Z.of_nat j) * isz a) by lia. rewrite G. apply L1. exact Ba.
  - intros b c (_ & _ & _ & Bb) _. unfold item_at. rewrite O by (cbn; lia). apply L1. exact Bb.
Qed.

(** ** Writing *)

Theorem C61_set_partial (h : heap) a m x : array h a -> array h m -> array h x -> ndim m = ndim a -> (0 < ndim a)%nat ->
  (ndim x <= 1)%nat -> separate a -> disjoint a x -> adjacent x ->
  (* the mask may be the array itself *)
  (forall c d, inside (shape m) c -> inside (shape a) d -> ptr m c = ptr a d -> c = d) ->
  (shape m = shape a /\ item_fits tr h m x /\ exists h', getset_bool_set tr h a m x = Ok h' /\ next h' = next h /\
     (forall k c, nth_error (true_at tr h m) k = Some c -> item_at h' a c = item_at h x (pick (shape x) [Z.of_nat k])) /\
     (forall p, (forall c, In c (true_at tr h m) -> p <> ptr a c) -> load h' p = load h p)) \/
  (shape m = shape a /\ ~ item_fits tr h m x /\ getset_bool_set tr h a m x = Raise ValueError) \/
  (shape m <> shape a /\ getset_bool_set tr h a m x = Raise IndexError).
Proof.
  intros A M X N P Nx Sa Dx Jx Dm. apply array_wf in A. apply array_wf in M. apply array_wf in X.
  destruct A as [Wa Ba], M as [Wm Bm], X as [Wx Bx].
  unfold getset_bool_set. rewrite (proj2 (Nat.eqb_eq _ _) N). cbn [negb].
  destruct (Nat.eqb_spec (ndim a) 0) as [|_]; [lia|]. rewrite same_extents_ok by (exact N).
  destruct (list_eq_dec Z.eq_dec (shape a) (shape m)) as [S|S]; [|right; right; split; [congruence|reflexivity]].
  symmetry in S. rewrite Z.mul_1_l. rewrite visited_ok by assumption.
  replace (num_true tr h m (product (shape a))) with (Z.of_nat (length (true_at tr h m)))
    by (rewrite <- S; now rewrite num_true_ok).
  destruct (Nat.ltb_spec 1 (ndim x)); [lia|].
  set (n := Z.of_nat (length (true_at tr h m))) in *.
  assert (SX : shape x = [] \/ exists d, shape x = [d] /\ 0 <= d).
  { pose proof Wx as [_ F _]. unfold ndim in Nx. destruct (shape x) as [|d [|d2 l]]; [auto| |simpl in Nx; lia].
    right. exists d. split; [reflexivity|]. now inversion F. }
  set (bad := ((ndim x =? 1)%nat && negb (size x =? 1) && negb (size x =? n))%bool).
  assert (FB : item_fits tr h m x <-> bad = false).
  { unfold item_fits, bad, size, ndim. rewrite count_product. fold n. destruct SX as [->|(d & -> & _)].
    - simpl. tauto.
    - cbn [length Nat.eqb andb]. rewrite product_cons. change (product []) with 1. rewrite Z.mul_1_r.
      destruct (Z.eqb_spec d 1) as [->|N1]; cbn [negb andb]; [tauto|].
      destruct (Z.eqb_spec d n) as [->|N2]; cbn [negb]; [tauto|]. split; [|discriminate].
      intros [E|[E|E]]; [discriminate|injection E; congruence|injection E; congruence]. }
  destruct bad eqn:Eb; [right; left; split; [exact S|]; split; [|reflexivity]|left].
  { intros F. apply FB in F. discriminate. }
  split; [exact S|]. pose proof (proj2 FB eq_refl) as F. split; [exact F|]. eexists. split; [reflexivity|].
  assert (Cell : forall k c, nth_error (true_at tr h m) k = Some c ->
    inside (shape x) (pick (shape x) [Z.of_nat k]) /\ item_cell x (0 + Z.of_nat k) = ptr x (pick (shape x) [Z.of_nat k])).
  { intros k c E. rewrite Z.add_0_l.
    assert (k < length (true_at tr h m))%nat as Hk by (apply nth_error_Some; congruence).
    unfold item_cell, ptr, size, ndim. rewrite count_product. pose proof Wx as [Ls _ _].
    destruct SX as [E0|(d & E0 & Hd)]; rewrite E0.
    - split; [constructor|]. cbn [length Nat.eqb pick combine map dot]. f_equal. lia.
    - rewrite product_cons. change (product []) with 1. rewrite Z.mul_1_r. cbn [length Nat.eqb pick combine map Nat.sub skipn].
      destruct (Z.eqb_spec d 1) as [->|N1].
      + split; [repeat constructor; lia|]. destruct (strides x) as [|s l]; cbn [dot]; [f_equal; lia|].
        destruct l; cbn [dot]; f_equal; lia.
      + destruct F as [F|[F|F]]; rewrite E0 in F; try discriminate; injection F as ->; [lia|].
        split; [repeat constructor; unfold n; lia|]. rewrite (Jx _ E0). cbn [dot]. f_equal. lia. }
  assert (Len : length (selected tr h (map (fun c => (ptr m c, ptr a c)) (grid (shape a)))) = length (true_at tr h m))
    by (rewrite selected_true by assumption; apply map_length).
  destruct (set_loop_ok tr (item_cell x) (map (fun c => (ptr m c, ptr a c)) (grid (shape a))) h 0) as (Nn & O & G).
  - rewrite map_map. cbn [snd]. assert (K : forall l, NoDup l -> (forall c, In c l -> inside (shape a) c) -> NoDup (map (ptr a) l)).
    { clear - Sa. induction l as [|c l IH]; intros ND I; [constructor|]. apply NoDup_cons_iff in ND. destruct ND as [N1 N2].
      cbn [map]. constructor; [|apply IH; [assumption|]; intros; apply I; simpl; auto].
      intros H. apply in_map_iff in H. destruct H as (d & E & Hd). apply N1. rewrite (Sa c d); [assumption| | |congruence];
        apply I; simpl; auto. }
    apply K; [apply grid_nodup|]. intros c. apply grid_in.
  - intros y z Hy Hz E. apply in_map_iff in Hy. apply in_map_iff in Hz. destruct Hy as (c & <- & Hc), Hz as (d & <- & Hd).
    cbn [fst snd] in *. f_equal. apply grid_in in Hc, Hd. apply Dm; [now rewrite S|assumption|assumption].
  - intros y j Hy Hj. rewrite Len in Hj. apply in_map_iff in Hy. destruct Hy as (c & <- & Hc). apply grid_in in Hc. cbn [snd].
    destruct (nth_error (true_at tr h m) j) as [d|] eqn:Ed; [|apply nth_error_None in Ed; lia].
    destruct (Cell j d Ed) as [I ->]. now apply Dx.
  - rewrite selected_true in O, G by assumption. split; [exact Nn|]. split.
    + intros k c E. unfold item_at. destruct (Cell k c E) as [_ <-]. apply G. now rewrite nth_error_map, E.
    + intros p Hp. apply O. intros I. apply in_map_iff in I. destruct I as (c & E & I). now apply (Hp c).
Qed.
End Mask.

(** ** Where NumPy differs *)

(** Codon: [a[mask]] of an array without axes is a view of [a]; in NumPy it is a copy. *)
Theorem C61_scalar_copy_refuted {V} (zero : V) tr (h : heap V) a m : array h a -> array h m -> shape a = [] -> shape m = [] ->
  tr (item_at h m []) = true ->
  exists r, getset_bool_get zero tr h a m = Ok (h, r) /\ shape r = [1] /\ ptr r [0] = ptr a [].
Proof.
  intros A M Sa Sm T. unfold getset_bool_get, ndim. rewrite Sa, Sm. cbn [length Nat.eqb negb].
  unfold item_at, ptr in T. cbn [dot] in T. rewrite Z.add_0_r in T. rewrite T.
  destruct a as [b o i sh st]. cbn [shape] in *. subst sh. destruct A as (L & _ & _). destruct st; [|discriminate].
  eexists. split; [cbv; reflexivity|]. split; [reflexivity|]. reflexivity.
Qed.

(** [a[mask] = b[::2]] reads the elements of [b] next to each other. *)
Theorem C61_stride_refuted : exists h' : heap Z,
  let a := mk 0 0 8 [3] false in let m := mk 0 200 8 [3] false in let x := Nd 0 400 8 [3] [16] in
  array mem a /\ array mem m /\ array mem x /\ true_at (Z.ltb 0) mem m = [[0]; [1]; [2]] /\
  getset_bool_set (Z.ltb 0) mem a m x = Ok h' /\ items OC mem x = [400; 416; 432] /\ items OC h' a = [400; 408; 416].
Proof.
  eexists. cbv zeta. split; [repeat split; simpl; auto; repeat constructor; lia|].
  split; [repeat split; simpl; auto; repeat constructor; lia|]. split; [repeat split; simpl; auto; repeat constructor; lia|].
  split; [reflexivity|]. split; [vm_compute; reflexivity|]. split; reflexivity.
Qed.

(** [a[mask] = a[:3]] reads elements already overwritten. *)
Theorem C61_overlap_refuted : exists h' : heap Z,
  let a := mk 0 0 8 [4] false in let m := mk 0 400 8 [4] false in let x := mk 0 0 8 [3] false in
  array mem a /\ array mem m /\ array mem x /\ true_at (Z.ltb 400) mem m = [[1]; [2]; [3]] /\
  getset_bool_set (Z.ltb 400) mem a m x = Ok h' /\ items OC mem x = [0; 8; 16] /\ items OC h' a = [0; 0; 0; 0].
Proof.
  eexists. cbv zeta. split; [repeat split; simpl; auto; repeat constructor; lia|].
  split; [repeat split; simpl; auto; repeat constructor; lia|]. split; [repeat split; simpl; auto; repeat constructor; lia|].
  split; [reflexivity|]. split; [vm_compute; reflexivity|]. split; reflexivity.
Qed.

(** ** Examples *)

Example mask_get_ex : let a := mk 0 0 8 [2; 2] true in let m := mk 0 400 8 [2; 2] false in
  array mem a /\ array mem m /\ shape m = shape a /\ items OC mem a = [0; 16; 8; 24] /\
  true_at (fun v => negb (v =? 408)) mem m = [[0; 0]; [1; 0]; [1; 1]] /\
  exists h' r, getset_bool_get 0 (fun v => negb (v =? 408)) mem a m = Ok (h', r) /\ items OC h' r = [0; 8; 24].
Proof.
  intros a m. split; [repeat split; simpl; auto; repeat constructor; lia|].
  split; [repeat split; simpl; auto; repeat constructor; lia|]. split; [reflexivity|]. split; [reflexivity|].
  split; [reflexivity|]. eexists _, _. split; vm_compute; reflexivity.
Qed.

(** The mask is the array itself, the item has as many elements as there are true values. *)
Example mask_set_ex : let a := mk 0 0 8 [3] false in let x := mk 0 400 8 [2] false in let tr := fun v => negb (v =? 8) in
  array mem a /\ array mem x /\ separate a /\ disjoint a x /\ adjacent x /\ item_fits tr mem a x /\
  exists h', getset_bool_set tr mem a a x = Ok h' /\ items OC h' a = [400; 8; 408].
Proof.
  intros a x tr. split; [repeat split; simpl; auto; repeat constructor; lia|].
  split; [repeat split; simpl; auto; repeat constructor; lia|]. split.
  { intros c d Hc Hd E. apply (f_equal snd) in E. inversion Hc as [|? i ? c1 Hi Hc1]; subst. inversion Hc1; subst.
    inversion Hd as [|? j ? d1 Hj Hd1]; subst. inversion Hd1; subst. cbn -[Z.add Z.mul] in E. f_equal. lia. }
  split.
  { intros c d Hc Hd E. apply (f_equal snd) in E. inversion Hc as [|? i ? c1 Hi Hc1]; subst. inversion Hc1; subst.
    inversion Hd as [|? j ? d1 Hj Hd1]; subst. inversion Hd1; subst. cbn -[Z.add Z.mul] in E. lia. }
  split; [intros n _; reflexivity|]. split; [right; right; reflexivity|].
  eexists. split; vm_compute; reflexivity.
Qed.

Print Assumptions C61_get.
Print Assumptions C61_set_partial.
Print Assumptions C61_scalar_copy_refuted.
Print Assumptions C61_stride_refuted.
Print Assumptions C61_overlap_refuted.
