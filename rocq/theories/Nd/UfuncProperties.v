(** C60: universal functions. *)
From Coq Require Import List ZArith Lia Bool Permutation.
From Verif.Common Require Import Result Int64.
From Verif.Nd Require Import Spec Model Grid Copy Reshape Views IndexModel Index LoopModel Loop LoopAll Properties LoopProperties
  UfuncModel Ufunc.
Import ListNotations.
Local Open Scope Z_scope.

(** No element of [z] lies in the cell of an element of [x] that is combined into
    another element of [z]. *)
Definition apart (z x : nd) : Prop :=
  forall c d, inside (shape z) c -> inside (shape z) d -> ptr z c = ptr x (pick (shape x) d) -> c = d.

(** Does [where] select coordinate [c]? *)
Definition chosen {V} (tr : V -> bool) (h : heap V) (w : where_t) (c : list Z) : bool :=
  match w with
  | WTrue => true
  | WFalse => false
  | WArr wa => tr (item_at h wa (pick (shape wa) c))
  end.

(** A mask must broadcast to the shape of the result. *)
Definition mask_ok {V} (h : heap V) (w : where_t) (sh : list Z) : Prop :=
  match w with WArr wa => array h wa /\ broadcasts [shape wa; sh] sh | _ => True end.
Definition mask_apart (z : nd) (w : where_t) : Prop := match w with WArr wa => apart z wa | _ => True end.

(** [r] is a new array of shape [out] with elements [f c] where selected. *)
Definition new_selected {V} (h h' : heap V) (r : nd) (out : list Z) (sel : list Z -> bool) (f : list Z -> V) : Prop :=
  array h' r /\ blk r = next h /\ shape r = out /\
  (forall c, inside out c -> sel c = true -> item_at h' r c = f c) /\ unchanged h h'.

(** ** Loops over an existing array *)

Section Lemmas.
Context {V : Type} (zero : V).
Local Notation heap := (heap V).

Lemma merge_shape_false ans : forall a r, merge_shape_l true ans a = Ok r -> merge_shape_l false ans a = Ok r.
Proof.
  induction ans as [|y ans IH]; intros [|x a] r E; cbn [merge_shape_l] in *; try assumption; try discriminate.
  destruct (y =? 1).
  - destruct (merge_shape_l true ans a) eqn:M; try discriminate. rewrite (IH _ _ M). exact E.
  - cbn [andb] in *. destruct (negb (x =? 1) && negb (x =? y)); [discriminate|].
    destruct (merge_shape_l true ans a) eqn:M; try discriminate. rewrite (IH _ _ M). exact E.
Qed.

Lemma merge_shapes_false args : forall ans r, merge_shapes_l true ans args = Ok r -> merge_shapes_l false ans args = Ok r.
Proof.
  induction args as [|a args IH]; intros ans r E; cbn [merge_shapes_l] in *; [assumption|].
  destruct (merge_shape_l true ans (rev a)) eqn:M; try discriminate. rewrite (merge_shape_false _ _ _ M). cbn [bind] in *. auto.
Qed.

Lemma unchecked func es a rest (h : heap) h' rs : nd_loop zero func BAll true es (a :: rest) h = Ok (h', rs) ->
  nd_loop zero func BAll false es (a :: rest) h = Ok (h', rs).
Proof.
  unfold nd_loop. destruct (all_contiguous a rest) as [[|] cc]; [auto|]. cbn [broadcast_args]. unfold broadcast_arrays_l, broadcast_shapes_l.
  cbn [map]. intros E. destruct (merge_shapes_l true _ _) eqn:M in E; try discriminate. rewrite (merge_shapes_false _ _ _ M). exact E.
Qed.

Lemma first_old func f check a rest (h : heap) : Forall (array h) (a :: rest) -> separate a ->
  (forall x, In x rest -> broadcasts [shape x; shape a] (shape a) /\ apart a x) ->
  (forall h1 c, inside (shape a) c -> func h1 (ptr a c :: map (fun x => ptr x (pick (shape x) c)) rest) =
     match f (map (load h1) (ptr a c :: map (fun x => ptr x (pick (shape x) c)) rest)) with
     | Some v => store h1 (ptr a c) v | None => h1 end) ->
  exists h', after (nd_loop zero func BFirst check [] (a :: rest) h) = Ok h' /\
    updated h h' a (fun c => match f (map (load h) (ptr a c :: map (fun x => ptr x (pick (shape x) c)) rest)) with
                             | Some v => v | None => item_at h a c end).
Proof.
  intros A Se B Hf. destruct (arrays_wf _ _ A) as [W Bl].
  destruct (loop_first_ok zero func check [] a rest h W) as (h' & rs & R); [constructor|intros; now apply B|].
  exists h'. split; [destruct R as [-> _]; reflexivity|].
  destruct (fill_old zero func f a rest h h' rs BFirst check R Bl Hf Se) as (X1 & X2 & X3).
  - intros x c d Hx. now apply B.
  - split; [assumption|]. split; [exact X2|]. intros p Hp Hc. apply X3; [assumption|]. intros (c & H1 & H2). exact (Hc c H1 H2).
Qed.

Lemma pick_apart z x : shape x = shape z -> apart z x ->
  forall c d, inside (shape z) c -> inside (shape z) d -> ptr z c = ptr x d -> c = d.
Proof. intros S A c d Hc Hd E. apply A; auto. rewrite S, pick_same; auto. Qed.

(** [z] filled by [UnaryUFunc.__call__]. *)
Lemma run1_ok key vec L tr op (h : heap) x z w : array h x -> array h z -> (0 < ndim x)%nat -> 0 < L ->
  separate z -> apart z x -> broadcasts [shape x; shape z] (shape z) -> mask_ok h w (shape z) -> mask_apart z w ->
  (vec = true -> w = WTrue -> shape x = shape z /\ isz x = isz z) ->
  exists h', match w with
             | WTrue => if vec then vectorized_unary key L op h x z else after (nd_loop zero (unary_functor op) BAll false [] [z; x] h)
             | WFalse => Ok h
             | WArr wa => after (nd_loop zero (unary_where tr op) BFirst true [] [z; x; wa] h)
             end = Ok h' /\
    updated h h' z (fun c => if chosen tr h w c then op (item_at h x (pick (shape x) c)) else item_at h z c).
Proof.
  intros Ax Az Nx HL Se Ap Bc Mo Ma Vc. destruct w as [| |wa].
  - destruct vec.
    + destruct (Vc eq_refl eq_refl) as [S I]. apply array_wf in Ax, Az. destruct Ax as [Wx Bx], Az as [Wz Bz].
      assert (Rd : forall c d, inside (shape z) c -> inside (shape z) d -> In (ptr z c) [ptr x d] -> c = d).
      { intros c d Hc Hd [E|[]]. apply (pick_apart z x S Ap c d Hc Hd). auto. }
      destruct (vectorized_unary_ok zero key L op h x z Wx Wz S) as (cs & P & ->); auto.
      { unfold ndim in *. now rewrite <- S. }
      { intros cs P. exact (steps_quiet z (fun c => [ptr x c]) cs P Se Rd). }
      eexists. split; [reflexivity|].
      destruct (steps_filled (fun vs => Some (f1 zero op vs)) h z (fun c => [ptr x c]) cs P Se Rd) as (X1 & X2 & X3).
      split; [exact X1|]. split; [|intros p _; exact (X3 p)]. intros c Hc. cbn [chosen]. rewrite S, pick_same by assumption. exact (X2 c Hc).
    + destruct (loop_old zero (unary_functor op) (fun vs => match vs with [_; v] => op v | _ => zero end) z [x] h)
        as (h' & rs & E & U); auto.
      { now apply broadcasts_swap. }
      { intros y c d [<-|[]]. apply Ap. }
      exists h'. rewrite (unchecked _ _ _ _ _ _ _ E). split; [reflexivity|exact U].
  - exists h. split; [reflexivity|]. split; [reflexivity|]. split; reflexivity.
  - destruct Mo as [Aw Bw]. destruct (first_old (unary_where tr op)
      (fun vs => match vs with [_; v; m] => if tr m then Some (op v) else None | _ => None end) true z [x; wa] h) as (h' & E & U); auto.
    + intros y [<-|[<-|[]]]; auto.
    + intros h1 c _. cbn. destruct (tr _); reflexivity.
    + exists h'. split; [assumption|]. destruct U as (U1 & U2 & U3). split; [assumption|]. split; [|assumption].
      intros c Hc. rewrite U2 by assumption. cbn [map chosen]. unfold item_at. destruct (tr _); reflexivity.
Qed.

(** A new array is apart from old ones. *)
Lemma fresh_apart (h : heap) r x : array h x -> blk r = next h -> apart r x.
Proof. intros A B c d _ _ E. apply array_wf in A. destruct A as [_ A]. apply (f_equal fst) in E. cbn in E. lia. Qed.

Lemma item_kept (h h1 : heap) x c : array h x -> kept h h1 -> item_at h1 x c = item_at h x c.
Proof. intros A [_ K]. apply array_wf in A. apply K. cbn. tauto. Qed.

Lemma array_kept (h h1 : heap) x : array h x -> kept h h1 -> array h1 x.
Proof. intros A [K _]. apply array_wf in A. apply array_wf. split; [tauto|lia]. Qed.

Lemma chosen_kept tr (h h1 : heap) w sh c : mask_ok h w sh -> kept h h1 -> chosen tr h1 w c = chosen tr h w c.
Proof. destruct w as [| |wa]; auto. intros [A _] K. cbn. now rewrite (item_kept h h1). Qed.

Lemma mask_kept (h h1 : heap) w sh : mask_ok h w sh -> kept h h1 -> mask_ok h1 w sh.
Proof. destruct w as [| |wa]; auto. intros [A B] K. split; [now apply (array_kept h)|assumption]. Qed.

Lemma fresh_mask (h : heap) r w sh : mask_ok h w sh -> blk r = next h -> mask_apart r w.
Proof. destruct w as [| |wa]; cbn; auto. intros [A _] B. now apply (fresh_apart h). Qed.

(** Writing a new array keeps the old memory. *)
Lemma updated_kept (h h1 h' : heap) r f : kept h h1 -> blk r = next h -> (next h < next h1)%nat -> updated h1 h' r f -> kept h h'.
Proof.
  intros [K1 K2] B N (U1 & _ & U3). split; [lia|]. intros p Hp. rewrite U3; [now apply K2|lia|].
  intros c _ ->. cbn in Hp. lia.
Qed.

End Lemmas.

Lemma broadcasts_self (s : list Z) : broadcasts [s; s] s.
Proof. apply broadcasts_same; [discriminate|]. intros x [<-|[<-|[]]]; reflexivity. Qed.

(** ** Functions of one argument *)

(** Without [out]: a number for a 0-d array, else a new array of the same shape.  If the
    vectorised loop is used, the result has the type of the argument. *)
Theorem C60_unary {V} (zero : V) vec L tr op e h x w : array h x -> 0 < e -> 0 < L -> (vec = true -> w = WTrue -> isz x = e) ->
  (shape x = [] -> ufunc1 zero vec L tr op e h x None w = Ok (h, inl (op (item_at h x [])))) /\
  (shape x <> [] -> mask_ok h w (shape x) ->
   exists h' r, ufunc1 zero vec L tr op e h x None w = Ok (h', inr r) /\
     new_selected h h' r (shape x) (chosen tr h w) (fun c => op (item_at h x c))).
Proof.
  intros A E HL Vi. unfold ufunc1, ndim. split.
  - intros S. rewrite S. cbn [length Nat.eqb]. unfold item_at, ptr. cbn [dot]. now rewrite Z.add_0_r.
  - intros S M. destruct (Nat.eqb_spec (length (shape x)) 0) as [D|D]; [destruct (shape x); [congruence|discriminate]|].
    cbn [bind]. destruct (empty_like zero e h x) as [h1 r] eqn:Em.
    pose proof A as A'. apply array_wf in A'. destruct A' as [Wx Bx].
    destruct (empty_like_ok zero e h x h1 r Wx E Em) as (N & K & Wr & Br & Sr & Ir & Se). cbn [bind].
    assert (Ar : array h1 r) by (apply array_wf; split; [assumption|lia]).
    destruct (run1_ok zero (fun s => s) vec L tr op h1 x r w) as (h' & Er & U); auto.
    + now apply (array_kept h).
    + unfold ndim. lia.
    + unfold separate. now rewrite Sr.
    + now apply (fresh_apart h).
    + rewrite Sr. apply broadcasts_self.
    + rewrite Sr. now apply (mask_kept h).
    + apply (fresh_mask h r w _ M Br).
    + intros -> ->. split; [congruence|]. rewrite Ir. auto.
    + rewrite Er. cbn [bind]. exists h', r. split; [reflexivity|].
      pose proof (updated_kept h h1 h' r _ K Br ltac:(lia) U) as K'. destruct U as (U1 & U2 & U3).
      split; [apply array_wf; split; [assumption|lia]|]. do 2 (split; [assumption|]). split; [|now apply kept_unchanged].
      intros c Hc Hs. rewrite U2 by now rewrite Sr. rewrite (chosen_kept tr h h1 w _ c M K), Hs, pick_same by assumption.
      now rewrite (item_kept h h1 x c A K).
Qed.

(** With [out].  Partial: a vectorised function needs an argument of the shape of [out],
    see the refutation; [out] must not overlap other elements of the operands. *)
Theorem C60_unary_out_partial {V} (zero : V) vec L tr op e h x z w : array h x -> array h z -> shape x <> [] -> 0 < L ->
  separate z -> apart z x -> mask_ok h w (shape z) -> mask_apart z w ->
  (broadcasts [shape x; shape z] (shape z) -> (vec = true -> w = WTrue -> shape x = shape z /\ isz x = isz z) ->
   exists h', ufunc1 zero vec L tr op e h x (Some z) w = Ok (h', inr z) /\
     updated h h' z (fun c => if chosen tr h w c then op (item_at h x (pick (shape x) c)) else item_at h z c)) /\
  (~ broadcasts [shape x; shape z] (shape z) -> ufunc1 zero vec L tr op e h x (Some z) w = Raise ValueError).
Proof.
  intros Ax Az S HL Se Ap M Ma. unfold ufunc1, ndim.
  destruct (Nat.eqb_spec (length (shape x)) 0) as [D|D]; [destruct (shape x); [congruence|discriminate]|]. split.
  - intros B Vc. destruct (util_broadcast_ok (shape x) (shape z)) as [(out & -> & Bo)|[_ N]]; [|destruct (N _ B)].
    cbn [bind]. rewrite (broadcasts_unique _ _ _ Bo B). rewrite (proj2 (list_eqb_spec _ _) eq_refl). cbn [bind].
    destruct (run1_ok zero (fun s => s) vec L tr op h x z w) as (h' & Er & U); auto; [unfold ndim; lia|].
    rewrite Er. cbn [bind]. exists h'. auto.
  - intros N. destruct (util_broadcast_ok (shape x) (shape z)) as [(out & -> & Bo)|[-> _]]; [|reflexivity]. cbn [bind].
    destruct (list_eqb out (shape z)) eqn:E; [|reflexivity]. apply list_eqb_spec in E. subst. contradiction.
Qed.

(** ** Functions of two arguments *)

(** What the vectorised loops of two operands handle correctly. *)
Definition vector_ok (L : Z) (x y z : nd) : Prop :=
  isz x = isz z /\ isz y = isz z /\ shape z <> [] /\ ~ (shape x = [] /\ shape y = []) /\
  (ndim z = 1%nat -> (shape x = [] \/ shape x = shape z) /\ (shape y = [] \/ shape y = shape z)) /\
  ((shape x = shape z /\ ~ In 0 (strides x)) \/ Forall (fun d => d < 2 * L) (shape z)).

Lemma number_at {V} (h : heap V) x c : array h x -> shape x = [] -> load h (blk x, base x) = item_at h x (pick (shape x) c).
Proof.
  intros A S. unfold item_at, ptr. rewrite S. cbn. now rewrite Z.add_0_r.
Qed.

Lemma run2_ok {V} (zero : V) vec L tr op h x y z w : array h x -> array h y -> array h z -> 0 < L ->
  separate z -> apart z x -> apart z y -> broadcasts [shape x; shape z] (shape z) -> broadcasts [shape y; shape z] (shape z) ->
  mask_ok h w (shape z) -> mask_apart z w -> (vec = true -> w = WTrue -> vector_ok L x y z) ->
  exists h', run2 zero vec L tr op h x y z w = Ok (h', inr z) /\
    updated h h' z (fun c => if chosen tr h w c then op (item_at h x (pick (shape x) c)) (item_at h y (pick (shape y) c)) else item_at h z c).
Proof.
  intros Ax Ay Az HL Se Px Py Bx By M Ma Vc. unfold run2. destruct w as [| |wa].
  - destruct vec.
    + destruct (Vc eq_refl eq_refl) as (Ix & Iy & Sz & Nb & D1 & D2). apply array_wf in Ax, Ay, Az.
      destruct Ax as [Wx _], Ay as [Wy _], Az as [Wz Bz].
      assert (Rd : forall c d, inside (shape z) c -> inside (shape z) d ->
        In (ptr z c) [ptr x (pick (shape x) d); ptr y (pick (shape y) d)] -> c = d).
      { intros c d Hc Hd [E|[E|[]]]; [apply Px|apply Py]; auto. }
      destruct (vectorized_binary_ok zero (fun s => s) L op h x y z Wx Wy Wz) as (cs & P & ->); auto.
      { unfold ndim. destruct (shape z); [congruence|simpl; lia]. }
      { unfold ndim. intros [H1 H2]. apply Nb. split; [destruct (shape x)|destruct (shape y)]; auto; discriminate. }
      { destruct D2 as [[S2 N2]|D2]; [left|now right]. split; [assumption|]. intros k Hk E. destruct N2. rewrite <- E. apply nth_In. rewrite <- S2 in Hk. apply Wx in Hk || (destruct Wx as [Lx _ _]; lia). }
      { intros cs P. exact (steps_quiet z _ cs P Se Rd). }
      cbn [bind]. eexists. split; [reflexivity|].
      destruct (steps_filled (fun vs => Some (f2 zero op vs)) h z _ cs P Se Rd) as (X1 & X2 & X3).
      split; [exact X1|]. split; [exact X2|intros p _; exact (X3 p)].
    + unfold ndim. destruct (Nat.eqb_spec (length (shape x)) 0) as [D|D]; [|destruct (Nat.eqb_spec (length (shape y)) 0) as [D'|D']].
      * assert (S : shape x = []) by (destruct (shape x); [reflexivity|discriminate]).
        destruct (first_old zero (right_scalar_functor op (load h (blk x, base x)))
          (fun vs => match vs with [_; v] => Some (op (load h (blk x, base x)) v) | _ => None end) false z [y] h) as (h' & E & U); auto.
        { intros a [<-|[]]; auto. }
        rewrite E. cbn [bind]. exists h'. split; [reflexivity|]. destruct U as (U1 & U2 & U3). split; [assumption|]. split; [|assumption].
        intros c Hc. rewrite U2 by assumption. cbn [map chosen]. rewrite (number_at h x c Ax S). reflexivity.
      * assert (S : shape y = []) by (destruct (shape y); [reflexivity|discriminate]).
        destruct (first_old zero (scalar_functor op (load h (blk y, base y)))
          (fun vs => match vs with [_; v] => Some (op v (load h (blk y, base y))) | _ => None end) false z [x] h) as (h' & E & U); auto.
        { intros a [<-|[]]; auto. }
        rewrite E. cbn [bind]. exists h'. split; [reflexivity|]. destruct U as (U1 & U2 & U3). split; [assumption|]. split; [|assumption].
        intros c Hc. rewrite U2 by assumption. cbn [map chosen]. rewrite (number_at h y c Ay S). reflexivity.
      * destruct (first_old zero (binary_functor op)
          (fun vs => match vs with [_; u; v] => Some (op u v) | _ => None end) false z [x; y] h) as (h' & E & U); auto.
        { intros a [<-|[<-|[]]]; auto. }
        rewrite E. cbn [bind]. exists h'. split; [reflexivity|]. destruct U as (U1 & U2 & U3). split; [assumption|]. split; [|assumption].
        intros c Hc. rewrite U2 by assumption. reflexivity.
  - exists h. split; [reflexivity|]. split; [reflexivity|]. split; reflexivity.
  - destruct M as [Aw Bw]. destruct (first_old zero (binary_where tr op)
      (fun vs => match vs with [_; u; v; m] => if tr m then Some (op u v) else None | _ => None end) true z [x; y; wa] h) as (h' & E & U); auto.
    + intros a [<-|[<-|[<-|[]]]]; auto.
    + intros h1 c _. cbn. destruct (tr _); reflexivity.
    + rewrite E. cbn [bind]. exists h'. split; [reflexivity|]. destruct U as (U1 & U2 & U3). split; [assumption|]. split; [|assumption].
      intros c Hc. rewrite U2 by assumption. cbn [map chosen]. unfold item_at. destruct (tr _); reflexivity.
Qed.

(** Without [out].  Partial: only for the operands that the vectorised loops handle. *)
Theorem C60_binary_partial {V} (zero : V) vec L tr op e h x y w : array h x -> array h y -> 0 < e -> 0 < L ->
  (shape x = [] -> shape y = [] ->
   ufunc2 zero vec L tr op e h x y None w = Ok (h, inl (op (item_at h x []) (item_at h y [])))) /\
  (forall out, out <> [] -> broadcasts [shape x; shape y] out -> mask_ok h w out ->
   (vec = true -> w = WTrue -> forall r, shape r = out -> isz r = e -> vector_ok L x y r) ->
   exists h' r, ufunc2 zero vec L tr op e h x y None w = Ok (h', inr r) /\
     new_selected h h' r out (chosen tr h w) (fun c => op (item_at h x (pick (shape x) c)) (item_at h y (pick (shape y) c)))) /\
  ((forall out, ~ broadcasts [shape x; shape y] out) -> ufunc2 zero vec L tr op e h x y None w = Raise ValueError).
Proof.
  intros Ax Ay E HL. unfold ufunc2. split; [|split].
  - intros Sx Sy. unfold ndim. rewrite Sx, Sy. cbn [length Nat.eqb andb]. unfold item_at, ptr. cbn [dot]. now rewrite !Z.add_0_r.
  - intros out No B M Vc.
    assert (G : ((ndim x =? 0)%nat && (ndim y =? 0)%nat) = false).
    { unfold ndim. destruct (shape x) eqn:Sx, (shape y) eqn:Sy; try reflexivity. exfalso. apply No.
      destruct B as (_ & (s & [<-|[<-|[]]] & L0) & _); now destruct out. }
    rewrite G. destruct (util_broadcast_ok (shape x) (shape y)) as [(out' & -> & Bo)|[_ N]]; [|destruct (N _ B)].
    rewrite (broadcasts_unique _ _ _ Bo B) in *. clear Bo. cbn [bind]. destruct (alloc zero h) as [h1 b] eqn:A.
    assert (N1 : next h1 = S (next h)) by (unfold alloc in A; injection A as <- _; reflexivity).
    apply alloc_parts in A. destruct A as [-> K].
    set (fc := if (ndim y <=? ndim x)%nat then should_transpose x else should_transpose y). set (r := mk (next h) 0 e out fc).
    assert (Fo : Forall (fun d => 0 <= d) out).
    { apply Forall_forall. intros d Hd. destruct B as (_ & _ & B). apply in_rev in Hd. apply In_nth_error in Hd. destruct Hd as [k Hk].
      destruct (B k d Hk) as [(s & Hs & Es) _]. apply nth_error_In in Es. apply in_rev in Es.
      pose proof (proj1 (array_wf _ _) Ax) as [[_ Fx _] _]. pose proof (proj1 (array_wf _ _) Ay) as [[_ Fy _] _].
      rewrite Forall_forall in Fx, Fy. destruct Hs as [<-|[<-|[]]]; auto. }
    assert (Wr : wf r) by now apply mk_wf.
    destruct (run2_ok zero vec L tr op h1 x y r w) as (h' & Er & U); auto.
    + now apply (array_kept h).
    + now apply (array_kept h).
    + apply array_wf. split; [assumption|cbn; lia].
    + intros c d Hc Hd Ep. unfold ptr in Ep. cbn [r mk blk base strides] in Ep. injection Ep as Ep. apply (mk_inj out fc e); auto.
    + now apply (fresh_apart h).
    + now apply (fresh_apart h).
    + apply (broadcasts_each _ _ (shape x) B). simpl; auto.
    + apply (broadcasts_each _ _ (shape y) B). simpl; auto.
    + now apply (mask_kept h).
    + apply (fresh_mask h r w _ M eq_refl).
    + exists h', r. split; [exact Er|]. pose proof (updated_kept h h1 h' r _ K eq_refl ltac:(lia) U) as K'. destruct U as (U1 & U2 & U3).
      split; [apply array_wf; split; [assumption|cbn; lia]|]. do 2 (split; [reflexivity|]). split; [|now apply kept_unchanged].
      intros c Hc Hs. rewrite U2 by assumption. rewrite (chosen_kept tr h h1 w _ c M K), Hs.
      now rewrite (item_kept h h1 x _ Ax K), (item_kept h h1 y _ Ay K).
  - intros N. assert (G : ((ndim x =? 0)%nat && (ndim y =? 0)%nat) = false).
    { unfold ndim. destruct (shape x) eqn:Sx, (shape y) eqn:Sy; try reflexivity. destruct (N _ (broadcasts_self [])). }
    rewrite G. destruct (util_broadcast_ok (shape x) (shape y)) as [(out & _ & B)|[-> _]]; [destruct (N _ B)|reflexivity].
Qed.

(** With [out].  Partial: also the second operand must broadcast to [out]'s shape, which
    is not checked. *)
Theorem C60_binary_out_partial {V} (zero : V) vec L tr op e h x y z w : array h x -> array h y -> array h z -> 0 < L ->
  separate z -> apart z x -> apart z y -> mask_ok h w (shape z) -> mask_apart z w ->
  (broadcasts [shape x; shape z] (shape z) -> broadcasts [shape y; shape z] (shape z) ->
   (vec = true -> w = WTrue -> vector_ok L x y z) ->
   exists h', ufunc2 zero vec L tr op e h x y (Some z) w = Ok (h', inr z) /\
     updated h h' z (fun c => if chosen tr h w c then op (item_at h x (pick (shape x) c)) (item_at h y (pick (shape y) c)) else item_at h z c)) /\
  (~ broadcasts [shape x; shape z] (shape z) -> ufunc2 zero vec L tr op e h x y (Some z) w = Raise ValueError).
Proof.
  intros Ax Ay Az HL Se Px Py M Ma. unfold ufunc2. split.
  - intros Bx By Vc. destruct (util_broadcast_ok (shape x) (shape z)) as [(out & -> & Bo)|[_ N]]; [|destruct (N _ Bx)].
    cbn [bind]. rewrite (broadcasts_unique _ _ _ Bo Bx). rewrite (proj2 (list_eqb_spec _ _) eq_refl).
    apply run2_ok; auto.
  - intros N. destruct (util_broadcast_ok (shape x) (shape z)) as [(out & -> & Bo)|[-> _]]; [|reflexivity]. cbn [bind].
    destruct (list_eqb out (shape z)) eqn:E; [|reflexivity]. apply list_eqb_spec in E. subst. contradiction.
Qed.

(** A mask that does not broadcast to the result is rejected. *)
Theorem C60_mask {V} (zero : V) vec L tr op e h x z wa : array h x -> array h z -> array h wa -> shape x <> [] ->
  broadcasts [shape x; shape z] (shape z) -> (ndim wa <= ndim z)%nat -> ~ broadcasts [shape wa; shape z] (shape z) ->
  ufunc1 zero vec L tr op e h x (Some z) (WArr wa) = Raise ValueError.
Proof.
  intros Ax Az Aw S B N Nb. unfold ufunc1, ndim.
  destruct (Nat.eqb_spec (length (shape x)) 0) as [D|D]; [destruct (shape x); [congruence|discriminate]|].
  destruct (util_broadcast_ok (shape x) (shape z)) as [(out & -> & Bo)|[_ N']]; [|destruct (N' _ B)].
  cbn [bind]. rewrite (broadcasts_unique _ _ _ Bo B). rewrite (proj2 (list_eqb_spec _ _) eq_refl). cbn [bind].
  destruct (arrays_wf h [z; x; wa]) as [W _]; [auto|].
  rewrite (loop_first_err zero (unary_where tr op) [] z [x; wa] h W); [reflexivity| |].
  - intros a [<-|[<-|[]]]; [apply B; simpl; auto|assumption].
  - exists wa. split; [simpl; auto|assumption].
Qed.

(** ** Examples: element [o] of the memory [mem] is [o]; vectors of two lanes *)

Definition nz (v : Z) : bool := negb (v =? 0).

Example unary_ex : let x := Nd 0 0 8 [2; 2; 3] [24; 96; 8] in array mem x /\ shape x <> [] /\
  exists h' r, ufunc1 0 true 2 nz Z.opp 8 mem x None WTrue = Ok (h', inr r) /\ strides r = [24; 48; 8] /\
    items OC h' r = [0; -8; -16; -96; -104; -112; -24; -32; -40; -120; -128; -136].
Proof.
  intros x. split; [repeat split; simpl; auto; repeat constructor; lia|]. split; [discriminate|].
  eexists _, _. split; [vm_compute; reflexivity|]. vm_compute. auto.
Qed.

Example out_ex : let x := mk 0 8 8 [3] false in let z := mk 1 0 8 [2; 3] false in let w := mk 0 0 8 [2; 1] false in
  let h := Heap 2 (fun b o => if Nat.eqb b 0 then o else 7) in
  array h x /\ array h z /\ mask_ok h (WArr w) (shape z) /\ separate z /\ apart z x /\ mask_apart z (WArr w) /\
  broadcasts [shape x; shape z] (shape z) /\
  exists h', ufunc1 0 false 2 nz Z.opp 8 h x (Some z) (WArr w) = Ok (h', inr z) /\ items OC h' z = [7; 7; 7; -8; -16; -24].
Proof.
  intros x z w h. split; [repeat split; simpl; auto; repeat constructor; lia|].
  split; [repeat split; simpl; auto; repeat constructor; lia|].
  split; [split; [repeat split; simpl; auto; repeat constructor; lia|apply fits_broadcasts; split; [simpl; lia|simpl; repeat constructor; lia]]|].
  split. { intros c d Hc Hd Ep. unfold ptr in Ep. injection Ep as Ep. apply (mk_inj [2; 3] false 8); auto; [repeat constructor; lia|lia]. }
  split; [intros c d _ _ Ep; apply (f_equal fst) in Ep; discriminate|].
  split; [intros c d _ _ Ep; apply (f_equal fst) in Ep; discriminate|].
  split; [apply fits_broadcasts; split; [simpl; lia|simpl; repeat constructor; lia]|].
  eexists. split; vm_compute; reflexivity.
Qed.

Example binary_ufunc_ex : let x := mk 0 0 8 [2; 3] true in let y := mk 0 80 8 [3] false in
  array mem x /\ array mem y /\ broadcasts [shape x; shape y] [2; 3] /\
  (forall r, shape r = [2; 3] -> isz r = 8 -> vector_ok 2 x y r) /\
  exists h' r, ufunc2 0 true 2 nz Z.add 8 mem x y None WTrue = Ok (h', inr r) /\ items OC h' r = [80; 104; 128; 88; 112; 136].
Proof.
  intros x y. split; [repeat split; simpl; auto; repeat constructor; lia|]. split; [repeat split; simpl; auto; repeat constructor; lia|].
  split; [apply broadcasts_swap, fits_broadcasts; split; [simpl; lia|simpl; repeat constructor; lia]|]. split.
  - intros r Sr Ir. unfold vector_ok, ndim. rewrite Sr, Ir. cbn. repeat split; try discriminate; auto.
    + intros [? _]. discriminate.
    + left. split; [reflexivity|]. intuition discriminate.
  - eexists _, _. split; [vm_compute; reflexivity|]. vm_compute. auto.
Qed.

(** ** Refuted *)

(** [np.add(x, y, out=z)] does not check [y]: with shapes (3,), (5,), (3,) the first
    element of [y] is added to every element of [x].  NumPy raises ValueError. *)
Theorem C60_out_shape_refuted :
  let x := mk 0 8 8 [3] false in let y := mk 0 80 8 [5] false in let z := mk 0 160 8 [3] false in
  array mem x /\ array mem y /\ array mem z /\ ~ broadcasts [shape x; shape y] (shape z) /\
  exists h', ufunc2 0 false 2 nz Z.add 8 mem x y (Some z) WTrue = Ok (h', inr z) /\ items OC h' z = [8 + 80; 16 + 80; 24 + 80].
Proof.
  intros x y z. do 3 (split; [repeat split; simpl; auto; repeat constructor; lia|]). split.
  - intros (_ & _ & B). destruct (B O 3 eq_refl) as [_ G]. destruct (G [5] 5); simpl; auto; lia.
  - eexists. split; vm_compute; reflexivity.
Qed.

(** A vectorised function of arrays of shapes (1,) and (2,), such as [np.hypot], reads
    the cell after the first array instead of repeating its element. *)
Theorem C60_vector_broadcast_refuted :
  let x := mk 0 8 8 [1] false in let y := mk 0 80 8 [2] false in
  array mem x /\ array mem y /\ broadcasts [shape x; shape y] [2] /\
  exists h' r, ufunc2 0 true 4 nz Z.add 8 mem x y None WTrue = Ok (h', inr r) /\ shape r = [2] /\
    (forall c, inside [2] c -> item_at mem x (pick (shape x) c) = 8) /\
    items OC h' r = [8 + 80; 16 + 88].
Proof.
  intros x y. do 2 (split; [repeat split; simpl; auto; repeat constructor; lia|]).
  split; [apply fits_broadcasts; split; [simpl; lia|simpl; repeat constructor; lia]|].
  eexists _, _. split; [vm_compute; reflexivity|]. split; [reflexivity|]. split; [|vm_compute; reflexivity].
  intros c Hc. inversion Hc as [|? i ? c1 Hi Hc1]; subst. inversion Hc1; subst. reflexivity.
Qed.

(** A vectorised function with a larger [out], such as [np.exp(x, out=z)] with shapes
    (1, 2) and (2, 2), fills only the first row. *)
Theorem C60_vector_out_refuted :
  let x := mk 0 8 8 [1; 2] false in let z := mk 0 80 8 [2; 2] false in
  array mem x /\ array mem z /\ broadcasts [shape x; shape z] (shape z) /\
  exists h', ufunc1 0 true 4 nz Z.opp 8 mem x (Some z) WTrue = Ok (h', inr z) /\
    items OC mem z = [80; 88; 96; 104] /\ items OC h' z = [-8; -16; 96; 104].
Proof.
  intros x z. do 2 (split; [repeat split; simpl; auto; repeat constructor; lia|]).
  split; [apply fits_broadcasts; split; [simpl; lia|simpl; repeat constructor; lia]|].
  eexists. split; [vm_compute; reflexivity|]. vm_compute. auto.
Qed.

(** A vectorised function of a number and an array, such as [np.hypot(3.0, y)]: from the
    second vector on, the results of the previous vector replace the number.  The same
    happens for a column and a matrix. *)
Theorem C60_vector_scalar_refuted : forall op : Z -> Z -> Z,
  let x := mk 0 800 8 [] false in let y := mk 0 0 8 [4] false in
  array mem x /\ array mem y /\ broadcasts [shape x; shape y] [4] /\
  exists h' r, ufunc2 0 true 2 nz op 8 mem x y None WTrue = Ok (h', inr r) /\
    items OC h' r = [op 800 0; op 800 8; op (op 800 0) 16; op (op 800 8) 24].
Proof.
  intros op x y. do 2 (split; [repeat split; simpl; auto; repeat constructor; lia|]).
  split; [apply fits_broadcasts; split; [simpl; lia|constructor]|].
  eexists _, _. split; [vm_compute; reflexivity|]. vm_compute. auto.
Qed.

Theorem C60_vector_column_refuted : forall op : Z -> Z -> Z,
  let x := mk 0 800 8 [2; 1] false in let y := mk 0 0 8 [2; 4] false in
  array mem x /\ array mem y /\ broadcasts [shape x; shape y] [2; 4] /\
  exists h' r, ufunc2 0 true 2 nz op 8 mem x y None WTrue = Ok (h', inr r) /\
    items OC h' r = [op 800 0; op 800 8; op (op 800 0) 16; op (op 800 8) 24; op 808 32; op 808 40; op (op 808 32) 48; op (op 808 40) 56].
Proof.
  intros op x y. do 2 (split; [repeat split; simpl; auto; repeat constructor; lia|]).
  split; [apply fits_broadcasts; split; [simpl; lia|simpl; repeat constructor; lia]|].
  eexists _, _. split; [vm_compute; reflexivity|]. vm_compute. auto.
Qed.

(** [where] is ignored for a number or 0-d array with [out]. *)
Theorem C60_where_number_refuted :
  let x := mk 0 8 8 [] false in let z := mk 0 80 8 [2] false in
  array mem x /\ array mem z /\
  exists h', ufunc1 0 false 2 nz Z.opp 8 mem x (Some z) WFalse = Ok (h', inr z) /\
    items OC mem z = [80; 88] /\ items OC h' z = [-8; -8].
Proof.
  intros x z. do 2 (split; [repeat split; simpl; auto; repeat constructor; lia|]).
  eexists. split; [vm_compute; reflexivity|]. vm_compute. auto.
Qed.

Print Assumptions C60_unary.
Print Assumptions C60_unary_out_partial.
Print Assumptions C60_binary_partial.
Print Assumptions C60_binary_out_partial.
Print Assumptions C60_mask.
Print Assumptions C60_out_shape_refuted.
Print Assumptions C60_vector_broadcast_refuted.
Print Assumptions C60_vector_out_refuted.
Print Assumptions C60_vector_scalar_refuted.
Print Assumptions C60_vector_column_refuted.
Print Assumptions C60_where_number_refuted.
