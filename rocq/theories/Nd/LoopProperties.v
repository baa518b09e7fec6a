(** C59: element-wise operators of arrays. *)
From Coq Require Import List ZArith Lia Bool Permutation.
From Verif.Common Require Import Result Int64.
From Verif.Nd Require Import Spec Model Grid Copy Reshape Views IndexModel Index LoopModel Loop LoopAll Properties.
Import ListNotations.
Local Open Scope Z_scope.

(** [r] is a new array of shape [out] with elements [f c]; nothing else has changed. *)
Definition new_result {V} (h h' : heap V) (r : nd) (out : list Z) (f : list Z -> V) : Prop :=
  array h' r /\ blk r = next h /\ shape r = out /\
  (forall c, inside out c -> item_at h' r c = f c) /\ unchanged h h'.

(** The elements of an array lie in different cells (not so for broadcast views). *)
Definition separate (a : nd) : Prop :=
  forall c d, inside (shape a) c -> inside (shape a) d -> ptr a c = ptr a d -> c = d.

(** [a]'s elements are now [f c]; nothing else has changed. *)
Definition updated {V} (h h' : heap V) (a : nd) (f : list Z -> V) : Prop :=
  next h' = next h /\ (forall c, inside (shape a) c -> item_at h' a c = f c) /\
  forall p, (fst p < next h)%nat -> (forall c, inside (shape a) c -> p <> ptr a c) -> load h' p = load h p.

Lemma arrays_wf {V} (h : heap V) l : Forall (array h) l -> Forall wf l /\ Forall (fun x => (blk x < next h)%nat) l.
Proof. induction 1 as [|x l A F [I1 I2]]; split; constructor; auto; apply array_wf in A; tauto. Qed.

Lemma loop_new {V} (zero : V) func f e a rest h : Forall (array h) (a :: rest) -> 0 < e ->
  (forall r h1 c, func h1 (ptr r c :: map (fun x => ptr x (pick (shape x) c)) (a :: rest)) =
     store h1 (ptr r c) (f (map (load h1) (map (fun x => ptr x (pick (shape x) c)) (a :: rest))))) ->
  (exists out h' r, broadcasts (map shape (a :: rest)) out /\
     first_result (nd_loop zero func BAll true [e] (a :: rest) h) = Ok (h', r) /\
     new_result h h' r out (fun c => f (map (fun x => item_at h x (pick (shape x) c)) (a :: rest)))) \/
  ((forall out, ~ broadcasts (map shape (a :: rest)) out) /\
   first_result (nd_loop zero func BAll true [e] (a :: rest) h) = Raise ValueError).
Proof.
  intros A E Hf. destruct (arrays_wf _ _ A) as [W B].
  destruct (loop_all_ok zero func [e] a rest h W) as [(out & h' & rs & Bc & Fo & R)|(N & Er)]; [repeat constructor; assumption|left|right].
  - destruct (fill_new zero func f e (a :: rest) h out h' rs BAll true R Hf B) as (r & -> & Wr & Br & Nr & Ir & Sr & K & X).
    exists out, h', r. split; [assumption|]. destruct R as [R _]. rewrite R. split; [reflexivity|].
    split; [apply array_wf; split; [assumption|lia]|]. split; [assumption|]. split; [assumption|].
    split; [|now apply kept_unchanged]. intros c Hc. unfold item_at. rewrite X by assumption. now rewrite map_map.
  - split; [assumption|]. rewrite Er. reflexivity.
Qed.

(** ** Operators with a new result *)

(** [a op b] *)
Theorem C59_binary {V} (zero : V) op e h a b : array h a -> array h b -> 0 < e ->
  (exists out h' r, broadcasts [shape a; shape b] out /\ op_elemwise zero op e h a b = Ok (h', r) /\
     new_result h h' r out (fun c => op (item_at h a (pick (shape a) c)) (item_at h b (pick (shape b) c)))) \/
  ((forall out, ~ broadcasts [shape a; shape b] out) /\ op_elemwise zero op e h a b = Raise ValueError).
Proof.
  intros A B E. apply (loop_new zero (binary_functor op) (fun vs => match vs with [x; y] => op x y | _ => zero end) e a [b] h); auto.
Qed.

(** The reflected operator: [b op a] computed by [a]. *)
Theorem C59_reflected {V} (zero : V) op e h a b : array h a -> array h b -> 0 < e ->
  (exists out h' r, broadcasts [shape a; shape b] out /\ rop_elemwise zero op e h a b = Ok (h', r) /\
     new_result h h' r out (fun c => op (item_at h b (pick (shape b) c)) (item_at h a (pick (shape a) c)))) \/
  ((forall out, ~ broadcasts [shape a; shape b] out) /\ rop_elemwise zero op e h a b = Raise ValueError).
Proof.
  intros A B E. apply (loop_new zero (right_binary_functor op) (fun vs => match vs with [x; y] => op y x | _ => zero end) e a [b] h); auto.
Qed.

Lemma loop_new_1 {V} (zero : V) f e h a : array h a -> 0 < e ->
  exists h' r, op_unary zero f e h a = Ok (h', r) /\ new_result h h' r (shape a) (fun c => f (item_at h a c)).
Proof.
  intros A E. unfold op_unary.
  destruct (loop_new zero (unary_functor f) (fun vs => match vs with [x] => f x | _ => zero end) e a [] h) as [(out & h' & r & Bc & Er & R)|(N & _)]; auto.
  - assert (O : out = shape a).
    { apply (broadcasts_unique [shape a]); [exact Bc|]. apply broadcasts_same; [discriminate|]. intros s [<-|[]]; reflexivity. }
    subst out. exists h', r. split; [assumption|]. destruct R as (R1 & R2 & R3 & R4 & R5).
    do 3 (split; [assumption|]). split; [|assumption]. intros c Hc. rewrite R4 by assumption. cbn [map].
    now rewrite pick_same.
  - exfalso. apply (N (shape a)). apply broadcasts_same; [discriminate|]. intros s [<-|[]]; reflexivity.
Qed.

Theorem C59_unary {V} (zero : V) op e h a : array h a -> 0 < e ->
  exists h' r, op_unary zero op e h a = Ok (h', r) /\ new_result h h' r (shape a) (fun c => op (item_at h a c)).
Proof. apply loop_new_1. Qed.

Theorem C59_scalar {V} (zero : V) op e h a y : array h a -> 0 < e ->
  (exists h' r, op_scalar zero op e h a y = Ok (h', r) /\ new_result h h' r (shape a) (fun c => op (item_at h a c) y)) /\
  (exists h' r, rop_scalar zero op e h a y = Ok (h', r) /\ new_result h h' r (shape a) (fun c => op y (item_at h a c))).
Proof.
  intros A E. split.
  - apply (loop_new_1 zero (fun x => op x y)); assumption.
  - apply (loop_new_1 zero (fun x => op y x)); assumption.
Qed.

(** ** In-place operators *)

Lemma loop_old {V} (zero : V) func f a rest h : Forall (array h) (a :: rest) -> separate a ->
  broadcasts (map shape (a :: rest)) (shape a) ->
  (forall h1 c, inside (shape a) c -> func h1 (ptr a c :: map (fun x => ptr x (pick (shape x) c)) rest) =
     store h1 (ptr a c) (f (map (load h1) (ptr a c :: map (fun x => ptr x (pick (shape x) c)) rest)))) ->
  (forall x c d, In x rest -> inside (shape a) c -> inside (shape a) d -> ptr a c = ptr x (pick (shape x) d) -> c = d) ->
  exists h' rs, nd_loop zero func BAll true [] (a :: rest) h = Ok (h', rs) /\
    updated h h' a (fun c => f (map (load h) (ptr a c :: map (fun x => ptr x (pick (shape x) c)) rest))).
Proof.
  intros A Se Bc Hf Ds. destruct (arrays_wf _ _ A) as [W B].
  destruct (loop_all_ok zero func [] a rest h W) as [(out & h' & rs & Bo & Fo & R)|(N & Er)]; [constructor| |exfalso; exact (N _ Bc)].
  assert (out = shape a) by (eapply broadcasts_unique; eauto). subst out.
  exists h', rs. split; [apply R|].
  destruct (fill_old zero func (fun vs => Some (f vs)) a rest h h' rs BAll true R B Hf Se Ds) as (X1 & X2 & X3).
  split; [assumption|]. split; [exact X2|]. intros p Hp Hc. apply X3; [assumption|].
  intros (c & H1 & H2). exact (Hc c H1 H2).
Qed.

(** [a op= b].  Partial: [b]'s shape must broadcast to [a]'s, and an element of [b] must
    not lie in the cell of another element of [a]; see the two refutations. *)
Theorem C59_inplace_partial {V} (zero : V) op h a b : array h a -> array h b -> separate a ->
  (forall c d, inside (shape a) c -> inside (shape a) d -> ptr a c = ptr b (pick (shape b) d) -> c = d) ->
  (broadcasts [shape a; shape b] (shape a) ->
   exists h', iop_elemwise zero op h a b = Ok h' /\
     updated h h' a (fun c => op (item_at h a c) (item_at h b (pick (shape b) c)))) /\
  ((forall out, ~ broadcasts [shape a; shape b] out) -> iop_elemwise zero op h a b = Raise ValueError).
Proof.
  intros A B Se Ds. split.
  - intros Bc. destruct (loop_old zero (inplace_binary_functor op) (fun vs => match vs with [x; y] => op x y | _ => zero end) a [b] h)
      as (h' & rs & E & U); auto.
    + intros x c d [<-|[]]. apply Ds.
    + exists h'. unfold iop_elemwise. rewrite E. split; [reflexivity|exact U].
  - intros N. unfold iop_elemwise. destruct (arrays_wf h [a; b]) as [W _]; [auto|].
    destruct (loop_all_ok zero (inplace_binary_functor op) [] a [b] h W) as [(out & _ & _ & Bo & _)|(_ & Er)]; [constructor| |].
    + exfalso. exact (N out Bo).
    + rewrite Er. reflexivity.
Qed.

Theorem C59_inplace_unary {V} (zero : V) op h a : array h a -> separate a ->
  exists h', iop_unary zero op h a = Ok h' /\ updated h h' a (fun c => op (item_at h a c)).
Proof.
  intros A Se. destruct (loop_old zero (inplace_unary_functor op) (fun vs => match vs with [x] => op x | _ => zero end) a [] h)
    as (h' & rs & E & U); auto.
  - apply broadcasts_same; [discriminate|]. intros s [<-|[]]; reflexivity.
  - intros x c d [].
  - exists h'. unfold iop_unary. rewrite E. split; [reflexivity|exact U].
Qed.

Theorem C59_inplace_scalar {V} (zero : V) op h a y : array h a -> separate a ->
  exists h', iop_scalar zero op h a y = Ok h' /\ updated h h' a (fun c => op (item_at h a c) y).
Proof. intros A Se. exact (C59_inplace_unary zero (fun x => op x y) h a A Se). Qed.

(** ** Examples: sum of a 2x3 array in Fortran order and a row *)

Example binary_ex :
  let a := mk 0 0 8 [2; 3] true in let b := mk 0 48 8 [3] false in
  array mem a /\ array mem b /\ broadcasts [shape a; shape b] [2; 3] /\
  exists h' r, op_elemwise 0 Z.add 8 mem a b = Ok (h', r) /\ shape r = [2; 3] /\
    items OC mem a = [0; 16; 32; 8; 24; 40] /\ items OC mem b = [48; 56; 64] /\
    items OC h' r = [48; 72; 96; 56; 80; 104] /\ strides r = [8; 16].
Proof.
  intros a b. split; [repeat split; simpl; auto; repeat constructor; lia|].
  split; [repeat split; simpl; auto; repeat constructor; lia|]. split.
  - split; [intros sh [<-|[<-|[]]]; simpl; lia|]. split; [exists (shape a); simpl; auto|]. intros [|[|k]] d E.
    + injection E as <-. split; [exists [3]; simpl; auto|]. intros sh e [<-|[<-|[]]] [= <-]; auto.
    + injection E as <-. split; [exists [2; 3]; simpl; auto|]. intros sh e [<-|[<-|[]]] He; [injection He as <-; auto|discriminate].
    + unfold from_end in E. simpl in E. destruct k; discriminate.
  - eexists _, _. split; [vm_compute; reflexivity|]. split; [reflexivity|]. vm_compute. auto.
Qed.

(** a three-dimensional array whose axes are traversed in another order *)
Example order_ex : exists h' r, op_unary 0 Z.opp 8 mem (Nd 0 0 8 [2; 2; 2] [8; 64; 24]) = Ok (h', r) /\
  strides r = [8; 32; 16] /\
  items OC h' r = [0; -24; -64; -88; -8; -32; -72; -96].
Proof. eexists _, _. split; [vm_compute; reflexivity|]. vm_compute. auto. Qed.

Example inplace_ex : let a := mk 0 0 8 [2; 2] false in let b := mk 0 64 8 [2] false in
  separate a /\ (forall c d, inside (shape a) c -> inside (shape a) d -> ptr a c = ptr b (pick (shape b) d) -> c = d) /\
  exists h', iop_elemwise 0 Z.add mem a b = Ok h' /\ items OC h' a = [64; 80; 80; 96].
Proof.
  intros a b. split.
  { intros c d Hc Hd E. apply (mk_inj [2; 2] false 8 c d); auto; [repeat constructor; lia|lia|].
    unfold ptr in E. simpl in *. injection E as E. exact E. }
  split; [|eexists; split; vm_compute; reflexivity].
  intros c d Hc Hd E. exfalso. apply (f_equal snd) in E.
  inversion Hc as [|? i ? c1 Hi Hc1]; subst. inversion Hc1 as [|? j ? c2 Hj Hc2]; subst. inversion Hc2; subst.
  inversion Hd as [|? k ? d1 Hk Hd1]; subst. inversion Hd1 as [|? m ? d2 Hm Hd2]; subst. inversion Hd2; subst.
  cbn -[Z.add Z.mul] in E. lia.
Qed.

(** ** Refuted *)

(** [a += b] where [b] has more elements than [a] can take: NumPy raises ValueError; here
    all elements of [b] are added to the single element of [a]. *)
Theorem C59_inplace_shape_refuted :
  let a := mk 0 8 8 [1] false in let b := mk 0 16 8 [3] false in
  array mem a /\ array mem b /\ ~ broadcasts [shape a; shape b] (shape a) /\
  exists h', iop_elemwise 0 Z.add mem a b = Ok h' /\ items OC mem a = [8] /\ items OC h' a = [8 + 16 + 24 + 32].
Proof.
  intros a b. split; [repeat split; simpl; auto; repeat constructor; lia|].
  split; [repeat split; simpl; auto; repeat constructor; lia|]. split.
  - intros (_ & _ & H). destruct (H O 1 eq_refl) as [_ H1]. destruct (H1 [3] 3); simpl; auto; lia.
  - eexists. split; [vm_compute; reflexivity|]. vm_compute. auto.
Qed.

(** [a[1:] += a[:-1]] adds up what was already added; NumPy gives [0; 8; 24; 40]. *)
Theorem C59_inplace_overlap_refuted :
  let a := mk 0 0 8 [4] false in let x := Nd 0 8 8 [3] [8] in let y := Nd 0 0 8 [3] [8] in
  array mem x /\ array mem y /\ separate x /\ broadcasts [shape x; shape y] (shape x) /\
  exists h', iop_elemwise 0 Z.add mem x y = Ok h' /\ items OC mem a = [0; 8; 16; 24] /\
    items OC h' a = [0; 8; 24; 48] /\
    map (fun c => item_at mem x c + item_at mem y c) (grid [3]) = [8; 24; 40].
Proof.
  intros a x y. split; [repeat split; simpl; auto; repeat constructor; lia|].
  split; [repeat split; simpl; auto; repeat constructor; lia|]. split.
  { intros c d Hc Hd E. inversion Hc as [|? i ? c1 Hi Hc1]; subst. inversion Hc1; subst.
    inversion Hd as [|? k ? d1 Hk Hd1]; subst. inversion Hd1; subst. apply (f_equal snd) in E. cbn -[Z.add Z.mul] in E. f_equal. lia. }
  split; [apply broadcasts_same; [discriminate|]; intros s [<-|[<-|[]]]; reflexivity|].
  eexists. split; [vm_compute; reflexivity|]. vm_compute. auto.
Qed.

Print Assumptions C59_binary.
Print Assumptions C59_reflected.
Print Assumptions C59_unary.
Print Assumptions C59_scalar.
Print Assumptions C59_inplace_partial.
Print Assumptions C59_inplace_unary.
Print Assumptions C59_inplace_scalar.
Print Assumptions C59_inplace_shape_refuted.
Print Assumptions C59_inplace_overlap_refuted.
