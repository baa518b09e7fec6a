(** C71: array expressions after operator fusion. *)
From Coq Require Import List ZArith Lia Bool Permutation.
From Verif.Common Require Import Result Int64.
From Verif.Nd Require Import Spec Model Grid Copy Reshape Views IndexModel Index LoopModel Loop LoopAll Properties LoopProperties
  UfuncModel Ufunc UfuncProperties FusionModel FusionSpec Fusion FusionProofs.
Import ListNotations.
Local Open Scope Z_scope.

(** The meaning of an expression is unique, and it has one exactly if the shapes of its
    arrays broadcast together. *)
Theorem C71_meaning {V} (szof : nat -> Z) (h : heap V) e : typed szof e -> is_array e = true ->
  (forall sh f sh' f', means h e sh f -> means h e sh' f' -> sh = sh' /\ forall c, f c = f' c) /\
  (forall sh, (exists f, means h e sh f) <-> broadcasts (map (fun x => shape (fst x)) (arrays e)) sh).
Proof.
  intros T A. split; [intros sh f sh' f'; apply means_fun|]. intros sh. pose proof (typed_arrays szof e T A) as NE.
  replace (map (fun x => shape (fst x)) (arrays e)) with (map shape (map fst (arrays e))) by apply map_map. rewrite <- (arrays_shapes e sh NE). split.
  - intros [f M]. eapply means_flat; eauto.
  - apply flat_means.
Qed.

Section Theorems.
Context {V : Type} (zero : V) (L : Z) (szof : nat -> Z).

(** One loop over all arrays. *)
Theorem C71_fused (e : fx) (s : mem) : (forall dt, 0 < szof dt) -> usable s e -> arrays e <> [] ->
  (exists sh f s' r, means (hp s) e sh f /\ fused zero szof e s = Ok (s', OA r) /\ evaluated (V := V) s s' e r sh f) \/
  ((forall sh f, ~ means (hp s) e sh f) /\ fused zero szof e s = Raise ValueError).
Proof.
  intros Z U NE. destruct (fused_any zero szof Z e s U NE) as [(sh & f & s' & r & M & E & (V1 & V2 & V3 & V4) & (S1 & S2 & S3 & S4) & _ & _ & F)|N]; [left|now right].
  exists sh, f, s', r. split; [assumption|]. split; [assumption|]. repeat (split; [assumption|]). now right.
Qed.

(** One loop per operation, reusing temporaries.  Partial: no empty array, and binary functions
    with a vectorised loop only of arrays of one shape ([typed]); see the refutations. *)
Theorem C71_sequential_partial (e : fx) (s : mem) : 0 < L -> (forall dt, 0 < szof dt) -> usable s e -> no_empty e -> typed szof e -> operation e ->
  (exists sh f s' r, means (hp s) e sh f /\ seqeval zero L szof e s = Ok (s', OA r) /\ evaluated (V := V) s s' e r sh f) \/
  ((forall sh f, ~ means (hp s) e sh f) /\ seqeval zero L szof e s = Raise ValueError).
Proof.
  intros HL Z U N T O. assert (R : ready s e) by (apply ready_usable; auto).
  destruct (seq_ok zero L szof HL Z e s R T) as [(sh & f & s' & o & M & E & (Vo & (S1 & S2 & S3 & S4) & P & Q))|G]; [left|now right].
  assert (Fe : freeable e = true) by (destruct e; cbn in *; tauto). destruct o as [r|v]; [|apply freeable_array in Q; congruence].
  destruct Vo as (V1 & V2 & V3 & V4). destruct Q as (_ & Q & _). destruct (Q Fe) as [_ G].
  exists sh, f, s', r. split; [assumption|]. split; [assumption|]. repeat (split; [assumption|]). exact G.
Qed.

(** The optimised program, whatever is fused.  Partial as before. *)
Theorem C71_optimized_partial decide (e : fx) (s : mem) : 0 < L -> (forall dt, 0 < szof dt) -> usable s e -> no_empty e -> typed szof e -> operation e ->
  (exists sh f s' r, means (hp s) e sh f /\ optimized zero L szof decide e s = Ok (s', OA r) /\ evaluated (V := V) s s' e r sh f) \/
  ((forall sh f, ~ means (hp s) e sh f) /\ optimized zero L szof decide e s = Raise ValueError).
Proof.
  intros HL Z U N T O. assert (R : ready s e) by (apply ready_usable; auto).
  destruct (optimized_ok zero L szof HL Z decide e s R T) as [(sh & f & s' & o & M & E & Vo & (S1 & S2 & S3 & S4) & Q)|G]; [left|now right].
  assert (Fe : freeable e = true) by (destruct e; cbn in *; tauto). destruct o as [r|v]; [|apply freeable_array in Q; congruence].
  destruct Vo as (V1 & V2 & V3 & V4).
  exists sh, f, s', r. split; [assumption|]. split; [assumption|]. repeat (split; [assumption|]). exact (Q Fe).
Qed.

(** So all ways to evaluate give the same array, or the same error. *)
Theorem C71_same_partial d1 d2 (e : fx) (s : mem) : 0 < L -> (forall dt, 0 < szof dt) -> usable s e -> no_empty e -> typed szof e -> operation e ->
  (exists s1 r1 s2 r2, optimized zero L szof d1 e s = Ok (s1, OA r1) /\ optimized zero L szof d2 e s = Ok (s2, OA r2) /\
     shape r1 = shape r2 /\ forall c, inside (shape r1) c -> item_at (V := V) (hp s1) r1 c = item_at (hp s2) r2 c) \/
  (optimized zero L szof d1 e s = Raise ValueError /\ optimized zero L szof d2 e s = Raise ValueError).
Proof.
  intros HL Z U N T O.
  destruct (C71_optimized_partial d1 e s HL Z U N T O) as [(sh & f & s1 & r1 & M & E & (_ & S1 & I1 & _))|[H E]];
  destruct (C71_optimized_partial d2 e s HL Z U N T O) as [(sh2 & f2 & s2 & r2 & M2 & E2 & (_ & S2 & I2 & _))|[H2 E2]].
  - left. destruct (means_fun _ _ _ _ _ _ M M2) as [-> F]. exists s1, r1, s2, r2. split; [assumption|]. split; [assumption|]. split; [congruence|].
    rewrite S1. intros c Hc. rewrite I1, I2 by assumption. apply F.
  - destruct (H2 _ _ M).
  - destruct (H _ _ M2).
  - right. auto.
Qed.
End Theorems.

(** ** Witnesses *)

Definition sz8 (_ : nat) : Z := 8.
(** Blocks 0, 1, 2; the cell at offset [o] of block [b] holds [100 * b + o]. *)
Definition start : mem := Mem (Heap 3 (fun b o => 100 * Z.of_nat b + o)) [].
(** [(a + b) * 2 - c] with shapes (2, 3), (3,) and (2, 1), where [c] is a temporary *)
Definition xa := mk 0 0 8 [2; 3] false.
Definition xb := mk 1 0 8 [3] false.
Definition xc := mk 2 0 8 [2; 1] false.
Definition expr : fx := FBin O false Z.sub (FBin O false Z.mul (FBin O false Z.add (FArr O xa false) (FArr O xb false)) (FNum O 2)) (FArr O xc true).

Lemma xc_separate : separate xc.
Proof. intros c d Hc Hd. cbn in Hc, Hd. unfold inside in *. inversion Hc as [|? i ? c' Hi Hc']; subst. inversion Hc' as [|? j ? c'' Hj Hc'']; subst. inversion Hc''; subst.
  inversion Hd as [|? i2 ? d' Hi2 Hd']; subst. inversion Hd' as [|? j2 ? d'' Hj2 Hd'']; subst. inversion Hd''; subst.
  unfold ptr. cbn. intros E. injection E as E. f_equal; [lia|f_equal; lia]. Qed.

Lemma expr_usable : usable start expr.
Proof.
  split; [|split; [|split]].
  - intros a fr H. cbn in H. destruct H as [E|[E|[E|[]]]]; injection E as <- <-; (split; [|split; [intros []|]]);
      try (split; [reflexivity|split; [repeat constructor; lia|split; cbn; lia]]); try discriminate. intros _. apply xc_separate.
  - cbn. constructor; [intros []|constructor].
  - intros a H. cbn in H. destruct H as [E|[E|[E|[]]]]; injection E as <-; try discriminate; cbn; lia.
  - intros b [].
Qed.

Example C71_applies : usable start expr /\ no_empty expr /\ typed sz8 expr /\ operation expr /\
  forall d, In d [CFuse; CCond; CNone] ->
  exists s' r, optimized 0 4 sz8 (fun _ => d) expr start = Ok (s', OA r) /\ shape r = [2; 3] /\
    item_at (hp s') r [1; 2] = (item_at (hp start) xa [1; 2] + item_at (hp start) xb [2]) * 2 - item_at (hp start) xc [1; 0] /\ In 2%nat (freed s').
Proof.
  split; [apply expr_usable|]. split.
  { intros a fr H. cbn in H. destruct H as [E|[E|[E|[]]]]; injection E as <- <-; repeat constructor; lia. }
  split; [cbn; repeat split; auto; discriminate|]. split; [exact I|].
  intros d [<-|[<-|[<-|[]]]]; eexists _, _; (split; [vm_compute; reflexivity|]); vm_compute; repeat split; auto.
Qed.

(** [f(a, -a) + 1], where [f] has a vectorised loop *)
Definition vexpr : fx := FBin O false Z.add (FBin O true Z.sub (FArr O xa false) (FUn O false Z.opp (FArr O xa false))) (FNum O 1).

Lemma xa_separate : separate xa.
Proof. intros c d Hc Hd. cbn in Hc, Hd. unfold inside in *. inversion Hc as [|? i ? c' Hi Hc']; subst. inversion Hc' as [|? j ? c'' Hj Hc'']; subst. inversion Hc''; subst.
  inversion Hd as [|? i2 ? d' Hi2 Hd']; subst. inversion Hd' as [|? j2 ? d'' Hj2 Hd'']; subst. inversion Hd''; subst.
  unfold ptr. cbn. intros E. injection E as E. f_equal; [lia|f_equal; lia]. Qed.

Example C71_applies_vectorized : usable start vexpr /\ no_empty vexpr /\ typed sz8 vexpr /\ operation vexpr /\
  exists s' r, optimized 0 4 sz8 (fun _ => CNone) vexpr start = Ok (s', OA r) /\ shape r = [2; 3] /\
    item_at (hp s') r [1; 2] = item_at (hp start) xa [1; 2] - - item_at (hp start) xa [1; 2] + 1.
Proof.
  split; [split; [|split; [constructor|split; [intros a _ []|intros b []]]]|].
  { intros a fr H. cbn in H. destruct H as [E|[E|[]]]; injection E as <- <-;
    (split; [split; [reflexivity|split; [repeat constructor; lia|split; cbn; lia]]|split; [intros []|discriminate]]). }
  split; [intros a fr H; cbn in H; destruct H as [E|[E|[]]]; injection E as <- <-; repeat constructor; lia|].
  split; [|split; [exact I|eexists _, _; split; [vm_compute; reflexivity|vm_compute; auto]]].
  assert (Un : forall e, arrays e = [(xa, false)] -> uniform (V := Z) [2; 3] e).
  { intros e E a fr H. rewrite E in H. destruct H as [H|[]]. injection H as <- _. split; [reflexivity|apply xa_separate]. }
  cbn. repeat split; auto; try discriminate. exists [2; 3]. split; [discriminate|]. split; apply Un; reflexivity.
Qed.

(** ** Refutations *)

(** With an empty array and one of extent 1 the result has one element, not none:
    [-a + b] with shapes (0,) and (1,). *)
Definition ea := mk 0 0 8 [0] false.
Definition eb := mk 1 0 8 [1] false.
Definition empty_expr : fx := FBin O false Z.add (FUn O false Z.opp (FArr O ea false)) (FArr O eb false).

Theorem C71_empty_refuted : exists (e : fx) (s : mem) f s' r, usable s e /\ typed sz8 e /\ operation e /\ means (hp s) e [0] f /\
  optimized 0 4 sz8 (fun _ => CCond) e s = Ok (s', OA r) /\ shape r = [1].
Proof.
  exists empty_expr, start. eexists. eexists _, _.
  split; [|split; [|split; [exact I|split; [|split; [vm_compute; reflexivity|reflexivity]]]]].
  - split; [|split; [|split]].
    + intros a fr H. cbn in H. destruct H as [E|[E|[]]]; injection E as <- <-; (split; [|split; [intros []|discriminate]]);
      (split; [reflexivity|split; [repeat constructor; lia|split; cbn; lia]]).
    + constructor.
    + intros a _ [].
    + intros b [].
  - cbn. repeat split; auto; discriminate.
  - econstructor; [econstructor; econstructor|econstructor|].
    split; [intros s [<-|[<-|[]]]; cbn; lia|]. split; [exists [0]; cbn; auto|]. intros k d E. destruct k as [|[|k]]; try discriminate. injection E as <-.
    split; [exists [0]; cbn; auto|]. intros s e [<-|[<-|[]]] H; cbn in H; injection H as <-; auto.
Qed.

(** A function of two arrays with a vectorised loop reads past an array of extent 1:
    [f(a, b) + 1] with shapes (1,) and (3,), where the result at 1 should be [f(a[0], b[1]) + 1]. *)
Definition va := mk 0 0 8 [1] false.
Definition vb := mk 1 0 8 [3] false.
Definition vec_expr : fx := FBin O false Z.add (FBin O true Z.add (FArr O va false) (FArr O vb false)) (FNum O 1).

Theorem C71_vectorized_refuted : exists (e : fx) (s : mem) f s' r, usable s e /\ no_empty e /\ operation e /\ means (hp s) e [3] f /\
  optimized 0 4 sz8 (fun _ => CCond) e s = Ok (s', OA r) /\ shape r = [3] /\ item_at (hp s') r [1] <> f [1].
Proof.
  exists vec_expr, start. eexists. eexists _, _.
  split; [|split; [|split; [exact I|split; [|split; [vm_compute; reflexivity|split; [reflexivity|]]]]]].
  - split; [|split; [|split]].
    + intros a fr H. cbn in H. destruct H as [E|[E|[]]]; injection E as <- <-; (split; [|split; [intros []|discriminate]]);
      (split; [reflexivity|split; [repeat constructor; lia|split; cbn; lia]]).
    + constructor.
    + intros a _ [].
    + intros b [].
  - intros a fr H. cbn in H. destruct H as [E|[E|[]]]; injection E as <- <-; repeat constructor; lia.
  - econstructor; [econstructor; [econstructor|econstructor|]|econstructor|].
    + instantiate (1 := [3]). split; [intros s [<-|[<-|[]]]; cbn; lia|]. split; [exists [3]; cbn; auto|]. intros k d E.
      destruct k as [|[|k]]; try discriminate. injection E as <-.
      split; [exists [3]; cbn; auto|]. intros s e [<-|[<-|[]]] H; cbn in H; injection H as <-; auto.
    + split; [intros s [<-|[<-|[]]]; cbn; lia|]. split; [exists [3]; cbn; auto|]. intros k d E. destruct k as [|[|k]]; try discriminate. injection E as <-.
      split; [exists [3]; cbn; auto|]. intros s e [<-|[<-|[]]] H; cbn in H; [injection H as <-; auto|discriminate].
  - vm_compute. discriminate.
Qed.

Print Assumptions C71_meaning.
Print Assumptions C71_fused.
Print Assumptions C71_sequential_partial.
Print Assumptions C71_optimized_partial.
Print Assumptions C71_same_partial.
Print Assumptions C71_empty_refuted.
Print Assumptions C71_vectorized_refuted.
