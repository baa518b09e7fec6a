(** Proofs about the evaluation of fused array expressions. *)
From Coq Require Import List ZArith Lia Bool Permutation.
From Verif.Common Require Import Result Int64.
From Verif.Nd Require Import Spec Model Grid Copy Reshape Views IndexModel Index LoopModel Loop LoopAll Properties LoopProperties
  UfuncModel Ufunc UfuncProperties FusionModel FusionSpec Fusion.
Import ListNotations.
Local Open Scope Z_scope.

Section Proofs.
Context {V : Type} (zero : V) (L : Z) (szof : nat -> Z).
Context (L_pos : 0 < L) (szof_pos : forall dt, 0 < szof dt).
Local Notation heap := (heap V).
Local Notation mem := (mem (V := V)).
Local Notation fx := (fx (V := V)).
Local Notation ov := (ov (V := V)).

(** Usable and without empty arrays. *)
Definition ready (s : mem) (e : fx) : Prop :=
  (forall a fr, In (a, fr) (arrays e) -> array (hp s) a /\ Forall (fun d => 0 < d) (shape a) /\ ~ In (blk a) (freed s) /\
     (fr = true -> separate a)) /\
  NoDup (owned e) /\ (forall a, In (a, false) (arrays e) -> ~ In (blk a) (owned e)) /\
  forall b, In b (freed s) -> (b < next (hp s))%nat.

Lemma ready_usable s e : ready s e <-> usable s e /\ no_empty e.
Proof.
  split.
  - intros (R1 & R2). split; [split; [|exact R2]|]; intros a fr I; destruct (R1 a fr I) as (? & ? & ? & ?); auto.
  - intros [(U1 & U2) N]. split; [|exact U2]. intros a fr I. destruct (U1 a fr I) as (? & ? & ?). specialize (N a fr I). auto.
Qed.

(** ** Meanings *)

Lemma means_un_inv h dt vec op (l : fx) sh g : means h (FUn dt vec op l) sh g ->
  exists f, means h l sh f /\ forall c, g c = op (f c).
Proof. inversion 1; subst; eauto. Qed.
Lemma means_bin_inv h dt vec op (l r : fx) sh g : means h (FBin dt vec op l r) sh g ->
  exists s1 f1 s2 f2, means h l s1 f1 /\ means h r s2 f2 /\ broadcasts [s1; s2] sh /\
    forall c, g c = op (f1 (pick s1 c)) (f2 (pick s2 c)).
Proof. inversion 1; subst. do 4 eexists. eauto. Qed.

Lemma means_fun h (e : fx) : forall sh f sh' f', means h e sh f -> means h e sh' f' -> sh = sh' /\ forall c, f c = f' c.
Proof.
  induction e as [dt a fr|dt v|dt vec op l IH|dt vec op l IHl r IHr]; intros sh f sh' f' M M'.
  - inversion M; inversion M'; subst; auto.
  - inversion M; inversion M'; subst; auto.
  - apply means_un_inv in M, M'. destruct M as (g & M & E), M' as (g' & M' & E'). destruct (IH _ _ _ _ M M') as [-> G].
    split; [reflexivity|]. intros c. now rewrite E, E', G.
  - apply means_bin_inv in M, M'. destruct M as (s1 & f1 & s2 & f2 & M1 & M2 & B & E), M' as (s1' & f1' & s2' & f2' & M1' & M2' & B' & E').
    destruct (IHl _ _ _ _ M1 M1') as [-> G1]. destruct (IHr _ _ _ _ M2 M2') as [-> G2].
    split; [eapply broadcasts_unique; eauto|]. intros c. now rewrite E, E', G1, G2.
Qed.

Lemma means_ndims h (e : fx) sh f : means h e sh f -> length sh = ndims e.
Proof.
  induction 1 as [| | |dt vec op l r s1 f1 s2 f2 sh M1 IH1 M2 IH2 B]; cbn [ndims]; auto.
  rewrite <- IH1, <- IH2. destruct B as (B1 & (s & [<-|[<-|[]]] & E) & _).
  - pose proof (B1 s2 (or_intror (or_introl eq_refl))). lia.
  - pose proof (B1 s1 (or_introl eq_refl)). lia.
Qed.

Lemma means_mem h h' (e : fx) sh f : (forall a fr p, In (a, fr) (arrays e) -> fst p = blk a -> load h' p = load h p) ->
  means h e sh f -> exists f', means h' e sh f' /\ forall c, f' c = f c.
Proof.
  intros H M. induction M as [dt a fr|dt v|dt vec op l sh f M IH|dt vec op l r s1 f1 s2 f2 sh M1 IH1 M2 IH2 B]; cbn [arrays] in H.
  - eexists. split; [constructor|]. intros c. apply (H a fr); [simpl; auto|reflexivity].
  - eexists. split; [constructor|]. reflexivity.
  - destruct (IH H) as (f' & M' & E). eexists. split; [constructor; exact M'|]. intros c. cbn. now rewrite E.
  - destruct IH1 as (f1' & M1' & E1); [intros; eapply H; eauto; apply in_or_app; eauto|].
    destruct IH2 as (f2' & M2' & E2); [intros; eapply H; eauto; apply in_or_app; eauto|].
    eexists. split; [econstructor; eauto|]. intros c. cbn. now rewrite E1, E2.
Qed.

(** ** Memory *)

(** From [s] to [s'] only the blocks [O] and new ones were written or freed. *)
Definition step (O : list nat) (s s' : mem) : Prop :=
  (next (hp s) <= next (hp s'))%nat /\
  (forall p, (fst p < next (hp s))%nat -> ~ In (fst p) O -> load (hp s') p = load (hp s) p) /\
  (forall b, (b < next (hp s))%nat -> ~ In b O -> In b (freed s') -> In b (freed s)) /\
  (forall b, In b (freed s') -> (b < next (hp s'))%nat).

Lemma step_trans O O1 O2 s1 s2 s3 : step O1 s1 s2 -> step O2 s2 s3 -> incl O1 O ->
  (forall b, In b O2 -> (b < next (hp s1))%nat -> In b O) -> step O s1 s3.
Proof.
  intros (A1 & A2 & A3 & A4) (B1 & B2 & B3 & B4) I1 I2. split; [lia|]. split; [|split; [|assumption]].
  - intros p Hp N. rewrite B2; [apply A2; [assumption|intros H; apply N, I1, H]|lia|]. intros H. apply N. eauto.
  - intros b Hb N F. apply A3; [assumption|intros H; apply N, I1, H|]. apply B3; [lia| |assumption]. intros H. apply N. eauto.
Qed.

Lemma step_refl O s : (forall b, In b (freed s) -> (b < next (hp s))%nat) -> step O s s.
Proof. intros H. repeat split; auto. Qed.

Lemma ready_step O s s' (e : fx) : ready s e -> step O s s' -> (forall a fr, In (a, fr) (arrays e) -> ~ In (blk a) O) -> ready s' e.
Proof.
  intros (U1 & U2 & U3 & U4) (S1 & S2 & S3 & S4) D. split; [|auto]. intros a fr I. destruct (U1 a fr I) as (A & P & F & Se).
  pose proof A as (A1 & A2 & A3 & A4). split; [repeat split; auto; lia|]. split; [assumption|]. split; [|assumption]. intros Fr. apply F.
  apply S3; eauto.
Qed.

Lemma means_step O s s' (e : fx) sh f : ready s e -> step O s s' -> (forall a fr, In (a, fr) (arrays e) -> ~ In (blk a) O) ->
  means (hp s) e sh f -> exists f', means (hp s') e sh f' /\ forall c, f' c = f c.
Proof.
  intros (U1 & _) (_ & S2 & _) D. apply means_mem. intros a fr p I E. destruct (U1 a fr I) as ((_ & _ & _ & B) & _).
  apply S2; rewrite E; eauto.
Qed.

Lemma means_step_back O s s' (e : fx) sh f : ready s e -> step O s s' -> (forall a fr, In (a, fr) (arrays e) -> ~ In (blk a) O) ->
  means (hp s') e sh f -> exists f', means (hp s) e sh f' /\ forall c, f' c = f c.
Proof.
  intros (U1 & _) (_ & S2 & _) D. apply means_mem. intros a fr p I E. destruct (U1 a fr I) as ((_ & _ & _ & B) & _).
  symmetry. apply S2; rewrite E; eauto.
Qed.

(** ** Owned blocks *)

Lemma owned_in (e : fx) a : In (a, true) (arrays e) -> In (blk a) (owned e).
Proof. intros H. unfold owned. apply in_map_iff. exists (a, true). split; [reflexivity|]. now apply filter_In. Qed.

Lemma owned_out (e : fx) b : In b (owned e) -> exists a, In (a, true) (arrays e) /\ blk a = b.
Proof.
  unfold owned. intros H. apply in_map_iff in H. destruct H as ([a fr] & <- & H). apply filter_In in H. destruct H as [H E]. cbn in E. subst fr. eauto.
Qed.

Lemma owned_next s (e : fx) b : ready s e -> In b (owned e) -> (b < next (hp s))%nat.
Proof. intros (U & _) H. apply owned_out in H. destruct H as (a & I & <-). destruct (U a true I) as ((_ & _ & _ & A) & _). exact A. Qed.

Lemma owned_bin dt vec op (l r : fx) : owned (FBin dt vec op l r) = owned l ++ owned r.
Proof. unfold owned. cbn [arrays]. now rewrite filter_app, map_app. Qed.

Lemma NoDup_parts {A} (l r : list A) : NoDup (l ++ r) -> NoDup l /\ NoDup r /\ forall x, In x l -> ~ In x r.
Proof.
  induction l as [|x l IH]; cbn; [intros H; repeat split; auto; constructor|]. intros H. inversion H; subst. destruct (IH H3) as (N1 & N2 & N3).
  split; [constructor; auto; intros I; apply H2, in_or_app; auto|]. split; [assumption|]. intros y [<-|Hy]; [|auto]. intros I. apply H2, in_or_app. auto.
Qed.

(** The operands of a binary operation do not use each other's temporaries. *)
Lemma ready_bin s dt vec op (l r : fx) : ready s (FBin dt vec op l r) ->
  ready s l /\ ready s r /\ (forall a fr, In (a, fr) (arrays l) -> ~ In (blk a) (owned r)) /\
  (forall a fr, In (a, fr) (arrays r) -> ~ In (blk a) (owned l)).
Proof.
  intros (U1 & U2 & U3 & U4). rewrite owned_bin in *. cbn [arrays] in *. apply NoDup_parts in U2. destruct U2 as (N1 & N2 & N3).
  assert (X : forall a fr, In (a, fr) (arrays l) -> ~ In (blk a) (owned r)).
  { intros a [|] I O; [apply (N3 (blk a)); [now apply owned_in|assumption]|].
    apply (U3 a); apply in_or_app; auto. }
  assert (Y : forall a fr, In (a, fr) (arrays r) -> ~ In (blk a) (owned l)).
  { intros a [|] I O; [apply (N3 (blk a)); [assumption|now apply owned_in]|].
    apply (U3 a); apply in_or_app; auto. }
  split; [|split; [|auto]]; (split; [intros a fr I; apply (U1 a fr), in_or_app; auto|]; split; [assumption|]; split; [|assumption]);
    intros a I O; apply (U3 a); apply in_or_app; auto.
Qed.

(** ** One operation *)

Definition val (s : mem) (o : ov) (sh : list Z) (f : list Z -> V) : Prop :=
  match o with
  | OA a => array (hp s) a /\ shape a = sh /\ ~ In (blk a) (freed s) /\ forall c, inside sh c -> item_at (hp s) a c = f c
  | ON v => sh = [] /\ forall c, f c = v
  end.

Lemma live_ok (s : mem) a : ~ In (blk a) (freed s) -> live s a = true.
Proof.
  intros N. unfold live. apply negb_true_iff. destruct (existsb _ _) eqn:E; [|reflexivity]. exfalso. apply existsb_exists in E.
  destruct E as (b & I & E). apply Nat.eqb_eq in E. subst b. auto.
Qed.

Lemma touch_ok {A} (s : mem) l (k : res A) : (forall a, In a l -> ~ In (blk a) (freed s)) -> touch s l k = k.
Proof.
  intros H. unfold touch. replace (forallb (live s) l) with true; [reflexivity|]. symmetry. apply forallb_forall. intros a I. apply live_ok. auto.
Qed.

Lemma apart_or r x : separate r -> fits (shape x) (shape r) -> x = r \/ blk x <> blk r -> apart r x.
Proof.
  intros Se F [->|N] c d Hc Hd E.
  - rewrite pick_same in E by assumption. now apply Se.
  - apply (f_equal fst) in E. cbn in E. congruence.
Qed.

Lemma all_old func f r rest (h : heap) : Forall (array h) (r :: rest) -> separate r ->
  (forall x, In x rest -> fits (shape x) (shape r) /\ (x = r \/ blk x <> blk r)) ->
  (forall h1 c, inside (shape r) c -> func h1 (ptr r c :: map (fun x => ptr x (pick (shape x) c)) rest) =
     store h1 (ptr r c) (f (map (load h1) (ptr r c :: map (fun x => ptr x (pick (shape x) c)) rest)))) ->
  exists h', after (nd_loop zero func BAll true [] (r :: rest) h) = Ok h' /\
    updated h h' r (fun c => f (map (load h) (ptr r c :: map (fun x => ptr x (pick (shape x) c)) rest))).
Proof.
  intros A Se B Hf. destruct (loop_old zero func f r rest h) as (h' & rs & E & U); auto.
  - cbn [map]. apply broadcasts_to. intros s Hs. apply in_map_iff in Hs. destruct Hs as (x & <- & Hx). now apply B.
  - intros x c d Hx Hc Hd. destruct (B x Hx) as [Fx Ox]. exact (apart_or r x Se Fx Ox c d Hc Hd).
  - exists h'. rewrite E. split; [reflexivity|exact U].
Qed.

Lemma updated_ext (h h' : heap) a f g : (forall c, inside (shape a) c -> f c = g c) -> updated h h' a f -> updated h h' a g.
Proof. intros E (U1 & U2 & U3). split; [assumption|]. split; [|assumption]. intros c Hc. rewrite U2 by assumption. auto. Qed.

Definition is_res (r : nd) (o : ov) : Prop := match o with OA a => a = r \/ blk a <> blk r | ON _ => True end.
Definition in_place (w : reuse) (r : nd) (x y : ov) : Prop :=
  match w with RLeft => x = OA r | RRight => y = OA r | RNone => True end.
Definition one_array (x y : ov) : Prop := match x, y with ON _, ON _ => False | _, _ => True end.

(** What a vectorised loop over two arrays needs. *)
Definition vec_args (vec : bool) (x y : ov) (r : nd) : Prop :=
  vec = true -> exists a b, x = OA a /\ y = OA b /\ shape a = shape r /\ shape b = shape r /\ isz a = isz r /\ isz b = isz r /\ separate a /\ shape r <> [].

Lemma zeros_inside sh : Forall (fun d => 0 < d) sh -> inside sh (repeat 0 (length sh)).
Proof. clear. unfold inside. induction 1; cbn [length repeat]; constructor; auto; lia. Qed.

Lemma dot_zero_axis n : forall st k, nth k st 0 = 0 -> (k < n)%nat ->
  dot (repeat 0 n) st = dot (firstn k (repeat 0 n) ++ 1 :: skipn (S k) (repeat 0 n)) st.
Proof.
  clear. induction n as [|n IH]; intros [|s st] k E Hk; try lia; [destruct k; reflexivity|]. destruct k as [|k].
  - cbn in *. subst. lia.
  - specialize (IH st k E ltac:(lia)). cbn [repeat firstn app dot]. change (skipn (S (S k)) (0 :: repeat 0 n)) with (skipn (S k) (repeat 0 n)). now rewrite IH.
Qed.

Lemma separate_stride a k : Forall (fun d => 0 < d) (shape a) -> length (strides a) = length (shape a) -> separate a ->
  (k < length (shape a))%nat -> nth k (strides a) 0 = 0 -> nth k (shape a) 0 < 2.
Proof.
  clear. intros P Ls Se Hk E. destruct (Z.lt_ge_cases (nth k (shape a) 0) 2) as [|G]; [assumption|]. exfalso.
  set (c := repeat 0 (length (shape a))). set (d := firstn k c ++ 1 :: skipn (S k) c).
  assert (Ic : inside (shape a) c).
  { apply zeros_inside. exact P. }
  assert (Id : inside (shape a) d).
  { unfold d, c. clear -P Hk G. revert k Hk G. induction (shape a) as [|n sh IH]; intros k Hk G; [simpl in Hk; lia|]. inversion P; subst.
    destruct k as [|k]; cbn [length repeat firstn skipn app nth] in *.
    - constructor; [lia|]. now apply zeros_inside.
    - constructor; [lia|]. apply IH; auto. lia. }
  assert (Ep : ptr a c = ptr a d).
  { unfold ptr. f_equal. f_equal. now apply dot_zero_axis. }
  specialize (Se _ _ Ic Id Ep). assert (X : nth k c 0 = nth k d 0) by congruence.
  unfold d in X. rewrite app_nth2 in X; rewrite firstn_length in *; unfold c in X; rewrite ?repeat_length in *; [|lia].
  rewrite Nat.min_l, Nat.sub_diag in X by lia. cbn in X. rewrite nth_repeat in X. discriminate.
Qed.

Lemma run_bin_ok vec w op r x y s s1 f1 s2 f2 : vec_args vec x y r -> Forall (fun d => 0 < d) (shape r) -> 
  array (hp s) r -> separate r -> ~ In (blk r) (freed s) ->
  broadcasts [s1; s2] (shape r) -> val s x s1 f1 -> val s y s2 f2 -> one_array x y -> is_res r x -> is_res r y -> in_place w r x y ->
  exists h', run_bin zero L vec w op r x y s = Ok (Mem h' (freed s)) /\
    updated (hp s) h' r (fun c => op (f1 (pick s1 c)) (f2 (pick s2 c))).
Proof.
  intros Va Pr Ar Se Fr B Vx Vy One Rx Ry W.
  pose proof (broadcasts_fits _ _ s1 B (or_introl eq_refl)) as F1. pose proof (broadcasts_fits _ _ s2 B (or_intror (or_introl eq_refl))) as F2.
  destruct x as [a|v], y as [b|u]; cbn [val is_res run_bin] in *; try contradiction.
  - destruct Vx as (Aa & <- & Fa & Ia), Vy as (Ab & <- & Fb & Ib).
    rewrite touch_ok by (intros z [<-|[<-|[<-|[]]]]; assumption). unfold with_hp.
    assert (X : forall c, inside (shape r) c -> op (item_at (hp s) a (pick (shape a) c)) (item_at (hp s) b (pick (shape b) c)) = op (f1 (pick (shape a) c)) (f2 (pick (shape b) c))).
    { intros c Hc. rewrite Ia, Ib by (eapply inside_pick; eauto). reflexivity. }
    destruct vec.
    { destruct (Va eq_refl) as (a' & b' & E1 & E2 & S1 & S2 & I1 & I2 & Sa & Nr). injection E1 as <-. injection E2 as <-.
      apply array_wf in Aa, Ab, Ar. destruct Aa as [Wa _], Ab as [Wb _], Ar as [Wr Br].
      assert (Rd : forall c d, inside (shape r) c -> inside (shape r) d -> In (ptr r c) [ptr a (pick (shape a) d); ptr b (pick (shape b) d)] -> c = d).
      { intros c d Hc Hd [E|[E|[]]]; [exact (apart_or r a Se F1 Rx c d Hc Hd (eq_sym E))|exact (apart_or r b Se F2 Ry c d Hc Hd (eq_sym E))]. }
      destruct (vectorized_binary_ok zero Z.abs L op (hp s) a b r Wa Wb Wr) as (cs & P & ->); auto.
      { unfold ndim. destruct (shape r); [congruence|simpl; lia]. }
      { unfold ndim. rewrite S1. intros [H _]. destruct (shape r); [congruence|discriminate]. }
      { rewrite S1. apply broadcasts_self. }
      { rewrite S2. apply broadcasts_self. }
      { intros _. split; right; assumption. }
      { left. split; [assumption|]. intros k Hk E. rewrite <- S1 in Hk, Pr |- *. destruct Wa as [La _ _].
        pose proof (separate_stride a k Pr La Sa Hk E). lia. }
      { intros cs P. exact (steps_quiet r _ cs P Se Rd). }
      cbn [bind]. eexists. split; [reflexivity|].
      destruct (steps_filled (fun vs => Some (Ufunc.f2 zero op vs)) (hp s) r _ cs P Se Rd) as (X1 & X2 & X3).
      split; [exact X1|]. split; [|intros p _; exact (X3 p)]. intros c Hc. etransitivity; [exact (X2 c Hc)|]. cbn. exact (X c Hc). }
    destruct w; cbn [in_place] in W.
    + injection W as ->. destruct (all_old (inplace_binary_functor op) (fun vs => match vs with [x; y] => op x y | _ => zero end) r [b] (hp s))
        as (h' & -> & U); auto; [intros z [<-|[]]; auto|]. exists h'. split; [reflexivity|]. eapply updated_ext; [|exact U]. intros c Hc.
      rewrite <- X by assumption. cbn [map]. now rewrite (pick_same (shape r)) by assumption.
    + injection W as ->. destruct (all_old (right_inplace op) (fun vs => match vs with [y; x] => op x y | _ => zero end) r [a] (hp s))
        as (h' & -> & U); auto; [intros z [<-|[]]; auto|]. exists h'. split; [reflexivity|]. eapply updated_ext; [|exact U]. intros c Hc.
      rewrite <- X by assumption. cbn [map]. now rewrite (pick_same (shape r)).
    + destruct (all_old (binary_functor op) (fun vs => match vs with [_; x; y] => op x y | _ => zero end) r [a; b] (hp s))
        as (h' & -> & U); auto; [intros z [<-|[<-|[]]]; auto|]. exists h'. split; [reflexivity|]. eapply updated_ext; [|exact U]. intros c Hc.
      rewrite <- X by assumption. reflexivity.
  - destruct Vx as (Aa & <- & Fa & Ia), Vy as (-> & Iu).
    rewrite touch_ok by (intros z [<-|[<-|[]]]; assumption). unfold with_hp.
    assert (X : forall c, inside (shape r) c -> op (item_at (hp s) a (pick (shape a) c)) u = op (f1 (pick (shape a) c)) (f2 (pick [] c))).
    { intros c Hc. rewrite Ia by (eapply inside_pick; eauto). now rewrite Iu. }
    assert (G : exists h', after (nd_loop zero (scalar_functor op u) BAll true [] [r; a] (hp s)) = Ok h' /\
      updated (hp s) h' r (fun c => op (f1 (pick (shape a) c)) (f2 (pick [] c)))).
    { destruct (all_old (scalar_functor op u) (fun vs => match vs with [_; x] => op x u | _ => zero end) r [a] (hp s))
        as (h' & -> & U); auto; [intros z [<-|[]]; auto|]. exists h'. split; [reflexivity|]. eapply updated_ext; [|exact U]. intros c Hc.
      rewrite <- X by assumption. reflexivity. }
    destruct w; cbn [in_place] in W.
    + injection W as ->. destruct (all_old (inplace_scalar_functor op u) (fun vs => match vs with [x] => op x u | _ => zero end) r [] (hp s))
        as (h' & -> & U); auto; [intros z []|]. exists h'. split; [reflexivity|]. eapply updated_ext; [|exact U]. intros c Hc.
      rewrite <- X by assumption. cbn [map]. now rewrite (pick_same (shape r)) by assumption.
    + discriminate.
    + destruct G as (h' & -> & U). exists h'. auto.
  - destruct Vx as (-> & Iv), Vy as (Ab & <- & Fb & Ib).
    rewrite touch_ok by (intros z [<-|[<-|[]]]; assumption). unfold with_hp.
    assert (X : forall c, inside (shape r) c -> op v (item_at (hp s) b (pick (shape b) c)) = op (f1 (pick [] c)) (f2 (pick (shape b) c))).
    { intros c Hc. rewrite Ib by (eapply inside_pick; eauto). now rewrite Iv. }
    assert (G : exists h', after (nd_loop zero (right_scalar_functor op v) BAll true [] [r; b] (hp s)) = Ok h' /\
      updated (hp s) h' r (fun c => op (f1 (pick [] c)) (f2 (pick (shape b) c)))).
    { destruct (all_old (right_scalar_functor op v) (fun vs => match vs with [_; x] => op v x | _ => zero end) r [b] (hp s))
        as (h' & -> & U); auto; [intros z [<-|[]]; auto|]. exists h'. split; [reflexivity|]. eapply updated_ext; [|exact U]. intros c Hc.
      rewrite <- X by assumption. reflexivity. }
    destruct w; cbn [in_place] in W.
    + discriminate.
    + injection W as ->. destruct (all_old (inplace_unary_functor (fun x => op v x)) (fun vs => match vs with [x] => op v x | _ => zero end) r [] (hp s))
        as (h' & -> & U); auto; [intros z []|]. exists h'. split; [reflexivity|]. eapply updated_ext; [|exact U]. intros c Hc.
      rewrite <- X by assumption. cbn [map]. now rewrite (pick_same (shape r)) by assumption.
    + destruct G as (h' & -> & U). exists h'. auto.
Qed.

Lemma run_un_ok vec w op r a s f : array (hp s) r -> separate r -> ~ In (blk r) (freed s) -> val s (OA a) (shape r) f ->
  a = r \/ blk a <> blk r -> (w <> RNone -> a = r) -> (vec = true -> isz a = isz r /\ (0 < ndim a)%nat) ->
  exists h', run_un zero L vec w op r a s = Ok (Mem h' (freed s)) /\ updated (hp s) h' r (fun c => op (f c)).
Proof.
  intros Ar Se Fr (Aa & Sa & Fa & Ia) Ra W Vc. unfold run_un.
  rewrite touch_ok by (intros z [<-|[<-|[]]]; assumption). unfold with_hp.
  assert (Fi : fits (shape a) (shape r)) by (apply fits_broadcasts; rewrite Sa; apply broadcasts_self).
  assert (X : forall c, inside (shape r) c -> op (item_at (hp s) a (pick (shape a) c)) = op (f c)).
  { intros c Hc. rewrite Sa, pick_same by assumption. now rewrite Ia. }
  destruct vec.
  - destruct (Vc eq_refl) as [I N]. destruct (run1_ok zero Z.abs true L (fun _ => true) op (hp s) a r WTrue) as (h' & -> & U); auto.
    + now apply apart_or.
    + rewrite Sa. apply broadcasts_self.
    + exact Logic.I.
    + exact Logic.I.
    + exists h'. split; [reflexivity|]. eapply updated_ext; [|exact U]. intros c Hc. cbn [chosen]. auto.
  - assert (G : exists h', after (nd_loop zero (unary_functor op) BAll true [] [r; a] (hp s)) = Ok h' /\ updated (hp s) h' r (fun c => op (f c))).
    { destruct (all_old (unary_functor op) (fun vs => match vs with [_; x] => op x | _ => zero end) r [a] (hp s))
        as (h' & -> & U); auto; [intros z [<-|[]]; auto|]. exists h'. split; [reflexivity|]. eapply updated_ext; [|exact U]. intros c Hc.
      rewrite <- X by assumption. reflexivity. }
    assert (H : w <> RNone -> exists h', after (nd_loop zero (inplace_unary_functor op) BAll true [] [a] (hp s)) = Ok h' /\ updated (hp s) h' r (fun c => op (f c))).
    { intros N. rewrite (W N) in *. destruct (all_old (inplace_unary_functor op) (fun vs => match vs with [x] => op x | _ => zero end) r [] (hp s))
        as (h' & -> & U); auto; [intros z []|]. exists h'. split; [reflexivity|]. eapply updated_ext; [|exact U]. intros c Hc.
      rewrite <- X by assumption. cbn [map]. now rewrite (pick_same (shape r)) by assumption. }
    destruct w; [destruct H as (h' & -> & U); [discriminate|]|destruct H as (h' & -> & U); [discriminate|]|destruct G as (h' & -> & U)]; exists h'; auto.
Qed.

(** ** New arrays *)

Lemma create_ok like sh e s s' r : (match like with OA x => wf x | ON _ => True end) -> Forall (fun d => 0 <= d) sh -> 0 < e ->
  create zero like sh e s = (s', r) ->
  next (hp s') = S (next (hp s)) /\ kept (hp s) (hp s') /\ freed s' = freed s /\ array (hp s') r /\ blk r = next (hp s) /\ shape r = sh /\
  isz r = e /\ separate r.
Proof.
  intros Wl F E Em. unfold create in Em. destruct (alloc zero (hp s)) as [h2 b] eqn:A.
  assert (N2 : next h2 = S (next (hp s))) by (unfold alloc in A; injection A as <- _; reflexivity).
  apply alloc_parts in A. destruct A as [-> K].
  assert (M : forall fc, let a := mk (next (hp s)) 0 e sh fc in array h2 a /\ blk a = next (hp s) /\ shape a = sh /\ isz a = e /\ separate a).
  { intros fc a. split; [apply array_wf; split; [now apply mk_wf|cbn; lia]|]. do 3 (split; [reflexivity|]). intros c d Hc Hd Ep.
    unfold ptr in Ep. cbn [a mk blk base strides shape] in *.
    injection Ep as Ep. apply (mk_inj sh fc e); auto. }
  injection Em as <- <-. cbn [hp freed]. split; [assumption|]. split; [assumption|]. split; [reflexivity|].
  destruct like as [x|v]; [|apply M]. destruct Wl as [Lx Fx Px].
  destruct (contig x) as [cc fc]. destruct (Nat.eqb_spec (length sh) (ndim x)) as [Ln|_]; [|apply M].
  destruct (cc || _); [apply M|]. destruct fc; [apply M|].
  set (p := map fst (sort_by_stride (seq 0 (ndim x)) (strides x))).
  assert (Pp : is_perm p (length sh)).
  { unfold p, is_perm. pose proof (sort_perm (seq 0 (ndim x)) (strides x)) as H. apply (Permutation_map fst) in H.
    rewrite combine_fst in H by (rewrite seq_length; unfold ndim; congruence). rewrite Ln. exact H. }
  assert (Pq : is_perm (rev p) (length sh)).
  { eapply Permutation_trans; [apply Permutation_sym, Permutation_rev|exact Pp]. }
  destruct (like_spec (rev p) sh e (repeat 0 (ndim x))) as (Ls & _ & Es).
  { eapply Permutation_NoDup; [apply Permutation_sym; exact Pq|apply seq_NoDup]. }
  { intros j Hj. rewrite repeat_length. apply (Permutation_in _ Pq), in_seq in Hj. lia. }
  rewrite repeat_length in Ls. set (st := like_strides (rev p) sh e (repeat 0 (ndim x))) in *. rewrite <- Ln in Ls.
  split; [apply array_wf; split; [split; cbn [strides shape isz]; assumption|cbn; lia]|]. do 3 (split; [reflexivity|]). intros c d Hc Hd Ep.
  unfold ptr in Ep. cbn [blk base strides shape] in *. injection Ep as Ep.
  pose proof (inside_length _ _ Hc) as Lc. pose proof (inside_length _ _ Hd) as Ld.
  apply (permute_inj (rev p) sh c d Pq Lc Ld).
  apply (mk_inj (permute 0 (rev p) sh) true e).
  - eapply Permutation_Forall; [apply Permutation_sym, permute_perm; exact Pq|exact F].
  - assumption.
  - now apply permute_inside.
  - now apply permute_inside.
  - change (mk_strides (permute 0 (rev p) sh) true e) with (strides_walk (permute 0 (rev p) sh) e).
    rewrite <- Es. rewrite !dot_permute by (rewrite Ls; assumption). exact Ep.
Qed.

(** ** Sequential evaluation *)

Definition mine (O : list nat) (s : mem) (b : nat) : Prop := In b O \/ (next (hp s) <= b)%nat.

Lemma write_step O s s3 h' r f F : step O s s3 -> updated (hp s3) h' r f -> mine O s (blk r) ->
  (forall b, In b F -> mine O s b /\ (b < next (hp s3))%nat) -> step O s (Mem h' (F ++ freed s3)).
Proof.
  intros (S1 & S2 & S3 & S4) (U1 & U2 & U3) M HF. unfold step. cbn [hp freed]. rewrite U1. split; [assumption|]. split; [|split].
  - intros p Hp N. rewrite U3; [now apply S2|lia|]. intros c _ ->. cbn in *. destruct M; [contradiction|lia].
  - intros b Hb N I. apply in_app_or in I. destruct I as [I|I]; [|auto]. destruct (HF b I) as [[G|G] _]; [contradiction|lia].
  - intros b I. apply in_app_or in I. destruct I as [I|I]; [now apply HF|auto].
Qed.

Lemma val_step O s s' o sh f : val s o sh f -> step O s s' -> (forall a, o = OA a -> ~ In (blk a) O) -> val s' o sh f.
Proof.
  destruct o as [a|v]; [|auto]. intros (A & S & F & I) (S1 & S2 & S3 & S4) D. specialize (D a eq_refl). pose proof A as (A1 & A2 & A3 & A4).
  split; [repeat split; auto; lia|]. split; [assumption|]. split; [auto|]. intros c Hc. rewrite <- I by assumption. apply S2; assumption.
Qed.

Lemma updated_val (s3 : mem) h' r f F : updated (hp s3) h' r f -> array (hp s3) r -> ~ In (blk r) (F ++ freed s3) ->
  val (Mem h' (F ++ freed s3)) (OA r) (shape r) f.
Proof.
  intros (U1 & U2 & _) (A1 & A2 & A3 & A4) N. split; [repeat split; auto; cbn; lia|]. split; [reflexivity|]. split; [exact N|exact U2].
Qed.

Definition to_free (O : list nat) (s : mem) (r : nd) (b : bool) (o : ov) : Prop :=
  b = true -> exists a, o = OA a /\ blk a <> blk r /\ mine O s (blk a).

Lemma finish_bin vec op w r lv rv (fl fr : bool) O s s3 s1 f1 s2 f2 : vec_args vec lv rv r -> Forall (fun d => 0 < d) (shape r) -> array (hp s3) r -> separate r -> ~ In (blk r) (freed s3) ->
  broadcasts [s1; s2] (shape r) -> val s3 lv s1 f1 -> val s3 rv s2 f2 -> one_array lv rv -> is_res r lv -> is_res r rv -> in_place w r lv rv ->
  step O s s3 -> mine O s (blk r) -> to_free O s r fl lv -> to_free O s r fr rv ->
  (fl = true -> fr = true -> forall a b, lv = OA a -> rv = OA b -> blk a <> blk b) ->
  exists s', (bind (run_bin zero L vec w op r lv rv s3) (fun s => bind (free_if fl lv s) (fun s => bind (free_if fr rv s) (fun s => Ok (s, OA (V := V) r)))))
    = Ok (s', OA (V := V) r) /\ val s' (OA r) (shape r) (fun c => op (f1 (pick s1 c)) (f2 (pick s2 c))) /\ step O s s'.
Proof.
  intros Va Pr Ar Se Fr B V1 V2 One R1 R2 W St M T1 T2 D.
  destruct (run_bin_ok vec w op r lv rv s3 s1 f1 s2 f2) as (h' & -> & U); auto. cbn [bind].
  assert (X1 : exists F1, free_if fl lv (Mem h' (freed s3)) = Ok (Mem h' (F1 ++ freed s3)) /\ ~ In (blk r) F1 /\
    (forall b, In b F1 -> fl = true /\ (exists a, lv = OA a /\ blk a = b) /\ mine O s b /\ (b < next (hp s3))%nat)).
  { destruct fl; cbn [free_if]; [|exists []; repeat split; auto; contradiction]. destruct (T1 eq_refl) as (a & -> & Na & Ma). destruct V1 as (Aa & _ & Fa & _).
    unfold free. rewrite touch_ok by (intros z [<-|[]]; exact Fa). exists [blk a]. split; [reflexivity|]. split; [intros [E|[]]; auto|].
    intros b [<-|[]]. split; [reflexivity|]. split; [eauto|]. split; [assumption|apply Aa]. }
  destruct X1 as (F1 & -> & N1 & G1). cbn [bind].
  assert (X2 : exists F2, free_if fr rv (Mem h' (F1 ++ freed s3)) = Ok (Mem h' (F2 ++ F1 ++ freed s3)) /\ ~ In (blk r) F2 /\
    (forall b, In b F2 -> mine O s b /\ (b < next (hp s3))%nat)).
  { destruct fr; cbn [free_if]; [|exists []; repeat split; auto; contradiction]. destruct (T2 eq_refl) as (a & -> & Na & Ma). destruct V2 as (Aa & _ & Fa & _).
    unfold free. rewrite touch_ok.
    - exists [blk a]. split; [reflexivity|]. split; [intros [E|[]]; auto|]. intros b [<-|[]]. split; [assumption|apply Aa].
    - intros z [<-|[]] I. cbn [freed] in I. apply in_app_or in I. destruct I as [I|I]; [|auto].
      destruct (G1 _ I) as (-> & (a' & -> & E) & _). exact (D eq_refl eq_refl a' a eq_refl eq_refl E). }
  destruct X2 as (F2 & -> & N2 & G2). cbn [bind]. rewrite app_assoc. eexists. split; [reflexivity|]. split.
  - apply updated_val; auto. intros I. apply in_app_or in I. destruct I as [I|I]; [|auto]. apply in_app_or in I. tauto.
  - eapply write_step; eauto. intros b I. apply in_app_or in I. destruct I as [I|I]; [auto|]. destruct (G1 _ I) as (_ & _ & ? & ?). auto.
Qed.

Definition post (e : fx) (s s' : mem) (o : ov) (sh : list Z) (f : list Z -> V) : Prop :=
  val s' o sh f /\ step (owned e) s s' /\ positive sh /\
  match o with
  | OA a => isz a = szof (dtype e) /\ (freeable e = true -> separate a /\ mine (owned e) s (blk a)) /\
            (freeable e = false -> In (a, false) (arrays e))
  | ON _ => is_array e = false
  end.

Lemma freeable_array (e : fx) : is_array e = false -> freeable e = false.
Proof. destruct e; auto; discriminate. Qed.

Lemma broadcasts_nil s out : broadcasts [s; []] out -> out = s.
Proof.
  intros B. apply (broadcasts_unique [s; []]); [assumption|]. apply (broadcasts_drop [s; []] [s]).
  - discriminate.
  - intros x [<-|[]]; simpl; auto.
  - intros x [<-|[<-|[]]]; simpl; auto.
  - apply broadcasts_same; [discriminate|]. intros x [<-|[]]; reflexivity.
Qed.

Lemma step_kept O s s1 s2 : step O s s1 -> kept (hp s1) (hp s2) -> freed s2 = freed s1 -> step O s s2.
Proof.
  intros (S1 & S2 & S3 & S4) [K1 K2] E. split; [lia|]. split; [|split].
  - intros p Hp N. rewrite K2 by lia. auto.
  - rewrite E. auto.
  - intros b. rewrite E. intros I. specialize (S4 b I). lia.
Qed.

Lemma val_kept s s' o sh f : val s o sh f -> kept (hp s) (hp s') -> freed s' = freed s -> val s' o sh f.
Proof.
  destruct o as [a|v]; [|auto]. intros (A & S & F & I) K E. split; [now apply (array_kept (hp s))|]. split; [assumption|].
  rewrite E. split; [assumption|]. intros c Hc. rewrite (item_kept (hp s) (hp s') a c A K). auto.
Qed.

(** The shapes of the leaves; numbers have none. *)
Fixpoint shapes (e : fx) : list (list Z) :=
  match e with FArr _ a _ => [shape a] | FNum _ _ => [[]] | FUn _ _ _ l => shapes l | FBin _ _ _ l r => shapes l ++ shapes r end.

Lemma shapes_some (e : fx) : shapes e <> [].
Proof. clear zero. induction e; cbn [shapes]; try discriminate; auto. intros H. apply app_eq_nil in H. tauto. Qed.

Lemma broadcasts_one s : broadcasts [s] s.
Proof. apply broadcasts_same; [discriminate|]. intros x [<-|[]]; reflexivity. Qed.

Lemma means_flat h (e : fx) sh f : means h e sh f -> broadcasts (shapes e) sh.
Proof.
  induction 1 as [| | |dt vec op l r s1 f1 s2 f2 sh M1 IH1 M2 IH2 B]; cbn [shapes]; auto using broadcasts_one. eapply broadcasts_app; eauto.
Qed.

Lemma flat_means h (e : fx) : forall sh, broadcasts (shapes e) sh -> exists f, means h e sh f.
Proof.
  induction e as [dt a fr|dt v|dt vec op l IH|dt vec op l IHl r IHr]; intros sh B; cbn [shapes] in B.
  - rewrite (broadcasts_unique _ _ _ B (broadcasts_one _)). eexists. constructor.
  - rewrite (broadcasts_unique _ _ _ B (broadcasts_one _)). eexists. constructor.
  - destruct (IH sh B) as [f M]. eexists. constructor. exact M.
  - destruct (broadcasts_split _ _ _ (shapes_some l) (shapes_some r) B) as (s1 & s2 & B1 & B2 & B3).
    destruct (IHl _ B1) as [f1 M1]. destruct (IHr _ B2) as [f2 M2]. eexists. econstructor; eauto.
Qed.

Lemma scalar_means h (e : fx) sh f : means h e sh f -> forall c rest, (length sh <= length c)%nat ->
  scalar zero e (map (fun x => item_at h x (pick (shape x) c)) (map fst (arrays e)) ++ rest) = (f (pick sh c), rest).
Proof.
  induction 1 as [dt a fr|dt v|dt vec op l sh f M IH|dt vec op l r s1 f1 s2 f2 sh M1 IH1 M2 IH2 B]; intros c rest Lc; cbn [arrays scalar map app fst].
  - reflexivity.
  - reflexivity.
  - now rewrite IH.
  - pose proof (broadcasts_fits _ _ s1 B (or_introl eq_refl)) as F1. pose proof (broadcasts_fits _ _ s2 B (or_intror (or_introl eq_refl))) as F2.
    rewrite !map_app, <- app_assoc. rewrite IH1 by (destruct F1; lia). rewrite IH2 by (destruct F2; lia).
    now rewrite !pick_pick by assumption.
Qed.

Lemma arrays_shapes (e : fx) out : arrays e <> [] -> (broadcasts (shapes e) out <-> broadcasts (map shape (map fst (arrays e))) out).
Proof.
  intros NE. apply broadcasts_drop.
  - intros H. apply map_eq_nil, map_eq_nil in H. auto.
  - clear NE. induction e as [dt a fr|dt v|dt vec op l IH|dt vec op l IHl r IHr]; cbn [arrays shapes map fst]; auto using incl_refl, incl_nil_l.
    rewrite !map_app. apply incl_app; [apply incl_appl|apply incl_appr]; assumption.
  - clear NE. induction e as [dt a fr|dt v|dt vec op l IH|dt vec op l IHl r IHr]; cbn [arrays shapes map fst]; intros s Hs; auto.
    + destruct Hs as [<-|[]]. auto.
    + rewrite !map_app. apply in_app_or in Hs. destruct Hs as [Hs|Hs]; [destruct (IHl s Hs)|destruct (IHr s Hs)]; auto; left; apply in_or_app; auto.
Qed.

Lemma typed_arrays (e : fx) : typed szof e -> is_array e = true -> arrays e <> [].
Proof.
  induction e as [dt a fr|dt v|dt vec op l IH|dt vec op l IHl r IHr]; cbn [typed arrays is_array]; try discriminate.
  - intros (T & A & _) _. auto.
  - intros (Tl & Tr & [A|A] & _) _ H; apply app_eq_nil in H; destruct H; [apply IHl|apply IHr]; auto.
Qed.

(** Expressions of arrays of one shape have this shape. *)
Lemma uniform_means h (e : fx) sh sh' f : typed szof e -> is_array e = true -> (forall a fr, In (a, fr) (arrays e) -> shape a = sh) ->
  means h e sh' f -> sh' = sh.
Proof.
  intros T A Un M. pose proof (typed_arrays e T A) as NE. apply means_flat in M. apply (arrays_shapes e sh' NE) in M.
  apply (broadcasts_unique _ _ _ M). apply broadcasts_same.
  - intros H. apply map_eq_nil, map_eq_nil in H. auto.
  - intros x Hx. apply in_map_iff in Hx. destruct Hx as (y & <- & Hy). apply in_map_iff in Hy. destruct Hy as ([z fr] & <- & Hz). exact (Un z fr Hz).
Qed.

Theorem seq_ok (e : fx) : forall s, ready s e -> typed szof e ->
  (exists sh f s' o, means (hp s) e sh f /\ seqeval zero L szof e s = Ok (s', o) /\ post e s s' o sh f) \/
  ((forall sh f, ~ means (hp s) e sh f) /\ seqeval zero L szof e s = Raise ValueError).
Proof.
  induction e as [dt a fr|dt v|dt vec op l IH|dt vec op l IHl r IHr]; intros s U T.
  - left. exists (shape a), (item_at (hp s) a), s, (OA a). split; [constructor|]. split; [reflexivity|].
    destruct U as (U1 & U2 & U3 & U4). destruct (U1 a fr (or_introl eq_refl)) as (A & P & F & Se).
    split; [split; [assumption|split; [reflexivity|split; [assumption|reflexivity]]]|]. split; [now apply step_refl|]. split; [assumption|].
    split; [exact T|]. cbn [freeable]. split; intros ->; [|simpl; auto]. split; [auto|]. left. cbn. auto.
  - left. exists [], (fun _ => v), s, (ON v). split; [constructor|]. split; [reflexivity|]. split; [split; auto|].
    split; [apply step_refl; apply U|]. split; [constructor|reflexivity].
  - destruct T as (Tl & Ta & Tv). destruct (IH s U Tl) as [(sh & f & s1 & o & M & E & Po)|[N E]].
    2:{ right. cbn [seqeval]. rewrite E. split; [|reflexivity]. intros sh f M. apply means_un_inv in M. destruct M as (g & M & _). exact (N _ _ M). }
    left. exists sh, (fun c => op (f c)). cbn [seqeval]. rewrite E. cbn [bind]. destruct Po as (Va & St & P & Q).
    destruct o as [a|v]; [|congruence]. cbn [arr bind]. destruct Q as (I & Q1 & Q2). pose proof Va as (Aa & Sa & Fa & Ia).
    assert (Nd : ndims l = ndim a) by (unfold ndim; rewrite Sa; symmetry; eapply means_ndims; eauto).
    destruct (is_tmp dt (ndims (FUn dt vec op l)) l) eqn:Lt.
    + unfold is_tmp in Lt. apply andb_true_iff in Lt. destruct Lt as [Lt _]. apply andb_true_iff in Lt. destruct Lt as [Lf Ld].
      apply Nat.eqb_eq in Ld. destruct (Q1 Lf) as [Se Mi].
      destruct (run_un_ok vec RLeft op a a s1 f) as (h' & -> & Up); auto.
      { split; [assumption|split; [reflexivity|split; [assumption|]]]. rewrite Sa. assumption. }
      { intros ->. split; [reflexivity|]. destruct (Tv eq_refl) as [_ G]. lia. }
      cbn [bind negb andb free_if]. eexists _, _. split; [constructor; exact M|]. split; [reflexivity|].
      split; [|split; [|split; [assumption|]]].
      * pose proof (updated_val s1 h' a _ [] Up Aa Fa) as G. rewrite Sa in G. exact G.
      * apply (write_step (owned l) s s1 h' a (fun c => op (f c)) []); auto. intros b [].
      * split; [cbn [dtype]; congruence|]. split; [auto|discriminate].
    + destruct (create zero (OA a) (shape a) (szof dt) s1) as [s2 r] eqn:Cr.
      assert (Wa : wf a) by (apply array_wf in Aa; tauto).
      destruct (create_ok (OA a) (shape a) (szof dt) s1 s2 r) as (Nx & K & Fe & Ar & Br & Sr & Ir & Sep); auto.
      { apply Aa. }
      pose proof (val_kept _ s2 _ _ _ Va K Fe) as Va2. pose proof (step_kept _ _ _ s2 St K Fe) as St2.
      assert (Na : blk a <> blk r) by (rewrite Br; destruct Aa as (_ & _ & _ & G); lia).
      assert (Nf : ~ In (blk r) (freed s2)).
      { rewrite Fe, Br. intros H. destruct St as (_ & _ & _ & G). specialize (G _ H). lia. }
      destruct (run_un_ok vec RNone op r a s2 f) as (h' & -> & Up); auto.
      { rewrite Sr, Sa. exact Va2. }
      { congruence. }
      { intros ->. destruct (Tv eq_refl) as [G1 G2]. split; [congruence|lia]. }
      cbn [bind negb andb]. assert (Mi : mine (owned l) s (blk r)) by (right; rewrite Br; apply St).
      assert (Sh : shape r = sh) by congruence.
      destruct (freeable l) eqn:Lf; cbn [free_if].
      * destruct (Q1 eq_refl) as [Se Ma]. unfold free. rewrite touch_ok by (intros z [<-|[]]; apply Va2). cbn [bind].
        eexists _, _. split; [constructor; exact M|]. split; [reflexivity|].
        split; [|split; [|split; [assumption|]]].
        -- rewrite <- Sh. apply (updated_val s2 h' r _ [blk a]); auto. intros [H|H]; auto.
        -- apply (write_step (owned l) s s2 h' r (fun c => op (f c)) [blk a]); auto. intros b [<-|[]]. split; [assumption|]. destruct Va2 as ((_ & _ & _ & G) & _). exact G.
        -- split; [exact Ir|]. split; [auto|discriminate].
      * cbn [bind]. eexists _, _. split; [constructor; exact M|]. split; [reflexivity|].
        split; [|split; [|split; [assumption|]]].
        -- rewrite <- Sh. apply (updated_val s2 h' r _ []); auto.
        -- apply (write_step (owned l) s s2 h' r (fun c => op (f c)) []); auto. intros b [].
        -- split; [exact Ir|]. split; [auto|discriminate].
  - destruct T as (Tl & Tr & Ta & Tv). pose proof (ready_bin _ _ _ _ _ _ U) as (Ul & Ur & Dl & Dr).
    destruct (IHl s Ul Tl) as [(s1 & f1 & m1 & lv & M1 & E1 & (V1 & St1 & P1 & Q1))|[N E1]].
    2:{ right. cbn [seqeval]. rewrite E1. split; [|reflexivity]. intros sh f M. apply means_bin_inv in M. destruct M as (? & ? & ? & ? & M & _). exact (N _ _ M). }
    pose proof (ready_step _ _ _ _ Ur St1 Dr) as Ur1.
    destruct (IHr m1 Ur1 Tr) as [(s2 & f2' & m2 & rv & M2' & E2 & (V2' & St2 & P2 & Q2))|[N E2]].
    2:{ right. cbn [seqeval]. rewrite E1. cbn [bind]. rewrite E2. split; [|reflexivity]. intros sh f M. apply means_bin_inv in M.
        destruct M as (? & ? & ? & ? & _ & M & _). destruct (means_step _ _ _ _ _ _ Ur St1 Dr M) as (g & M' & _). exact (N _ _ M'). }
    destruct (means_step_back _ _ _ _ _ _ Ur St1 Dr M2') as (f2 & M2 & Ef).
    assert (V2 : val m2 rv s2 f2).
    { destruct rv as [b|v]; cbn [val] in *.
      - destruct V2' as (X1 & X2 & X3 & X4). split; [assumption|]. split; [assumption|]. split; [assumption|]. intros c Hc. rewrite Ef. auto.
      - destruct V2' as [X1 X2]. split; [assumption|]. intros c. rewrite Ef. auto. }
    clear V2'. cbn [seqeval]. rewrite E1. cbn [bind]. rewrite E2. cbn [bind].
    (* the left operand is still there *)
    assert (Kl : forall a, lv = OA a -> ~ In (blk a) (owned r)).
    { intros a ->. destruct Q1 as (_ & Qa & Qb). destruct (freeable l) eqn:Fl.
      - destruct (Qa eq_refl) as [_ [I|G]]; [apply owned_out in I; destruct I as (z & I & <-); eauto|]. intros I.
        pose proof (owned_next _ _ _ Ur I). lia.
      - exact (Dl _ _ (Qb eq_refl)). }
    pose proof (val_step _ _ _ _ _ _ V1 St2 Kl) as V1'.
    assert (Sl : shape_of lv = s1) by (destruct lv; cbn [shape_of val] in *; [apply V1|symmetry; apply V1]).
    assert (Sr : shape_of rv = s2) by (destruct rv; cbn [shape_of val] in *; [apply V2|symmetry; apply V2]).
    rewrite Sl, Sr. rewrite fbroadcast_util by assumption.
    destruct (util_broadcast_ok s1 s2) as [(sh & -> & B)|[-> NB]].
    2:{ right. split; [|reflexivity]. intros sh f M. apply means_bin_inv in M. destruct M as (u1 & g1 & u2 & g2 & G1 & G2 & G3 & _).
        destruct (means_fun _ _ _ _ _ _ M1 G1) as [<- _]. destruct (means_fun _ _ _ _ _ _ M2 G2) as [<- _]. exact (NB _ G3). }
    left. exists sh, (fun c => op (f1 (pick s1 c)) (f2 (pick s2 c))). cbn [bind].
    set (e := FBin dt vec op l r) in *.
    assert (Psh : positive sh) by (eapply broadcasts_positive; [|exact B]; intros x [<-|[<-|[]]]; assumption).
    assert (F0 : Forall (fun d => 0 <= d) sh) by (eapply Forall_impl; [|exact Psh]; cbn; lia).
    assert (Oe : owned e = owned l ++ owned r) by apply owned_bin.
    assert (St : step (owned e) s m2).
    { eapply step_trans; [exact St1|exact St2| |]; rewrite Oe; [intros b I; apply in_or_app; auto|intros b I _; apply in_or_app; auto]. }
    assert (Ml : freeable l = true -> exists a, lv = OA a /\ separate a /\ mine (owned e) s (blk a) /\ isz a = szof (dtype l)).
    { intros Fl. destruct lv as [a|v]; [|apply freeable_array in Q1; congruence]. destruct Q1 as (I & Qa & _). destruct (Qa Fl) as [Se [G|G]];
      exists a; (split; [reflexivity|split; [assumption|split; [|assumption]]]); [left; rewrite Oe; apply in_or_app; auto|right; assumption]. }
    assert (Mr : freeable r = true -> exists b, rv = OA b /\ separate b /\ mine (owned e) s (blk b) /\ isz b = szof (dtype r)).
    { intros Fr. destruct rv as [b|v]; [|apply freeable_array in Q2; congruence]. destruct Q2 as (I & Qa & _). destruct (Qa Fr) as [Se [G|G]];
      exists b; (split; [reflexivity|split; [assumption|split; [|assumption]]]); [left; rewrite Oe; apply in_or_app; auto|right].
      destruct St1 as (X & _). lia. }
    assert (Df : freeable l = true \/ freeable r = true -> forall a b, lv = OA a -> rv = OA b -> blk a <> blk b).
    { intros H a b -> ->. pose proof V1 as ((_ & _ & _ & La) & _). destruct Q1 as (_ & Qa1 & Qb1), Q2 as (_ & Qa2 & Qb2).
      destruct (freeable r) eqn:Fr.
      - destruct (Qa2 eq_refl) as [_ [G|G]]; [|lia]. intros E. apply (Kl a eq_refl). now rewrite E.
      - destruct H as [H|]; [|discriminate]. specialize (Qb2 eq_refl). destruct (Qa1 H) as [_ [G|G]].
        + intros E. apply (Dr _ _ Qb2). now rewrite <- E.
        + destruct Ur as (X & _). destruct (X _ _ Qb2) as ((_ & _ & _ & Y) & _). lia. }
    assert (One : one_array lv rv).
    { unfold one_array. destruct lv; [destruct rv; exact Logic.I|]. destruct rv; [exact Logic.I|]. destruct Ta; congruence. }
    assert (Va2 : vec = true -> exists a b, lv = OA a /\ rv = OA b /\ shape a = sh /\ shape b = sh /\ isz a = szof dt /\ isz b = szof dt /\ separate a /\ sh <> []).
    { intros Hv. destruct (Tv Hv) as (Al & Ar & El & Er & t & Nt & Un1 & Un2).
      assert (H1 : s1 = t) by (apply (uniform_means (hp s) l t s1 f1 Tl Al); [intros a fr H; exact (proj1 (Un1 a fr H))|exact M1]).
      assert (H2 : s2 = t) by (apply (uniform_means (hp s) r t s2 f2 Tr Ar); [intros a fr H9; exact (proj1 (Un2 a fr H9))|exact M2]).
      assert (H3 : sh = t) by (rewrite H1, H2 in B; apply (broadcasts_unique _ _ _ B); apply broadcasts_self).
      destruct lv as [a|v]; [|congruence]. destruct rv as [b|v]; [|congruence]. exists a, b. cbn [shape_of] in Sl, Sr.
      destruct Q1 as (I1 & Qa1 & Qb1), Q2 as (I2 & _ & _). rewrite El in I1. rewrite Er in I2. repeat (split; [congruence|]).
      split; [|congruence]. destruct (freeable l); [now apply Qa1|]. exact (proj2 (Un1 a false (Qb1 eq_refl))). }
    assert (Fin : forall m3 res w fl fr, array (hp m3) res -> separate res -> ~ In (blk res) (freed m3) -> shape res = sh -> isz res = szof dt ->
       val m3 lv s1 f1 -> val m3 rv s2 f2 -> is_res res lv -> is_res res rv -> in_place w res lv rv -> step (owned e) s m3 ->
       mine (owned e) s (blk res) -> to_free (owned e) s res fl lv -> to_free (owned e) s res fr rv -> (fl = true -> freeable l = true) ->
       exists s' o, means (hp s) e sh (fun c => op (f1 (pick s1 c)) (f2 (pick s2 c))) /\
         bind (run_bin zero L vec w op res lv rv m3) (fun s => bind (free_if fl lv s) (fun s => bind (free_if fr rv s) (fun s => Ok (s, OA (V := V) res)))) = Ok (s', o) /\
         post e s s' o sh (fun c => op (f1 (pick s1 c)) (f2 (pick s2 c)))).
    { intros m3 res w fl fr Ar Se Nf Sh Is Va Vb R1 R2 W Sp Mi T1 T2 Hf.
      destruct (finish_bin vec op w res lv rv fl fr (owned e) s m3 s1 f1 s2 f2) as (s' & -> & Vs & Ss); auto.
      { intros Hv. destruct (Va2 Hv) as (a & b & -> & -> & X1 & X2 & X3 & X4 & X5 & X6). exists a, b. rewrite Sh, Is. auto 10. }
      { rewrite Sh. exact Psh. }
      { rewrite Sh. assumption. }
      exists s', (OA res). split; [econstructor; eauto|]. split; [reflexivity|]. rewrite Sh in Vs. split; [exact Vs|].
      split; [assumption|]. split; [assumption|]. split; [exact Is|]. split; [auto|discriminate]. }
    clear Q1 Q2 E1 E2 IHl IHr.
    assert (Keep : forall a, (lv = OA a \/ rv = OA a) -> array (hp m2) a /\ ~ In (blk a) (freed m2)).
    { intros a [->| ->]; [destruct V1' as (X1 & _ & X2 & _)|destruct V2 as (X1 & _ & X2 & _)]; auto. }
    (* the new array *)
    set (like := if (ndims l <? ndims r)%nat then rv else lv).
    assert (Wl : match like with OA x => wf x | ON _ => True end).
    { unfold like. destruct (_ <? _)%nat; [destruct rv as [b|]|destruct lv as [a|]]; auto; [destruct (Keep b) as [X _]|destruct (Keep a) as [X _]]; auto;
      apply array_wf in X; tauto. }
    destruct (create zero like sh (szof dt) m2) as [m3 nw] eqn:Cr. cbn [fst snd].
    destruct (create_ok like sh (szof dt) m2 m3 nw Wl F0 (szof_pos dt) Cr) as (Nx & K & Fe & An & Bn & Sn & In_ & Sepn).
    pose proof (val_kept _ m3 _ _ _ V1' K Fe) as V13. pose proof (val_kept _ m3 _ _ _ V2 K Fe) as V23.
    pose proof (step_kept _ _ _ m3 St K Fe) as St3.
    assert (Nn : ~ In (blk nw) (freed m3)).
    { rewrite Fe, Bn. intros H. destruct St as (_ & _ & _ & G). specialize (G _ H). lia. }
    assert (Rn1 : is_res nw lv). { destruct lv as [a|]; [right|exact Logic.I]. destruct (Keep a) as [(_ & _ & _ & X) _]; auto. lia. }
    assert (Rn2 : is_res nw rv). { destruct rv as [b|]; [right|exact Logic.I]. destruct (Keep b) as [(_ & _ & _ & X) _]; auto. lia. }
    assert (Mn : mine (owned e) s (blk nw)) by (right; rewrite Bn; apply St).
    assert (Tl1 : to_free (owned e) s nw (freeable l) lv).
    { intros H. destruct (Ml H) as (a & -> & _ & X & _). exists a. split; [reflexivity|]. split; [|assumption]. destruct Rn1 as [->|]; [|assumption].
      intros _. destruct (Keep nw) as [(_ & _ & _ & Y) _]; auto. lia. }
    assert (Tr1 : to_free (owned e) s nw (freeable r) rv).
    { intros H. destruct (Mr H) as (a & -> & _ & X & _). exists a. split; [reflexivity|]. split; [|assumption]. destruct Rn2 as [->|]; [|assumption].
      intros _. destruct (Keep nw) as [(_ & _ & _ & Y) _]; auto. lia. }
    (* a temporary as the result *)
    assert (Tmpl : is_tmp dt (ndims e) l = true -> exists a, lv = OA a /\ freeable l = true /\ isz a = szof dt /\ separate a /\ mine (owned e) s (blk a)).
    { intros H. unfold is_tmp in H. apply andb_true_iff in H. destruct H as [H _]. apply andb_true_iff in H. destruct H as [H1 H2].
      apply Nat.eqb_eq in H2. destruct (Ml H1) as (a & -> & X1 & X2 & X3). exists a. rewrite H2 in X3. auto. }
    assert (Tmpr : is_tmp dt (ndims e) r = true -> exists b, rv = OA b /\ freeable r = true /\ isz b = szof dt /\ separate b /\ mine (owned e) s (blk b)).
    { intros H. unfold is_tmp in H. apply andb_true_iff in H. destruct H as [H _]. apply andb_true_iff in H. destruct H as [H1 H2].
      apply Nat.eqb_eq in H2. destruct (Mr H1) as (a & -> & X1 & X2 & X3). exists a. rewrite H2 in X3. auto. }
    assert (Tol : forall a, rv = OA a -> freeable l = true \/ freeable r = true -> to_free (owned e) s a (freeable l) lv).
    { intros b Eb Hor H. destruct (Ml H) as (a & -> & _ & X & _). exists a. split; [reflexivity|]. split; [|assumption]. exact (Df (or_introl H) a b eq_refl Eb). }
    assert (Tor : forall a, lv = OA a -> freeable l = true \/ freeable r = true -> to_free (owned e) s a (freeable r) rv).
    { intros b Eb Hor H. destruct (Mr H) as (a & -> & _ & X & _). exists a. split; [reflexivity|]. split; [|assumption]. intros G. symmetry in G.
      exact (Df (or_intror H) b a Eb eq_refl G). }
    assert (No : forall a o, to_free (owned e) s a false o) by (intros a o; discriminate).
    (* reuse of the left or of the right operand *)
    assert (GoL : is_tmp dt (ndims e) l = true -> s1 = sh -> forall w fr, w <> RRight -> (fr = true -> freeable r = true) ->
       exists a, arr lv = Ok a /\ exists s' o, means (hp s) e sh (fun c => op (f1 (pick s1 c)) (f2 (pick s2 c))) /\
         bind (run_bin zero L vec w op a lv rv m2) (fun s => bind (free_if false lv s) (fun s => bind (free_if fr rv s) (fun s => Ok (s, OA (V := V) a)))) = Ok (s', o) /\
         post e s s' o sh (fun c => op (f1 (pick s1 c)) (f2 (pick s2 c)))).
    { intros H Es w fr Hw Hfr. destruct (Tmpl H) as (a & -> & Fl & Is & Se & Mi). exists a. split; [reflexivity|]. destruct (Keep a) as [X1 X2]; auto.
      apply Fin; auto.
      - cbn in Sl. congruence.
      - left. reflexivity.
      - destruct rv as [b|]; [right|exact Logic.I]. intros E. exact (Df (or_introl Fl) a b eq_refl eq_refl (eq_sym E)).
      - destruct w; [reflexivity|congruence|exact Logic.I].
      - destruct fr; [|apply No]. rewrite <- (Hfr eq_refl). apply Tor; auto. }
    assert (GoR : is_tmp dt (ndims e) r = true -> s2 = sh -> forall w fl, w <> RLeft -> (fl = true -> freeable l = true) ->
       exists b, arr rv = Ok b /\ exists s' o, means (hp s) e sh (fun c => op (f1 (pick s1 c)) (f2 (pick s2 c))) /\
         bind (run_bin zero L vec w op b lv rv m2) (fun s => bind (free_if fl lv s) (fun s => bind (free_if false rv s) (fun s => Ok (s, OA (V := V) b)))) = Ok (s', o) /\
         post e s s' o sh (fun c => op (f1 (pick s1 c)) (f2 (pick s2 c)))).
    { intros H Es w fl Hw Hfl. destruct (Tmpr H) as (b & -> & Fr & Is & Se & Mi). exists b. split; [reflexivity|]. destruct (Keep b) as [X1 X2]; auto.
      apply Fin; auto.
      - cbn in Sr. congruence.
      - destruct lv as [a|]; [right|exact Logic.I]. exact (Df (or_intror Fr) a b eq_refl eq_refl).
      - left. reflexivity.
      - destruct w; [congruence|reflexivity|exact Logic.I].
      - destruct fl; [|apply No]. rewrite <- (Hfl eq_refl). apply Tol; auto. }
    assert (GoN : forall fl fr, (fl = true -> freeable l = true) -> (fr = true -> freeable r = true) ->
       exists s' o, means (hp s) e sh (fun c => op (f1 (pick s1 c)) (f2 (pick s2 c))) /\
         bind (run_bin zero L vec RNone op nw lv rv m3) (fun s => bind (free_if fl lv s) (fun s => bind (free_if fr rv s) (fun s => Ok (s, OA (V := V) nw)))) = Ok (s', o) /\
         post e s s' o sh (fun c => op (f1 (pick s1 c)) (f2 (pick s2 c)))).
    { intros fl fr Hl Hr. apply Fin; auto.
      - exact Logic.I.
      - destruct fl; [|apply No]. rewrite <- (Hl eq_refl). assumption.
      - destruct fr; [|apply No]. rewrite <- (Hr eq_refl). assumption. }
    assert (Fl : is_tmp dt (ndims e) l = true -> freeable l = true) by (intros H; destruct (Tmpl H) as (? & _ & ? & _); assumption).
    assert (Fr : is_tmp dt (ndims e) r = true -> freeable r = true) by (intros H; destruct (Tmpr H) as (? & _ & ? & _); assumption).
    assert (Lc : forall b, list_eqb s1 sh = b -> b = true -> s1 = sh) by (intros b <- H; now apply list_eqb_spec in H).
    assert (Rc : forall b, list_eqb s2 sh = b -> b = true -> s2 = sh) by (intros b <- H; now apply list_eqb_spec in H).
    change (is_tmp dt (ndims (FBin dt vec op l r)) l) with (is_tmp dt (ndims e) l).
    change (is_tmp dt (ndims (FBin dt vec op l r)) r) with (is_tmp dt (ndims e) r).
    destruct (is_tmp dt (ndims e) l) eqn:Lt, (is_tmp dt (ndims e) r) eqn:Rt; cbn [andb negb].
    + destruct (Nat.eqb_spec (ndims r) 0) as [Nr|Nr].
      { rewrite <- (means_ndims _ _ _ _ M2) in Nr. destruct s2; [|discriminate]. destruct (GoL eq_refl (eq_sym (broadcasts_nil _ _ B)) RLeft false) as (a & -> & G); try discriminate. exact G. }
      destruct (Nat.eqb_spec (ndims l) 0) as [Nl|Nl].
      { rewrite <- (means_ndims _ _ _ _ M1) in Nl. destruct s1; [|discriminate]. apply broadcasts_swap in B. destruct (GoR eq_refl (eq_sym (broadcasts_nil _ _ B)) RRight false) as (a & -> & G); try discriminate. exact G. }
      destruct (list_eqb s1 sh) eqn:Ec; [|destruct (list_eqb s2 sh) eqn:Ed].
      * destruct (GoL eq_refl (Lc true eq_refl eq_refl) RNone true) as (a & -> & G); try discriminate; auto.
      * destruct (GoR eq_refl (Rc true eq_refl eq_refl) RNone true) as (a & -> & G); try discriminate; auto.
      * exact (GoN true true Fl Fr).
    + destruct (Nat.eqb_spec (ndims r) 0) as [Nr|Nr].
      { rewrite <- (means_ndims _ _ _ _ M2) in Nr. destruct s2; [|discriminate]. destruct (GoL eq_refl (eq_sym (broadcasts_nil _ _ B)) RLeft false) as (a & -> & G); try discriminate. exact G. }
      destruct (list_eqb s1 sh) eqn:Ec.
      * destruct (GoL eq_refl (Lc true eq_refl eq_refl) RNone (freeable r)) as (a & -> & G); try discriminate; auto.
      * apply (GoN true (freeable r)); auto.
    + destruct (Nat.eqb_spec (ndims l) 0) as [Nl|Nl].
      { rewrite <- (means_ndims _ _ _ _ M1) in Nl. destruct s1; [|discriminate]. apply broadcasts_swap in B. destruct (GoR eq_refl (eq_sym (broadcasts_nil _ _ B)) RRight false) as (a & -> & G); try discriminate. exact G. }
      destruct (list_eqb s2 sh) eqn:Ed.
      * destruct (GoR eq_refl (Rc true eq_refl eq_refl) RNone (freeable l)) as (a & -> & G); try discriminate; auto.
      * apply (GoN (freeable l) true); auto.
    + apply (GoN (freeable l) (freeable r)); auto.
Qed.

(** ** Fused evaluation *)

Lemma loop_new2 func f e a rest (h : heap) : Forall (array h) (a :: rest) -> 0 < e ->
  (forall r h1 c, func h1 (ptr r c :: map (fun x => ptr x (pick (shape x) c)) (a :: rest)) =
     store h1 (ptr r c) (f (map (load h1) (map (fun x => ptr x (pick (shape x) c)) (a :: rest))))) ->
  (exists out h' r, broadcasts (map shape (a :: rest)) out /\
     first_result (nd_loop zero func BAll true [e] (a :: rest) h) = Ok (h', r) /\
     array h' r /\ blk r = next h /\ shape r = out /\ isz r = e /\ separate r /\ kept h h' /\
     forall c, inside out c -> item_at h' r c = f (map (fun x => item_at h x (pick (shape x) c)) (a :: rest))) \/
  ((forall out, ~ broadcasts (map shape (a :: rest)) out) /\
   first_result (nd_loop zero func BAll true [e] (a :: rest) h) = Raise ValueError).
Proof.
  intros A E Hf. destruct (arrays_wf _ _ A) as [W B].
  destruct (loop_all_ok zero func [e] a rest h W) as [(out & h' & rs & Bc & Fo & R)|(N & Er)]; [repeat constructor; assumption|left|right].
  - destruct (fill_new zero func f e (a :: rest) h out h' rs BAll true R Hf B) as (r & -> & Wr & Br & Nr & Ir & Sr & K & X).
    exists out, h', r. split; [assumption|]. destruct R as (R & (_ & _ & NF) & _). rewrite R. split; [reflexivity|].
    split; [apply array_wf; split; [assumption|lia]|]. split; [assumption|]. split; [assumption|]. split; [assumption|].
    inversion NF as [|? ? (_ & Sr' & Ij) _]; subst. split; [exact Ij|]. split; [assumption|]. intros c Hc. unfold item_at. rewrite X by assumption. now rewrite map_map.
  - split; [assumption|]. rewrite Er. reflexivity.
Qed.

Lemma free_all_ok l : forall s : mem, NoDup (map (fun x : nd * bool => blk (fst x)) (filter snd l)) ->
  (forall b, In b (map (fun x : nd * bool => blk (fst x)) (filter snd l)) -> ~ In b (freed s)) ->
  exists F, free_all l s = Ok (Mem (hp s) (F ++ freed s)) /\ forall b, In b F -> In b (map (fun x : nd * bool => blk (fst x)) (filter snd l)).
Proof.
  induction l as [|[a fr] l IH]; intros s N D; cbn [free_all].
  - exists []. destruct s. split; [reflexivity|auto].
  - destruct fr; cbn [filter snd map fst] in *.
    + inversion N; subst. unfold free. rewrite touch_ok by (intros z [<-|[]]; apply D; simpl; auto). cbn [bind].
      destruct (IH (Mem (hp s) (blk a :: freed s))) as (F & -> & HF); auto.
      { intros b I [G|G]; [cbn in G; subst b; contradiction|]. exact (D b (or_intror I) G). }
      exists (F ++ [blk a]). cbn [hp freed]. rewrite <- app_assoc. split; [reflexivity|]. intros b I. apply in_app_or in I. destruct I as [I|[<-|[]]]; simpl; auto.
    + cbn [bind]. apply IH; auto.
Qed.

Lemma fused_any (e : fx) s : usable s e -> arrays e <> [] ->
  (exists sh f s' r, means (hp s) e sh f /\ fused zero szof e s = Ok (s', OA r) /\ val s' (OA r) sh f /\ step (owned e) s s' /\
     isz r = szof (dtype e) /\ separate r /\ (next (hp s) <= blk r)%nat) \/
  ((forall sh f, ~ means (hp s) e sh f) /\ fused zero szof e s = Raise ValueError).
Proof.
  intros U NE. pose proof U as (U1 & U2 & U3 & U4). unfold fused.
  rewrite touch_ok by (intros a Ha; apply in_map_iff in Ha; destruct Ha as ([x fr] & <- & Ha); now apply (U1 x fr)).
  remember (map fst (arrays e)) as l eqn:El. destruct l as [|a rest]; [symmetry in El; apply map_eq_nil in El; contradiction|].
  assert (Al : Forall (array (hp s)) (a :: rest)).
  { rewrite El. apply Forall_forall. intros x Hx. apply in_map_iff in Hx. destruct Hx as ([y fr] & <- & Hx). now apply (U1 y fr). }
  assert (ON_ : forall b, In b (owned e) -> (b < next (hp s))%nat).
  { intros b H. apply owned_out in H. destruct H as (z & I & <-). destruct (U1 z true I) as ((_ & _ & _ & A) & _). exact A. }
  destruct (loop_new2 (scalar_fn zero e) (fun vs => fst (scalar zero e vs)) (szof (dtype e)) a rest (hp s) Al (szof_pos _)) as
    [(out & h' & r & B & -> & Ar & Br & Sr & Ir & Se & K & X)|(N & ->)].
  - intros r h1 c. reflexivity.
  - left. rewrite El in B. apply (arrays_shapes e out NE) in B. destruct (flat_means (hp s) e out B) as [f M]. cbn [bind].
    destruct (free_all_ok (arrays e) (Mem h' (freed s)) U2) as (F & -> & HF).
    { intros b Hb. apply (owned_out e) in Hb. destruct Hb as (z & Hz & <-). now apply (U1 z true). }
    cbn [bind hp freed]. exists out, f. eexists _, r. split; [exact M|]. split; [reflexivity|].
    assert (NF : forall b, In b F -> (b < next (hp s))%nat) by (intros b Hb; apply ON_; exact (HF b Hb)).
    assert (Ao : blk r = next (hp s)) by exact Br.
    split; [|split; [|split; [exact Ir|split; [exact Se|lia]]]].
    + split; [exact Ar|]. split; [exact Sr|]. split.
      * intros I. cbn [freed] in I. apply in_app_or in I. destruct I as [I|I]; [apply NF in I|apply U4 in I]; lia.
      * intros c Hc. cbn [hp]. rewrite X by assumption. rewrite El.
        pose proof (scalar_means (hp s) e out f M c []) as Sm. rewrite app_nil_r in Sm. rewrite Sm by (rewrite (inside_length _ _ Hc); lia). cbn [fst].
        now rewrite pick_same.
    + destruct K as [K1 K2]. split; [exact K1|]. cbn [hp freed]. split; [auto|]. split.
      * intros b Hb No I. apply in_app_or in I. destruct I as [I|I]; [|assumption]. exfalso. exact (No (HF b I)).
      * intros b I. apply in_app_or in I. destruct I as [I|I]; [apply NF in I|apply U4 in I]; lia.
  - right. split; [|reflexivity]. intros sh f M. apply means_flat in M. apply (arrays_shapes e sh NE) in M. rewrite <- El in M. exact (N _ M).
Qed.

Lemma fused_ok (e : fx) s : ready s e -> typed szof e -> is_array e = true -> freeable e = true ->
  (exists sh f s' r, means (hp s) e sh f /\ fused zero szof e s = Ok (s', OA r) /\ post e s s' (OA r) sh f) \/
  ((forall sh f, ~ means (hp s) e sh f) /\ fused zero szof e s = Raise ValueError).
Proof.
  intros R T Ia Fe. pose proof (typed_arrays e T Ia) as NE. pose proof (proj1 (ready_usable s e) R) as [U NEm].
  destruct (fused_any e s U NE) as [(sh & f & s' & r & M & E & Vr & St & Ir & Se & Fr)|N]; [left|right; assumption].
  exists sh, f, s', r. split; [assumption|]. split; [assumption|]. split; [assumption|]. split; [assumption|]. split.
  - apply means_flat in M. apply (arrays_shapes e sh NE) in M. eapply broadcasts_positive; [|exact M]. intros x Hx. apply in_map_iff in Hx.
    destruct Hx as (y & <- & Hy). apply in_map_iff in Hy. destruct Hy as ([z fr] & <- & Hz). now apply (NEm z fr).
  - split; [exact Ir|]. split; [intros _|congruence]. split; [assumption|]. right. lia.
Qed.

(** ** The whole optimisation *)

Definition becomes (e : fx) (s : mem) (e' : fx) (s' : mem) : Prop :=
  ready s' e' /\ typed szof e' /\ dtype e' = dtype e /\ ndims e' = ndims e /\ is_array e' = is_array e /\ freeable e' = freeable e /\
  step (owned e) s s' /\
  (forall a fr, In (a, fr) (arrays e') -> In (a, fr) (arrays e) \/ fr = true /\ mine (owned e) s (blk a)) /\
  (forall sh f, means (hp s) e sh f -> exists f', means (hp s') e' sh f' /\ forall c, inside sh c -> f' c = f c) /\
  (forall sh f', means (hp s') e' sh f' -> exists f, means (hp s) e sh f) /\
  (forall sh, (forall a fr, In (a, fr) (arrays e) -> shape a = sh) -> forall a fr, In (a, fr) (arrays e') -> shape a = sh).

Lemma becomes_refl (e : fx) s : ready s e -> typed szof e -> becomes e s e s.
Proof. intros U T. unfold becomes. do 6 (split; [auto|]). split; [apply step_refl, U|]. split; [auto|]. split; [eauto|]. split; eauto. Qed.

Lemma owned_mine (e e' : fx) s s' b : ready s e -> becomes e s e' s' -> In b (owned e') -> mine (owned e) s b.
Proof.
  intros U (_ & _ & _ & _ & _ & _ & _ & H & _) I. apply owned_out in I. destruct I as (a & I & <-). destruct (H a true I) as [G|[_ G]]; [|assumption].
  left. now apply owned_in.
Qed.

Lemma becomes_trans (e1 e2 e3 : fx) s1 s2 s3 : ready s1 e1 -> becomes e1 s1 e2 s2 -> becomes e2 s2 e3 s3 -> becomes e1 s1 e3 s3.
Proof.
  intros U1 A B. pose proof (fun b => owned_mine e1 e2 s1 s2 b U1 A) as OM.
  destruct A as (A1 & A2 & A3 & A4 & A5 & A6 & A7 & A8 & A9 & A10 & A11), B as (B1 & B2 & B3 & B4 & B5 & B6 & B7 & B8 & B9 & B10 & B11).
  split; [assumption|]. split; [assumption|]. split; [congruence|]. split; [congruence|]. split; [congruence|]. split; [congruence|].
  split; [|split; [|split; [|split; [|eauto]]]].
  - eapply step_trans; [exact A7|exact B7|apply incl_refl|]. intros b I Hb. destruct (OM b I); [assumption|lia].
  - intros a fr I. destruct (B8 a fr I) as [G|[-> [G|G]]]; [now apply A8|right; split; [reflexivity|now apply OM]|right; split; [reflexivity|right]].
    destruct A7 as (N & _). lia.
  - intros sh f M. destruct (A9 sh f M) as (f' & M' & E). destruct (B9 sh f' M') as (f2 & M2 & E2). exists f2. split; [assumption|]. intros c Hc. now rewrite E2, E.
  - intros sh f M. destruct (B10 sh f M) as (f' & M'). eauto.
Qed.

Context (decide : fx -> choice).

Lemma becomes_leaf (e : fx) s s' r sh f : typed szof e -> means (hp s) e sh f -> post e s s' (OA r) sh f -> is_array e = true -> freeable e = true ->
  becomes e s (FArr (dtype e) r true) s'.
Proof.
  intros T M (V1 & St & P & I & Q & _) Ia Fe. destruct (Q Fe) as [Se Mi]. destruct V1 as (A & S & F & It).
  split; [|split; [exact I|split; [reflexivity|split; [|split; [symmetry; exact Ia|split; [symmetry; exact Fe|split; [exact St|split; [|split; [|split]]]]]]]]].
  - split; [|split; [|split]].
    + intros a fr [E|[]]. injection E as <- <-. rewrite S. auto.
    + cbn. constructor; [intros []|constructor].
    + intros a [E|[]]. discriminate.
    + apply St.
  - cbn [ndims]. unfold ndim. rewrite S. eapply means_ndims; eauto.
  - intros a fr [E|[]]. injection E as <- <-. auto.
  - intros sh' g M'. destruct (means_fun _ _ _ _ _ _ M M') as [<- E]. exists (item_at (hp s') r). rewrite <- S at 1. split; [constructor|].
    intros c Hc. rewrite It by assumption. apply E.
  - intros sh' g M'. inversion M'; subst. eauto.
  - intros t H a fr [E|[]]. injection E as <- <-. rewrite S. eapply uniform_means; eauto.
Qed.

Lemma fuse_now_ok (e : fx) s m : ready s e -> typed szof e -> fuse_now zero L szof decide e s = Some m ->
  is_array e = true /\ freeable e = true /\ (2 < depth e)%nat /\
  ((exists sh f s' r, means (hp s) e sh f /\ m = Ok (s', OA r) /\ post e s s' (OA r) sh f) \/
   ((forall sh f, ~ means (hp s) e sh f) /\ m = Raise ValueError)).
Proof.
  intros U T E. unfold fuse_now in E. destruct (Nat.leb_spec (depth e) 2) as [|D]; [discriminate|].
  assert (IF : is_array e = true /\ freeable e = true) by (destruct e; cbn in *; auto; lia). destruct IF as [Ia Fe].
  split; [assumption|]. split; [assumption|]. split; [assumption|].
  assert (Q : (exists sh f s' r, means (hp s) e sh f /\ seqeval zero L szof e s = Ok (s', OA r) /\ post e s s' (OA r) sh f) \/
    ((forall sh f, ~ means (hp s) e sh f) /\ seqeval zero L szof e s = Raise ValueError)).
  { destruct (seq_ok e s U T) as [(sh & f & s' & o & M & Es & P)|N]; [|auto]. left. destruct o as [r|v]; [exists sh, f, s', r; auto|].
    destruct P as (_ & _ & _ & P). congruence. }
  destruct (decide e); [| |discriminate].
  - injection E as <-. now apply fused_ok.
  - injection E as <-. destruct (differ e); [exact Q|now apply fused_ok].
Qed.

Lemma ready_join dt vec op (l r l' r' : fx) s s1 s2 : ready s (FBin dt vec op l r) -> becomes l s l' s1 -> ready s1 r -> becomes r s1 r' s2 ->
  ready s2 l' -> ready s2 (FBin dt vec op l' r').
Proof.
  intros U Bl Ur1 Br Ul2. pose proof (ready_bin _ _ _ _ _ _ U) as (Ul & Ur & Dl & Dr).
  pose proof (fun b => owned_mine l l' s s1 b Ul Bl) as Ol. pose proof (fun b => owned_mine r r' s1 s2 b Ur1 Br) as Or.
  destruct Bl as (Ul1 & _ & _ & _ & _ & _ & (Sn & _) & Al & _), Br as (Ur2 & _ & _ & _ & _ & _ & _ & Ar & _).
  assert (ND : forall b, In b (owned l') -> ~ In b (owned r')).
  { intros b I1 I2. pose proof (owned_next _ _ _ Ul1 I1) as N1. destruct (Or b I2) as [G|G]; [|lia]. pose proof (owned_next _ _ _ Ur G) as N0.
    destruct (Ol b I1) as [G1|G1]; [|lia]. apply owned_out in G1. destruct G1 as (z & Hz & <-). exact (Dl _ _ Hz G). }
  assert (Fl : forall a, In (a, false) (arrays l') -> ~ In (blk a) (owned r')).
  { intros a I J. destruct (Al a false I) as [G|[G _]]; [|discriminate]. destruct (Or _ J) as [K|K]; [exact (Dl _ _ G K)|].
    destruct Ul as (X & _). destruct (X _ _ G) as ((_ & _ & _ & Y) & _). lia. }
  assert (Fr : forall a, In (a, false) (arrays r') -> ~ In (blk a) (owned l')).
  { intros a I J. destruct (Ar a false I) as [G|[G _]]; [|discriminate]. destruct (Ol _ J) as [K|K]; [exact (Dr _ _ G K)|].
    destruct Ur as (X & _). destruct (X _ _ G) as ((_ & _ & _ & Y) & _). lia. }
  destruct Ul2 as (P1 & P2 & P3 & P4), Ur2 as (Q1 & Q2 & Q3 & Q4). split; [|split; [|split; [|assumption]]].
  - intros a fr I. cbn [arrays] in I. apply in_app_or in I. destruct I; [now apply P1|now apply Q1].
  - rewrite owned_bin. clear -P2 Q2 ND. induction (owned l') as [|x o IH]; [assumption|]. cbn. inversion P2; subst. constructor.
    + intros I. apply in_app_or in I. destruct I; [auto|]. apply (ND x); simpl; auto.
    + apply IH; auto. intros b Hb. apply ND. simpl; auto.
  - intros a I. rewrite owned_bin. cbn [arrays] in I. apply in_app_or in I. intros J. apply in_app_or in J.
    destruct I as [I|I], J as [J|J]; [exact (P3 a I J)|exact (Fl a I J)|exact (Fr a I J)|exact (Q3 a I J)].
Qed.

Lemma pass_ok (e : fx) : forall s, ready s e -> typed szof e ->
  (exists s' e' b, pass zero L szof decide e s = Ok (s', e', b) /\ becomes e s e' s' /\ (if b then (nodes e' < nodes e)%nat else (e', s') = (e, s))) \/
  ((forall sh f, ~ means (hp s) e sh f) /\ pass zero L szof decide e s = Raise ValueError).
Proof.
  assert (Fu : forall e s m, ready s e -> typed szof e -> fuse_now zero L szof decide e s = Some m ->
    (exists s' e' b, bind m (fun '(s, o) => bind (arr o) (fun a => Ok (s, FArr (V := V) (dtype e) a true, true))) = Ok (s', e', b) /\ becomes e s e' s' /\
       (if b then (nodes e' < nodes e)%nat else (e', s') = (e, s))) \/
    ((forall sh f, ~ means (hp s) e sh f) /\ bind m (fun '(s, o) => bind (arr o) (fun a => Ok (s, FArr (V := V) (dtype e) a true, true))) = Raise ValueError)).
  { clear e. intros e s m U T E. destruct (fuse_now_ok e s m U T E) as (Ia & Fe & D & [(sh & f & s' & r & M & -> & P)|(N & ->)]); [left|right; auto].
    cbn [bind arr]. exists s', (FArr (dtype e) r true), true. split; [reflexivity|]. split; [eapply becomes_leaf; eauto|].
    cbn [nodes]. clear -D. destruct e as [| |dt vec op l|dt vec op l r]; cbn in *; try lia; destruct l; cbn; lia. }
  induction e as [dt a fr|dt v|dt vec op l IH|dt vec op l IHl r IHr]; intros s U T.
  - cbn [pass]. left. exists s, (FArr dt a fr), false. split; [reflexivity|]. split; [now apply becomes_refl|reflexivity].
  - cbn [pass]. left. exists s, (FNum dt v), false. split; [reflexivity|]. split; [now apply becomes_refl|reflexivity].
  - cbn [pass]. destruct (fuse_now zero L szof decide (FUn dt vec op l) s) as [m|] eqn:E; [exact (Fu _ s m U T E)|].
    pose proof T as (Tl & Ta & Tv). destruct (IH s U Tl) as [(s' & l' & b & -> & B & Hb)|(N & ->)]; cbn [bind].
    + left. exists s', (FUn dt vec op l'), b. split; [reflexivity|]. destruct B as (B1 & B2 & B3 & B4 & B5 & B6 & B7 & B8 & B9 & B10 & B11). split.
      * split; [exact B1|]. split; [|split; [reflexivity|split; [exact B4|split; [reflexivity|split; [reflexivity|split; [exact B7|split; [exact B8|split; [|split; [|exact B11]]]]]]]]].
        -- cbn [typed]. rewrite B3, B4, B5. auto.
        -- intros sh f M. apply means_un_inv in M. destruct M as (g & M & Eg). destruct (B9 _ _ M) as (g' & M' & Eg'). eexists. split; [constructor; exact M'|].
           intros c Hc. cbn. now rewrite Eg, Eg'.
        -- intros sh f M. apply means_un_inv in M. destruct M as (g & M & Eg). destruct (B10 _ _ M) as (g' & M'). eexists. constructor. exact M'.
      * destruct b; [cbn [nodes]; lia|]. injection Hb as -> ->. reflexivity.
    + right. split; [|reflexivity]. intros sh f M. apply means_un_inv in M. destruct M as (g & M & _). exact (N _ _ M).
  - cbn [pass]. destruct (fuse_now zero L szof decide (FBin dt vec op l r) s) as [m|] eqn:E; [exact (Fu _ s m U T E)|].
    pose proof T as (Tl & Tr & Ta & Tv). pose proof (ready_bin _ _ _ _ _ _ U) as (Ul & Ur & Dl & Dr).
    destruct (IHl s Ul Tl) as [(s1 & l' & b & -> & B & Hb)|(N & ->)]; cbn [bind].
    2:{ right. split; [|reflexivity]. intros sh f M. apply means_bin_inv in M. destruct M as (? & ? & ? & ? & M & _). exact (N _ _ M). }
    pose proof B as (B1 & B2 & B3 & B4 & B5 & B6 & B7 & B8 & B9 & B10 & B11).
    pose proof (ready_step _ _ _ _ Ur B7 Dr) as Ur1.
    destruct (IHr s1 Ur1 Tr) as [(s2 & r' & b' & -> & B' & Hb')|(N & ->)]; cbn [bind].
    2:{ right. split; [|reflexivity]. intros sh f M. apply means_bin_inv in M. destruct M as (? & ? & ? & ? & _ & M & _).
        destruct (means_step _ _ _ _ _ _ Ur B7 Dr M) as (g & M' & _). exact (N _ _ M'). }
    left. exists s2, (FBin dt vec op l' r'), (b || b'). split; [reflexivity|].
    pose proof B' as (C1 & C2 & C3 & C4 & C5 & C6 & C7 & C8 & C9 & C10 & C11).
    assert (D2 : forall a fr, In (a, fr) (arrays l') -> ~ In (blk a) (owned r)).
    { intros a fr I J. destruct (B8 a fr I) as [G|[-> [G|G]]]; [exact (Dl _ _ G J)| |].
      - apply owned_out in G. destruct G as (z & Hz & Ez). apply (Dl _ _ Hz). now rewrite Ez.
      - pose proof (owned_next _ _ _ Ur J). lia. }
    pose proof (ready_step _ _ _ _ B1 C7 D2) as Ul2.
    split.
    + split; [eapply ready_join; eauto|]. split; [|split; [reflexivity|split; [cbn [ndims]; now rewrite B4, C4|split; [reflexivity|split; [reflexivity|split; [|split; [|split; [|split]]]]]]]].
      * cbn [typed]. rewrite B3, C3, B5, C5. split; [assumption|]. split; [assumption|]. split; [assumption|]. intros Hv.
        destruct (Tv Hv) as (X1 & X2 & X3 & X4 & sh & X5 & X6 & X7). repeat (split; [assumption|]). exists sh. split; [assumption|].
        split; intros a fr I.
        -- split; [apply (B11 sh) with fr; [intros z g Hz; exact (proj1 (X6 z g Hz))|assumption]|]. destruct (B8 a fr I) as [G|[-> _]]; [exact (proj2 (X6 a fr G))|].
           destruct B1 as (Y & _). destruct (Y a true I) as (_ & _ & _ & Y4). now apply Y4.
        -- split; [apply (C11 sh) with fr; [intros z g Hz; exact (proj1 (X7 z g Hz))|assumption]|]. destruct (C8 a fr I) as [G|[-> _]]; [exact (proj2 (X7 a fr G))|].
           destruct C1 as (Y & _). destruct (Y a true I) as (_ & _ & _ & Y4). now apply Y4.
      * rewrite owned_bin. eapply step_trans; [exact B7|exact C7|apply incl_appl, incl_refl|]. intros x Hx _. apply in_or_app. auto.
      * rewrite owned_bin. cbn [arrays]. intros a fr I. unfold mine. rewrite !in_app_iff in *. destruct I as [I|I].
        -- destruct (B8 a fr I) as [G|[-> [G|G]]]; auto.
        -- destruct (C8 a fr I) as [G|[-> [G|G]]]; auto. right. split; [reflexivity|]. right. destruct B7 as (X & _). lia.
      * intros sh f M. apply means_bin_inv in M. destruct M as (t1 & f1 & t2 & f2 & M1 & M2 & Bc & Ef).
        destruct (B9 _ _ M1) as (g1 & N1 & G1). destruct (means_step _ _ _ _ _ _ B1 C7 D2 N1) as (k1 & K1 & H1).
        destruct (means_step _ _ _ _ _ _ Ur B7 Dr M2) as (g2 & N2 & G2). destruct (C9 _ _ N2) as (k2 & K2 & H2).
        eexists. split; [econstructor; eauto|]. intros c Hc. cbn. rewrite Ef, H1.
        pose proof (broadcasts_fits _ _ t1 Bc (or_introl eq_refl)) as F1. pose proof (broadcasts_fits _ _ t2 Bc (or_intror (or_introl eq_refl))) as F2.
        rewrite G1, H2, G2 by (eapply inside_pick; eauto). reflexivity.
      * intros sh f M. apply means_bin_inv in M. destruct M as (t1 & f1 & t2 & f2 & M1 & M2 & Bc & Ef).
        destruct (means_step_back _ _ _ _ _ _ B1 C7 D2 M1) as (g1 & N1 & _). destruct (B10 _ _ N1) as (k1 & K1).
        destruct (C10 _ _ M2) as (g2 & N2). destruct (means_step_back _ _ _ _ _ _ Ur B7 Dr N2) as (k2 & K2 & _).
        eexists. econstructor; eauto.
      * cbn [arrays]. intros sh H a fr I. apply in_app_or in I. destruct I as [I|I]; [apply (B11 sh) with fr|apply (C11 sh) with fr]; auto; intros z g Hz; apply (H z g); apply in_or_app; auto.
    + destruct b, b'; cbn [orb nodes].
      * lia.
      * injection Hb' as -> ->. lia.
      * injection Hb as -> ->. lia.
      * injection Hb as -> ->. injection Hb' as -> ->. reflexivity.
Qed.

Lemma nodes_pos (e : fx) : (0 < nodes e)%nat.
Proof. destruct e; cbn; lia. Qed.

Lemma passes_ok fuel : forall (e : fx) s, (nodes e <= fuel)%nat -> ready s e -> typed szof e ->
  (exists s' e', passes zero L szof decide fuel e s = Ok (s', e') /\ becomes e s e' s') \/
  ((forall sh f, ~ means (hp s) e sh f) /\ passes zero L szof decide fuel e s = Raise ValueError).
Proof.
  induction fuel as [|fuel IH]; intros e s Hn U T; [pose proof (nodes_pos e); lia|]. cbn [passes].
  destruct (pass_ok e s U T) as [(s' & e' & b & -> & B & Hb)|(N & ->)]; cbn [bind]; [|right; auto].
  destruct b; [|left; eauto]. pose proof B as (B1 & B2 & _ & _ & _ & _ & _ & _ & B9 & B10 & _).
  destruct (IH e' s') as [(s2 & e2 & -> & B')|(N & ->)]; auto; [lia| |].
  - left. exists s2, e2. split; [reflexivity|]. eapply becomes_trans; eauto.
  - right. split; [|reflexivity]. intros sh f M. destruct (B9 _ _ M) as (f' & M' & _). exact (N _ _ M').
Qed.

Theorem optimized_ok (e : fx) s : ready s e -> typed szof e ->
  (exists sh f s' o, means (hp s) e sh f /\ optimized zero L szof decide e s = Ok (s', o) /\ val s' o sh f /\ step (owned e) s s' /\
     match o with OA r => freeable e = true -> mine (owned e) s (blk r) | ON _ => is_array e = false end) \/
  ((forall sh f, ~ means (hp s) e sh f) /\ optimized zero L szof decide e s = Raise ValueError).
Proof.
  intros U T. unfold optimized. destruct (passes_ok (nodes e) e s (le_n _) U T) as [(s1 & e1 & -> & B)|(N & ->)]; cbn [bind]; [|right; auto].
  pose proof (fun b => owned_mine e e1 s s1 b U B) as OM. destruct B as (B1 & B2 & B3 & B4 & B5 & B6 & B7 & B8 & B9 & B10 & B11).
  destruct (seq_ok e1 s1 B1 B2) as [(sh & f & s2 & o & M & -> & (Vo & St & P & Q))|(N & ->)].
  - left. destruct (B10 _ _ M) as (g & Mg). destruct (B9 _ _ Mg) as (f' & M' & E). destruct (means_fun _ _ _ _ _ _ M M') as [_ Ef].
    assert (Eg : forall c, inside sh c -> f c = g c) by (intros c Hc; rewrite Ef; auto).
    destruct o as [r|v].
    + exists sh, g, s2, (OA r). split; [assumption|]. split; [reflexivity|]. split; [|split].
      * destruct Vo as (X1 & X2 & X3 & X4). split; [assumption|]. split; [assumption|]. split; [assumption|]. intros c Hc. rewrite <- Eg by assumption. auto.
      * eapply step_trans; [exact B7|exact St|apply incl_refl|]. intros b I Hb. destruct (OM b I); [assumption|lia].
      * intros Fe. destruct Q as (_ & Q & _). rewrite B6 in Q. destruct (Q Fe) as [_ [G|G]]; [now apply OM|right]. destruct B7 as (X & _). lia.
    + rewrite B5 in Q. destruct e; try discriminate. inversion Mg; subst. exists [], (fun _ => v0), s2, (ON v). split; [constructor|]. split; [reflexivity|].
      split; [|split; [|reflexivity]].
      * destruct Vo as [_ X]. split; [reflexivity|]. intros _. rewrite <- (X []). symmetry. apply Eg. constructor.
      * eapply step_trans; [exact B7|exact St|apply incl_refl|]. intros b I Hb. destruct (OM b I); [assumption|lia].
  - right. split; [|reflexivity]. intros sh f M. destruct (B9 _ _ M) as (f' & M' & _). exact (N _ _ M').
Qed.

End Proofs.
