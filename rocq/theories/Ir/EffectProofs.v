(** Programs do not depend on unused variables, and pure nodes have no effect on used ones. *)
From Coq Require Import List ZArith Lia Bool ZifyBool Floats.SpecFloat.
From Verif.Common Require Import Result Int64.
From Verif.Ir Require Import Num NumProofs Sem SemProofs Fold PassProofs Effects.
Import ListNotations.

Lemma smax_pure a b : smax a b = PURE <-> a = PURE /\ b = PURE.
Proof. destruct a, b; cbn; split; intros H; try discriminate; try (destruct H; discriminate); auto. Qed.
Lemma has_se py fstat gase used e : hasSideEffect py fstat gase used e = false <-> stat py fstat gase used e = PURE.
Proof. unfold hasSideEffect. destruct (stat _ _ _ _ e); split; congruence. Qed.

(** Every variable read by [e] is in [U]. *)
Section Reads.
Context (U : bool -> nat -> bool).
Fixpoint rd (e : node) : Prop :=
  match e with
  | Const _ | Break | Continue => True
  | VarV x => U (vglobal x) (vid x) = true
  | Call _ args => fold_right (fun a P => rd a /\ P) True args
  | Ternary c a b | If c a b => rd c /\ rd a /\ rd b
  | Assign _ e | Return e | Throw e => rd e
  | Series l => fold_right (fun a P => rd a /\ P) True l
  | While c b => rd c /\ rd b
  | ImpFor _ a _ b body => rd a /\ rd b /\ rd body
  | FlowI f v => rd f /\ rd v
  | Try b _ h f => rd b /\ rd h /\ rd f
  end.
Lemma rd_args l : fold_right (fun a P => rd a /\ P) True l <-> Forall rd l.
Proof. induction l; cbn; split; auto; intros H; [constructor; tauto|]. inversion H; subst; tauto. Qed.
End Reads.

(** Counting finds every read. *)
Lemma count_ge g i e : varAssignCounts g i e <= varCounts g i e.
Proof.
  induction e as [v|x|f args FA|c a b IHc IHa IHb|x e IH|l FA|c a b IHc IHa IHb|c b IHc IHb|x a st b body IHa IHb IHbd| | |e IH|e IH|f v IHf IHv|b x h f IHb IHh IHf]
    using node_ind'; cbn; try lia; induction FA; cbn; lia.
Qed.
Lemma used_rd oc oa prog : (forall i, oa i <= oc i) ->
  forall e, (forall g i, varCounts g i e + varAssignCounts g i prog <= varAssignCounts g i e + varCounts g i prog) -> rd (used oc oa prog) e.
Proof.
  intros HO e. induction e as [v|x|f args FA|c a b IHc IHa IHb|x e IH|l FA|c a b IHc IHa IHb|c b IHc IHb|x a st b body IHa IHb IHbd| | |e IH|e IH|f v IHf IHv|b x h f IHb IHh IHf]
    using node_ind'; cbn; intros H; auto.
  - specialize (H (vglobal x) (vid x)). unfold used. unfold is_var in H. rewrite eqb_reflx, Nat.eqb_refl in H. cbn in H.
    specialize (HO (vid x)). destruct (vglobal x); apply negb_true_iff, Nat.eqb_neq; lia.
  - revert H. induction FA as [|a l Ha F IH]; cbn; auto. intros H. split.
    + apply Ha. intros g i. specialize (H g i). assert (fold_right (fun a n => varAssignCounts g i a + n) 0 l <= fold_right (fun a n => varCounts g i a + n) 0 l); [|lia].
      clear. induction l as [|a l IH]; cbn; [lia|]. pose proof (count_ge g i a). lia.
    + apply IH. intros g i. specialize (H g i). pose proof (count_ge g i a). lia.
  - repeat split; [apply IHc|apply IHa|apply IHb]; intros g i; specialize (H g i); pose proof (count_ge g i c); pose proof (count_ge g i a); pose proof (count_ge g i b); lia.
  - apply IH. intros g i. specialize (H g i). lia.
  - revert H. induction FA as [|a l Ha F IH]; cbn; auto. intros H. split.
    + apply Ha. intros g i. specialize (H g i). assert (fold_right (fun a n => varAssignCounts g i a + n) 0 l <= fold_right (fun a n => varCounts g i a + n) 0 l); [|lia].
      clear. induction l as [|a l IH]; cbn; [lia|]. pose proof (count_ge g i a). lia.
    + apply IH. intros g i. specialize (H g i). pose proof (count_ge g i a). lia.
  - repeat split; [apply IHc|apply IHa|apply IHb]; intros g i; specialize (H g i); pose proof (count_ge g i c); pose proof (count_ge g i a); pose proof (count_ge g i b); lia.
  - split; [apply IHc|apply IHb]; intros g i; specialize (H g i); pose proof (count_ge g i c); pose proof (count_ge g i b); lia.
  - repeat split; [apply IHa|apply IHb|apply IHbd]; intros g i; specialize (H g i); pose proof (count_ge g i a); pose proof (count_ge g i b); pose proof (count_ge g i body); lia.
  - split; [apply IHf|apply IHv]; intros g i; specialize (H g i); pose proof (count_ge g i f); pose proof (count_ge g i v); lia.
  - repeat split; [apply IHb|apply IHh|apply IHf]; intros g i; specialize (H g i); pose proof (count_ge g i b); pose proof (count_ge g i h); pose proof (count_ge g i f); lia.
Qed.
Lemma used_rd_prog oc oa prog : (forall i, oa i <= oc i) -> rd (used oc oa prog) prog.
Proof. intros HO. apply used_rd; auto. intros; lia. Qed.

Section Eff.
Context {W : Type}.
Context (fopq : magic -> spec_float -> spec_float -> spec_float) (fpowi : spec_float -> Z -> spec_float).
Context (py : bool) (uc : ufun (W := W)) (ret : nat -> ty) (tenv : bool -> nat -> ty).
Context (UW : wt_ufun ret tenv uc).
Context (U : bool -> nat -> bool).
Notation ev := (ev fopq fpowi py uc).
Notation wt := (wt ret tenv).
Notation ty_of := (ty_of ret).
Notation wts := (wt_state (W := W) tenv).

(** States that agree on the world and on the variables in [U]. *)
Definition gagree (g1 g2 : nat -> val) : Prop := forall i, U true i = true -> g1 i = g2 i.
Definition agree (s1 s2 : state W) : Prop :=
  (forall i, U false i = true -> loc s1 i = loc s2 i) /\ gagree (glo s1) (glo s2) /\ wld s1 = wld s2.
Lemma agree_refl s : agree s s.
Proof. repeat split. Qed.
Lemma agree_sym s1 s2 : agree s1 s2 -> agree s2 s1.
Proof. intros (H1 & H2 & H3). repeat split; [intros i Hi; symmetry; auto|intros i Hi; symmetry; auto|auto]. Qed.
Lemma agree_trans s1 s2 s3 : agree s1 s2 -> agree s2 s3 -> agree s1 s3.
Proof. intros (H1 & H2 & H3) (H4 & H5 & H6). split; [|split]; [intros i Hi; rewrite H1; auto|intros i Hi; rewrite H2; auto|congruence]. Qed.
Lemma agree_set s1 s2 x v : agree s1 s2 -> agree (set s1 x v) (set s2 x v).
Proof.
  intros (H1 & H2 & H3). unfold set. destruct (vglobal x); split; cbn; auto; try split; auto.
  - intros i Hi. unfold put. destruct (Nat.eqb i (vid x)); auto.
  - intros i Hi. unfold put. destruct (Nat.eqb i (vid x)); auto.
Qed.
Lemma agree_unused s x v : U (vglobal x) (vid x) = false -> agree s (set s x v).
Proof.
  intros H. unfold set. destruct (vglobal x); split; cbn; auto; try split; auto; intros i Hi; cbn; auto; unfold put; destruct (Nat.eqb_spec i (vid x)); auto; subst; congruence.
Qed.

(** User functions do not look at variables outside [U]. *)
Definition uc_ext : Prop := forall f vs g1 g2 w, gagree g1 g2 ->
  match uc f vs g1 w, uc f vs g2 w with
  | None, None => True
  | Some (o1, g1', w1), Some (o2, g2', w2) => o1 = o2 /\ gagree g1' g2' /\ w1 = w2
  | _, _ => False
  end.
Context (UE : uc_ext).

Definition sim (r1 r2 : step_t (W := W)) : Prop :=
  match r1, r2 with
  | None, None => True
  | Some (o1, s1), Some (o2, s2) => o1 = o2 /\ agree s1 s2
  | _, _ => False
  end.
Lemma sim_vbind r1 r2 k1 k2 : sim r1 r2 -> (forall v s1 s2, agree s1 s2 -> sim (k1 v s1) (k2 v s2)) -> sim (vbind r1 k1) (vbind r2 k2).
Proof. destruct r1 as [[o s1]|], r2 as [[o2 s2]|]; cbn; try contradiction; auto. intros [<- A] H. destruct o; cbn; auto. Qed.
Lemma sim_cond v s1 s2 k1 k2 : agree s1 s2 -> (forall b, sim (k1 b) (k2 b)) -> sim (cond_b v s1 k1) (cond_b v s2 k2).
Proof. intros A H. destruct v; cbn; auto. Qed.
Lemma sim_noval r1 r2 : sim r1 r2 -> sim (no_val r1) (no_val r2).
Proof. intros H. apply sim_vbind; auto. intros; cbn; auto. Qed.
Lemma sim_call f vs s1 s2 : agree s1 s2 -> sim (call_fn fopq fpowi py uc f vs s1) (call_fn fopq fpowi py uc f vs s2).
Proof.
  intros A. destruct f as [m ts|f]; cbn.
  - destruct (magic_sem _ _ _ m vs); cbn; auto.
  - destruct A as (A1 & A2 & A3). rewrite A3. pose proof (UE f vs (glo s1) (glo s2) (wld s2) A2) as H.
    destruct (uc f vs (glo s1) (wld s2)) as [[[o1 g1] w1]|], (uc f vs (glo s2) (wld s2)) as [[[o2 g2] w2]|]; try contradiction; cbn; auto.
    destruct H as (<- & G & <-). destruct o1; cbn; split; auto; split; auto.
Qed.
Lemma sim_evs f n args : Forall (fun a => rd U a -> forall s1 s2, agree s1 s2 -> sim (ev n a s1) (ev n a s2)) args -> Forall (rd U) args ->
  forall acc s1 s2, agree s1 s2 -> sim (evs (ev n) args s1 acc (call_fn fopq fpowi py uc f)) (evs (ev n) args s2 acc (call_fn fopq fpowi py uc f)).
Proof.
  intros F RD. induction F as [|a l Ha F IH]; intros acc s1 s2 A; cbn.
  - now apply sim_call.
  - inversion RD; subst. apply sim_vbind; auto.
Qed.

Lemma ev_ext n e : rd U e -> forall s1 s2, agree s1 s2 -> sim (ev n e s1) (ev n e s2).
Proof.
  induction e as [v|x|f args FA|c a b IHc IHa IHb|x e IH|l FA|c a b IHc IHa IHb|c b IHc IHb|x a st b body IHa IHb IHbd| | |e IH|e IH|f v IHf IHv|b x h f IHb IHh IHf]
    using node_ind'; cbn [rd]; intros RD s1 s2 A; cbn [Sem.ev].
  - cbn; auto.
  - cbn. split; auto. f_equal. unfold get. destruct A as (A1 & A2 & A3). destruct (vglobal x); auto.
  - apply sim_evs; auto. now apply rd_args.
  - destruct RD as (R1 & R2 & R3). apply sim_vbind; auto. intros v t1 t2 A1. apply sim_cond; auto. intros []; auto.
  - apply sim_vbind; auto. intros v t1 t2 A1. cbn. split; auto. now apply agree_set.
  - apply rd_args in RD. revert s1 s2 A. induction FA as [|a l Ha F IH]; intros s1 s2 A; cbn; auto.
    inversion RD; subst. apply sim_vbind; auto.
  - destruct RD as (R1 & R2 & R3). apply sim_vbind; auto. intros v t1 t2 A1. apply sim_cond; auto. intros []; apply sim_noval; auto.
  - destruct RD as (R1 & R2). generalize n at 1 4 as m. intros m. revert s1 s2 A. induction m as [|m IH]; intros s1 s2 A; cbn; auto.
    apply sim_vbind; auto. intros v t1 t2 A1. apply sim_cond; auto. intros []; [|cbn; auto].
    pose proof (IHb R2 t1 t2 A1) as H. destruct (ev n b t1) as [[o u1]|], (ev n b t2) as [[o2 u2]|]; try contradiction; auto.
    destruct H as [<- A2]. destruct o; auto; cbn; auto.
  - destruct RD as (R1 & R2 & R3). apply sim_vbind; auto. intros i t1 t2 A1. apply sim_vbind; auto. intros j u1 u2 A2.
    destruct i, j; cbn; auto. generalize n at 1 3 as m. intros m. revert z u1 u2 A2. induction m as [|m IH]; intros i u1 u2 A2; cbn [for_loop]; [cbn; auto|].
    destruct (if (0 <? st)%Z then (z0 <=? i)%Z else (i <=? z0)%Z); [cbn; auto|].
    pose proof (IHbd R3 _ _ (agree_set u1 u2 x (VInt i) A2)) as H.
    destruct (ev n body (set u1 x (VInt i))) as [[o w1]|], (ev n body (set u2 x (VInt i))) as [[o2 w2]|]; try contradiction; auto.
    destruct H as [<- A3]. destruct o; auto; cbn; auto.
  - cbn; auto.
  - cbn; auto.
  - apply sim_vbind; auto. intros; cbn; auto.
  - apply sim_vbind; auto. intros; cbn; auto.
  - destruct RD as (R1 & R2). apply sim_vbind; auto.
  - destruct RD as (R1 & R2 & R3).
    assert (S1 : sim (no_val (match ev n b s1 with Some (Exn v, s) => ev n h (set s x v) | r => r end))
                     (no_val (match ev n b s2 with Some (Exn v, s) => ev n h (set s x v) | r => r end))).
    { apply sim_noval. pose proof (IHb R1 s1 s2 A) as H. destruct (ev n b s1) as [[o u1]|], (ev n b s2) as [[o2 u2]|]; try contradiction; auto.
      destruct H as [<- A2]. destruct o; cbn; auto. apply IHh; auto. now apply agree_set. }
    destruct (no_val (match ev n b s1 with Some (Exn v, s) => ev n h (set s x v) | r => r end)) as [[o u1]|],
             (no_val (match ev n b s2 with Some (Exn v, s) => ev n h (set s x v) | r => r end)) as [[o2 u2]|]; try contradiction; auto.
    destruct S1 as [<- A2].
    assert (S2 : sim (fin_after o (ev n f u1)) (fin_after o (ev n f u2))).
    { pose proof (IHf R3 u1 u2 A2) as H. destruct (ev n f u1) as [[of w1]|], (ev n f u2) as [[of2 w2]|]; try contradiction; auto. destruct H as [<- A3]. destruct of; cbn; auto. }
    destruct o; auto. cbn; auto.
Qed.

(** ** Pure nodes *)
Context (fstat : nat -> status) (gase : bool).
Notation stat := (stat py fstat gase U).
(** A function called PURE gives a value (or is undefined, or does not end), and changes neither the world nor variables in [U]. *)
Definition honest : Prop := forall f, fstat f = PURE -> forall vs g w o g' w', uc f vs g w = Some (o, g', w') ->
  (o = UB \/ exists v, o = Val v) /\ gagree g g' /\ w' = w.
Context (HF : honest).

Definition quiet (s : state W) (r : step_t (W := W)) : Prop :=
  match r with None => True | Some (o, s') => agree s s' /\ (o = UB \/ exists v, o = Val v) end.
Lemma quiet_vbind s r k : quiet s r -> (forall v s', agree s s' -> quiet s' (k v s')) -> quiet s (vbind r k).
Proof.
  destruct r as [[o s1]|]; cbn; auto. intros [A [->|[v ->]]] H; cbn; auto. specialize (H v s1 A). unfold quiet in H.
  destruct (k v s1) as [[o2 s2]|]; cbn; auto. destruct H. split; auto. eapply agree_trans; eauto.
Qed.
Lemma quiet_agree s s' r : agree s s' -> quiet s' r -> quiet s r.
Proof. intros A. destruct r as [[o s1]|]; cbn; auto. intros [A1 H]. split; auto. eapply agree_trans; eauto. Qed.
Lemma quiet_cond s v k : (forall b, quiet s (k b)) -> quiet s (cond_b v s k).
Proof. intros H. destruct v; cbn; auto using agree_refl. Qed.
Lemma quiet_noval s r : quiet s r -> quiet s (no_val r).
Proof. intros H. apply quiet_vbind; auto. intros; cbn. split; [apply agree_refl|eauto]. Qed.
Lemma of_res_quiet s m vs : magic_status py m = PURE -> quiet s (of_res (magic_sem fopq fpowi py m vs) s).
Proof.
  intros Hm. destruct (magic_sem fopq fpowi py m vs) as [v|e| |] eqn:E; cbn; auto using agree_refl.
  - split; [apply agree_refl|eauto].
  - exfalso. unfold magic_sem in E. destruct vs as [|a [|b [|]]]; try discriminate.
    + destruct m, a as [z|z|z| |]; cbn in E; try discriminate. unfold f2i in E. destruct (ftrunc z); [|discriminate]. destruct (in64b _); discriminate.
    + destruct a as [x|x|x| |], b as [y|y|y| |]; cbn in E; try discriminate; destruct m; cbn in E, Hm; try discriminate; destruct py; cbn in E; try discriminate.
      all: repeat match type of E with
           | bind ?r _ = _ => let H := fresh in destruct r eqn:H; cbn in E; try discriminate
           | (if ?b then _ else _) = _ => destruct b; try discriminate
           end.
      all: unfold sdiv, srem in *; repeat match goal with H : (if ?b then _ else _) = _ |- _ => destruct b; try discriminate end.
      all: unfold ipow in *; repeat match goal with H : (if ?b then _ else _) = _ |- _ => destruct b; try discriminate end.
      all: match goal with H : ipow_loop 64 ?a ?b ?c = Raise _ |- _ => exfalso; revert H; generalize a b c; generalize 64; intros n; induction n as [|n IH]; intros ? ? ?; cbn; try discriminate; destruct (_ =? 0)%Z; try discriminate; apply IH | _ => idtac end.
Qed.
Lemma call_quiet s f vs : fn_status py fstat f = PURE -> quiet s (call_fn fopq fpowi py uc f vs s).
Proof.
  destruct f as [m ts|f]; cbn [fn_status call_fn]; intros H.
  - now apply of_res_quiet.
  - destruct (uc f vs (glo s) (wld s)) as [[[o g] w]|] eqn:E; cbn; auto.
    destruct (HF f H vs (glo s) (wld s) o g w E) as ([->|[v ->]] & G & ->); cbn; split; eauto; split; auto.
Qed.
Lemma pure_args l : fold_right (fun a s => smax s (stat a)) PURE l = PURE <-> Forall (fun a => stat a = PURE) l.
Proof.
  induction l as [|a l IH]; cbn; split; auto.
  - intros H. apply smax_pure in H as [H1 H2]. constructor; tauto.
  - intros H. inversion H; subst. apply smax_pure. tauto.
Qed.
Lemma quiet_evs f n args : fn_status py fstat f = PURE -> Forall (fun a => stat a = PURE -> forall s, quiet s (ev n a s)) args -> Forall (fun a => stat a = PURE) args ->
  forall acc s, quiet s (evs (ev n) args s acc (call_fn fopq fpowi py uc f)).
Proof.
  intros Hf F P. induction F as [|a l Ha F IH]; intros acc s; cbn.
  - now apply call_quiet.
  - inversion P; subst. apply quiet_vbind; auto.
Qed.
Lemma var_assign_unused x : var_assign_status gase U x = PURE -> U (vglobal x) (vid x) = false.
Proof. unfold var_assign_status. destruct gase, (U (vglobal x) (vid x)), (vglobal x); cbn; congruence. Qed.

Lemma pure_ev n e : stat e = PURE -> forall s, quiet s (ev n e s).
Proof.
  induction e as [v|x|f args FA|c a b IHc IHa IHb|x e IH|l FA|c a b IHc IHa IHb|c b IHc IHb|x a st b body IHa IHb IHbd| | |e IH|e IH|f v IHf IHv|b x h f IHb IHh IHf]
    using node_ind'; cbn [Effects.stat]; intros P s; cbn [Sem.ev].
  - cbn. split; [apply agree_refl|eauto].
  - cbn. split; [apply agree_refl|eauto].
  - apply smax_pure in P as [P1 P2]. apply quiet_evs; auto. now apply pure_args.
  - apply smax_pure in P as [P P3]. apply smax_pure in P as [P1 P2]. apply quiet_vbind; auto. intros v s1 A. apply quiet_cond. intros []; auto.
  - apply smax_pure in P as [P1 P2]. apply quiet_vbind; auto. intros v s1 A. cbn. split; [|eauto]. apply agree_unused. now apply var_assign_unused.
  - apply pure_args in P. revert s. induction FA as [|a l Ha F IH]; intros s; cbn; [split; [apply agree_refl|eauto]|].
    inversion P; subst. apply quiet_vbind; auto.
  - apply smax_pure in P as [P P3]. apply smax_pure in P as [P1 P2]. apply quiet_vbind; auto. intros v s1 A. apply quiet_cond. intros []; apply quiet_noval; auto.
  - apply smax_pure in P as [P1 P2]. generalize n at 1 as m. intros m. revert s. induction m as [|m IH]; intros s; cbn; auto.
    apply quiet_vbind; auto. intros v s1 A. apply quiet_cond. intros []; [|cbn; split; [apply agree_refl|eauto]].
    pose proof (IHb P2 s1) as H. destruct (ev n b s1) as [[o s2]|]; cbn; auto. destruct H as [A2 [->|[v2 ->]]]; cbn; auto. eapply quiet_agree; eauto.
  - apply smax_pure in P as [P0 P]. apply smax_pure in P as [P P3]. apply smax_pure in P as [P1 P2]. apply quiet_vbind; auto. intros i s1 A1. apply quiet_vbind; auto. intros j s2 A2.
    destruct i, j; try (cbn; split; [apply agree_refl|auto]; fail).
    generalize n at 1 as m. intros m. generalize z. clear z. revert s2 A2. induction m as [|m IH]; intros s2 A2 i; cbn [for_loop]; [cbn; auto|].
    destruct (if (0 <? st)%Z then (z0 <=? i)%Z else (i <=? z0)%Z); [cbn; split; [apply agree_refl|eauto]|].
    pose proof (agree_unused s2 x (VInt i) (var_assign_unused x P0)) as A3.
    pose proof (IHbd P3 (set s2 x (VInt i))) as H. destruct (ev n body (set s2 x (VInt i))) as [[o s3]|]; cbn; auto.
    destruct H as [A4 [->|[v2 ->]]].
    + split; [eapply agree_trans; eauto|auto].
    + eapply quiet_agree; [eapply agree_trans; [exact A3|exact A4]|]. apply IH. eapply agree_trans; [exact A2|]. eapply agree_trans; eauto.
  - discriminate.
  - discriminate.
  - apply smax_pure in P as [P1 P2]. discriminate.
  - discriminate.
  - apply smax_pure in P as [P1 P2]. apply quiet_vbind; auto.
  - apply smax_pure in P as [P P4]. apply smax_pure in P as [P P3]. apply smax_pure in P as [P1 P2].
    pose proof (IHb P1 s) as H. destruct (ev n b s) as [[o s1]|]; cbn; auto. destruct H as [A [->|[v ->]]]; cbn; auto.
    pose proof (IHf P2 s1) as H. destruct (ev n f s1) as [[o s2]|]; cbn; auto. destruct H as [A2 [->|[v2 ->]]]; cbn; split; eauto; eapply agree_trans; eauto.
Qed.

(** ** Refinement up to unused variables *)
Definition ule (r1 r2 : step_t (W := W)) : Prop := forall o s1, r1 = Some (o, s1) -> o <> UB -> exists s2, r2 = Some (o, s2) /\ agree s1 s2 /\ wts s2.
Definition uref (e e' : node) : Prop := forall n s1 s2, wts s1 -> wts s2 -> agree s1 s2 -> ule (ev n e s1) (ev n e' s2).

Lemma uref_refl e : wt e -> rd U e -> uref e e.
Proof.
  intros WT RD n s1 s2 H1 H2 A o s1' E N. pose proof (ev_ext n e RD s1 s2 A) as H. rewrite E in H.
  pose proof (ev_good fopq fpowi py uc ret tenv UW n e WT s2 H2) as G.
  destruct (ev n e s2) as [[o2 s2']|]; [|contradiction]. destruct H as [<- A2]. destruct G. eauto.
Qed.
Lemma uref_trans a b c : uref a b -> uref b c -> uref a c.
Proof.
  intros H1 H2 n s1 s2 W1 W2 A o s1' E N. destruct (H1 n s1 s1 W1 W1 (agree_refl s1) o s1' E N) as (s3 & E3 & A3 & W3).
  destruct (H2 n s1 s2 W1 W2 A o s3 E3 N) as (s4 & E4 & A4 & W4). exists s4. split; auto. split; auto. eapply agree_trans; eauto.
Qed.
Lemma ule_vbind t r1 r2 k1 k2 : good tenv t r1 -> ule r1 r2 -> (forall v s1 s2, wts s1 -> wts s2 -> agree s1 s2 -> has_ty v t -> ule (k1 v s1) (k2 v s2)) -> ule (vbind r1 k1) (vbind r2 k2).
Proof.
  intros G H HK o s1 E N. destruct r1 as [[o1 s]|]; [|discriminate].
  assert (o1 <> UB). { intros ->. cbn in E. injection E as <-. now destruct N. }
  destruct (H o1 s eq_refl H0) as (s2 & -> & A & W2). destruct G as [W1 Hv]. destruct o1; cbn in E |- *; try (injection E as <- <-; eauto; fail). exact (HK v s s2 W1 W2 A Hv o s1 E N).
Qed.
Lemma ule_cond v s1 s2 k1 k2 : (forall b, ule (k1 b) (k2 b)) -> ule (cond_b v s1 k1) (cond_b v s2 k2).
Proof. intros H. destruct v; cbn; auto; intros o s E N; injection E as <- <-; now destruct N. Qed.
Lemma ule_ret o s1 s2 : agree s1 s2 -> wts s2 -> ule (Some (o, s1)) (Some (o, s2)).
Proof. intros A H o' s' E N. injection E as <- <-. eauto. Qed.
Lemma ule_noval r1 r2 : ule r1 r2 -> ule (no_val r1) (no_val r2).
Proof.
  intros H o s1 E N. destruct r1 as [[o1 s]|]; [|discriminate].
  assert (o1 <> UB). { intros ->. cbn in E. injection E as <-. now destruct N. }
  destruct (H o1 s eq_refl H0) as (s2 & -> & A & W2). destruct o1; cbn in E |- *; injection E as <- <-; eauto.
Qed.
Lemma ule_call f ts vs s1 s2 : agree s1 s2 -> wts s2 ->
  match f with Magic m ts' => ts' = ts /\ Forall2 has_ty vs ts /\ exists t, magic_ty m ts = Some t | User _ => True end ->
  ule (call_fn fopq fpowi py uc f vs s1) (call_fn fopq fpowi py uc f vs s2).
Proof.
  intros A W2 Hf o s1' E N. pose proof (sim_call f vs s1 s2 A) as H. rewrite E in H.
  pose proof (good_call fopq fpowi py uc ret tenv UW f ts vs s2 W2 Hf) as G.
  destruct (call_fn fopq fpowi py uc f vs s2) as [[o2 s2']|]; [|contradiction]. destruct H as [<- A2]. destruct G. eauto.
Qed.
Lemma ule_evs n f args args' : Forall2 uref args args' -> Forall wt args -> forall ts0 acc s1 s2, wts s1 -> wts s2 -> agree s1 s2 ->
  Forall2 has_ty (rev acc) ts0 ->
  match f with Magic m ts => ts = ts0 ++ map ty_of args /\ exists t, magic_ty m ts = Some t | User _ => True end ->
  ule (evs (ev n) args s1 acc (call_fn fopq fpowi py uc f)) (evs (ev n) args' s2 acc (call_fn fopq fpowi py uc f)).
Proof.
  intros F WT. induction F as [|a a' l l' Ra F IH]; intros ts0 acc s1 s2 W1 W2 A F2 Hf; cbn.
  - apply ule_call with (ts := ts0); auto. destruct f as [m ts|]; auto. destruct Hf as [-> H]. cbn in *. rewrite app_nil_r in *. auto.
  - inversion WT; subst. eapply ule_vbind; [apply (ev_good fopq fpowi py uc ret tenv UW); auto|now apply Ra|]. intros v t1 t2 W3 W4 A2 Hv.
    apply IH with (ts0 := ts0 ++ [ty_of a]); auto.
    + cbn. apply Forall2_app; auto.
    + destruct f as [m ts|]; auto. cbn [map] in Hf. now rewrite <- app_assoc.
Qed.

Lemma cong_uref e e' : wt e -> rd U e -> cong uref e e' -> uref e e'.
Proof.
  intros WT RD C n s1 s2 W1 W2 A. inversion C as [f args args' F|c a b c' a' b' Rc Ra Rb|x e0 e0' R|l l' F|c a b c' a' b' Rc Ra Rb|c b c' b' Rc Rb|x a st b body a' b' body' Ra Rb Rbd|e0 e0' R|e0 e0' R|f v f' v' Rf Rv|b x h f b' h' f' Rb Rh Rf|e0]; subst; cbn [Sem.ev].
  - destruct WT as (WA & Hf). apply wt_args in WA. apply ule_evs with (ts0 := []); auto; [constructor|]. destruct f; auto. destruct Hf as [<- H]. auto.
  - destruct WT as (Wc & Wa & Wb & Tc & Tab). eapply ule_vbind; [apply (ev_good fopq fpowi py uc ret tenv UW); auto|now apply Rc|]. intros v t1 t2 W3 W4 A2 _. apply ule_cond. intros []; auto.
  - destruct WT as (Wx & We & T). eapply ule_vbind; [apply (ev_good fopq fpowi py uc ret tenv UW); auto|now apply R|]. intros v t1 t2 W3 W4 A2 Hv. apply ule_ret; [now apply agree_set|]. apply set_wt; auto. now rewrite <- T.
  - cbn in WT. apply wt_args in WT. clear C RD. revert s1 s2 W1 W2 A WT. induction F as [|a a' l l' Ra F IH]; intros s1 s2 W1 W2 A WT; cbn; [now apply ule_ret|].
    inversion WT; subst. eapply ule_vbind; [apply (ev_good fopq fpowi py uc ret tenv UW); auto|now apply Ra|]. intros. now apply IH.
  - destruct WT as (Wc & Wa & Wb & Tc & Ta & Tb). eapply ule_vbind; [apply (ev_good fopq fpowi py uc ret tenv UW); auto|now apply Rc|]. intros v t1 t2 W3 W4 A2 _. apply ule_cond. intros []; apply ule_noval; auto.
  - destruct WT as (Wc & Wb & Tc). generalize n at 1 4 as m. intros m. revert s1 s2 W1 W2 A. induction m as [|m IH]; intros s1 s2 W1 W2 A; cbn; [intros o s E; discriminate|].
    eapply ule_vbind; [apply (ev_good fopq fpowi py uc ret tenv UW); auto|now apply Rc|]. intros v t1 t2 W3 W4 A2 _. apply ule_cond. intros []; [|now apply ule_ret].
    pose proof (ev_good fopq fpowi py uc ret tenv UW n b Wb t1 W3) as G. intros o s E N. pose proof (Rb n t1 t2 W3 W4 A2) as H. destruct (ev n b t1) as [[ob u1]|]; [|discriminate].
    destruct (out_ub ob) as [->|Nb]; [injection E as <- <-; now destruct N|].
    destruct (H ob u1 eq_refl Nb) as (u2 & -> & A3 & W5). destruct G. destruct ob; try (injection E as <- <-; eauto; fail).
    + apply (IH u1 u2); auto.
    + apply (IH u1 u2); auto.
  - destruct WT as (Wx & Wa & Wb & Wbd & Ta & Tb & Tx). eapply ule_vbind; [apply (ev_good fopq fpowi py uc ret tenv UW); auto|now apply Ra|]. intros i t1 t2 W3 W4 A2 Hi.
    eapply ule_vbind; [apply (ev_good fopq fpowi py uc ret tenv UW); auto|now apply Rb|]. intros j u1 u2 W5 W6 A3 _. rewrite Ta in Hi. destruct i; try contradiction.
    destruct j; try (intros o s E N; injection E as <- <-; now destruct N).
    rename z into i, z0 into j. cbn in Hi.
    generalize n at 1 3 as m. intros m. revert i u1 u2 Hi W5 W6 A3. induction m as [|m IH]; intros i u1 u2 Hi W5 W6 A3; cbn [for_loop]; [intros o s E; discriminate|].
    destruct (if (0 <? st)%Z then (j <=? i)%Z else (i <=? j)%Z); [now apply ule_ret|].
    assert (W7 : wts (set u1 x (VInt i))). { apply set_wt; auto. now rewrite Tx. }
    assert (W8 : wts (set u2 x (VInt i))). { apply set_wt; auto. now rewrite Tx. }
    pose proof (ev_good fopq fpowi py uc ret tenv UW n body Wbd _ W7) as G. intros o s E N. pose proof (Rbd n _ _ W7 W8 (agree_set _ _ x (VInt i) A3)) as H.
    destruct (ev n body (set u1 x (VInt i))) as [[ob v1]|]; [|discriminate].
    destruct (out_ub ob) as [->|Nb]; [injection E as <- <-; now destruct N|].
    destruct (H ob v1 eq_refl Nb) as (v2 & -> & A4 & W9). destruct G. destruct ob; try (injection E as <- <-; eauto; fail).
    + apply (IH (w64 (i + st)) v1 v2); auto using w64_in.
    + apply (IH (w64 (i + st)) v1 v2); auto using w64_in.
  - eapply ule_vbind; [apply (ev_good fopq fpowi py uc ret tenv UW); auto|now apply R|]. intros v t1 t2 W3 W4 A2 Hv. now apply ule_ret.
  - destruct WT as (We & T). eapply ule_vbind; [apply (ev_good fopq fpowi py uc ret tenv UW); auto|now apply R|]. intros v t1 t2 W3 W4 A2 Hv. now apply ule_ret.
  - destruct WT as (Wf & Wv). eapply ule_vbind; [apply (ev_good fopq fpowi py uc ret tenv UW); auto|now apply Rf|]. intros; now apply Rv.
  - destruct WT as (Wx & Wb & Wh & Wf & Tx).
    assert (G : good tenv TNone (no_val (match ev n b s1 with Some (Exn v, s) => ev n h (set s x v) | r => r end))).
    { pose proof (ev_good fopq fpowi py uc ret tenv UW n b Wb s1 W1) as G. destruct (ev n b s1) as [[[v| | |v|v|] t1]|]; cbn in G |- *; try tauto.
      eapply good_noval. apply (ev_good fopq fpowi py uc ret tenv UW); auto. apply set_wt; try tauto. rewrite Tx. tauto. }
    assert (L : ule (no_val (match ev n b s1 with Some (Exn v, s) => ev n h (set s x v) | r => r end))
                    (no_val (match ev n b' s2 with Some (Exn v, s) => ev n h' (set s x v) | r => r end))).
    { apply ule_noval. intros o s E N. pose proof (ev_good fopq fpowi py uc ret tenv UW n b Wb s1 W1) as Gb. pose proof (Rb n s1 s2 W1 W2 A) as H. destruct (ev n b s1) as [[ob t1]|]; [|discriminate].
      destruct (out_ub ob) as [->|Nb]; [injection E as <- <-; now destruct N|].
      destruct (H ob t1 eq_refl Nb) as (t2 & -> & A2 & W3). destruct Gb as (W4 & Ho). destruct ob; try (injection E as <- <-; eauto; fail).
      eapply (Rh n (set t1 x v) (set t2 x v)); eauto; [apply set_wt; auto; now rewrite Tx|apply set_wt; auto; now rewrite Tx|now apply agree_set]. }
    intros o s E N. destruct (no_val (match ev n b s1 with Some (Exn v, s) => ev n h (set s x v) | r => r end)) as [[o1 t1]|]; [|discriminate].
    destruct G as (W3 & Ho). destruct (out_ub o1) as [->|No]; [injection E as <- <-; now destruct N|].
    destruct (L o1 t1 eq_refl No) as (t2 & -> & A2 & W4).
    assert (E' : fin_after o1 (ev n f t1) = Some (o, s)) by (destruct o1; auto; now destruct No).
    assert (K : exists s3, fin_after o1 (ev n f' t2) = Some (o, s3) /\ agree s s3 /\ wts s3). 2:{ destruct o1; auto; now destruct No. }
    pose proof (Rf n t1 t2 W3 W4 A2) as HF2. destruct (ev n f t1) as [[o2 u1]|]; [|discriminate].
    destruct (out_ub o2) as [->|No2]; [injection E' as <- <-; now destruct N|]. destruct (HF2 o2 u1 eq_refl No2) as (u2 & -> & A3 & W5).
    destruct o2; cbn in E' |- *; injection E' as <- <-; eauto.
  - apply uref_refl; auto.
Qed.

Lemma rd_cong (e e' : node) : cong (fun a b => rd U a -> rd U b) e e' -> rd U e -> rd U e'.
Proof.
  assert (L : forall l l', Forall2 (fun a b => rd U a -> rd U b) l l' -> Forall (rd U) l -> Forall (rd U) l').
  { intros l l2 F. induction F; intros RD; auto. inversion RD; subst. auto. }
  intros C. inversion C; subst; cbn [rd]; rewrite ?rd_args; try tauto; now apply L.
Qed.
End Eff.
