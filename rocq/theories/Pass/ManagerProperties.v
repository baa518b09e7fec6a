(** C26: passes and analyses see results that are not out of date. *)
From Coq Require Import List Bool Arith Lia String Permutation.
From Verif.Common Require Import Result.
From Verif.Pass Require Import Manager ManagerProofs.
Import ListNotations.
Local Open Scope list_scope.

(** ** Specification *)
Section Spec.
Context {M R : Type}.
(** what an event requires, by the registration of its pass or analysis *)
Definition requires (mg : manager M R) (e : event M R) (k : string) : Prop :=
  match e with
  | EvAnalysis a _ _ _ => exists meta, mlookup (analyses mg) a = Some meta /\ In k (am_reqs meta)
  | EvPass p _ _ => exists meta, mlookup (passes mg) p = Some meta /\ In k (pm_reqs meta)
  end.
Definition on_module (e : event M R) : M := match e with EvAnalysis _ m _ _ => m | EvPass _ m _ => m end.
Definition sees (e : event M R) : string -> option R := match e with EvAnalysis _ _ s _ => s | EvPass _ _ s => s end.
(** pass [p] declares that it invalidates [k] or something [k] is computed from *)
Definition pass_invalidates (mg : manager M R) (p k : string) : Prop :=
  exists meta i, mlookup (passes mg) p = Some meta /\ In i (pm_invalidates meta) /\ depends mg k i.
(** the result of analysis [k] computed anew on module [m] *)
Inductive fresh (mg : manager M R) (m : M) : string -> R -> Prop :=
| fresh_intro : forall k meta seen, mlookup (analyses mg) k = Some meta ->
    (forall q, In q (am_reqs meta) -> seen q <> None) ->
    (forall q v, In q (am_reqs meta) -> seen q = Some v -> fresh mg m q v) ->
    fresh mg m k (arun (am_analysis meta) m seen).
End Spec.

Section Theorems.
Context {M R : Type} (shuffle : list string -> list string) (SH : forall l, Permutation (shuffle l) l).

(** Whatever was registered, and whatever the passes do: whenever a pass or an analysis runs, each
    analysis that it requires has a result, that result was computed earlier by that analysis, and
    no pass that invalidates it, or something it is computed from, ran in between.  This holds at
    every point of every run, also if a pass repeats for ever; no run goes wrong otherwise. *)
Theorem C26_required_results_present_and_valid : forall dis prog (mg : manager M R) fuel m st o,
  build (empty_manager dis) prog [] = Ok mg ->
  run shuffle fuel mg m = (st, o) ->
  (o = Ok tt \/ o = NoFuel) /\
  forall pre e post, log st = pre ++ e :: post -> forall k, requires mg e k ->
    exists v, sees e k = Some v /\
      exists pre1 m1 seen1 pre2, pre = pre1 ++ EvAnalysis k m1 seen1 v :: pre2 /\
        forall p mp sp, In (EvPass p mp sp) pre2 -> ~ pass_invalidates mg p k.
Proof.
  intros dis prog mg fuel m st o B E.
  pose proof (build_ok prog _ _ _ (wfm_empty dis) B) as W.
  set (Q := fun (m : M) (k : string) (v : R) (lg : list (event M R)) =>
    exists pre1 m1 seen1 pre2, lg = pre1 ++ EvAnalysis k m1 seen1 v :: pre2 /\
        forall p mp sp, In (EvPass p mp sp) pre2 -> ~ pass_invalidates mg p k).
  pose proof (run_ok shuffle SH mg W Q) as H.
  assert (S : let '(st', o) := run shuffle fuel mg m in sinv mg Q st' /\ (o = Ok tt \/ o = NoFuel)).
  { apply H; unfold Q.
    - intros m0 k meta seen lg L _. exists lg, m0, seen, []. split; auto.
    - intros m0 k v lg k' seen r (pre1 & m1 & s1 & pre2 & -> & N). exists pre1, m1, s1, (pre2 ++ [EvAnalysis k' m0 seen r]).
      split; [rewrite <- app_assoc; reflexivity|]. intros p mp sp I. apply in_app_or in I. destruct I as [I|[I|[]]]; [eapply N; eauto|discriminate].
    - intros m0 k v lg p meta seen (pre1 & m1 & s1 & pre2 & -> & N) _ L D. exists pre1, m1, s1, (pre2 ++ [EvPass p m0 seen]).
      split; [rewrite <- app_assoc; reflexivity|]. intros p' mp sp I. apply in_app_or in I. destruct I as [I|[I|[]]]; [eapply N; eauto|].
      injection I as <- _ _. intros (meta' & i & L' & J & K). rewrite L in L'. injection L' as <-. exact (D i J K). }
  rewrite E in S. destruct S as [S O]. split; auto.
  intros pre e post EL k RQ. pose proof (s_log _ _ _ S pre e post EL) as SV.
  destruct e as [a m0 seen r|p m0 seen]; cbn in *.
  - destruct SV as (meta & L & _ & X). destruct RQ as (meta' & L' & I). rewrite L in L'. injection L' as <-. exact (X k I).
  - destruct SV as (meta & L & X). destruct RQ as (meta' & L' & I). rewrite L in L'. injection L' as <-. exact (X k I).
Qed.

(** If analyses use only the results that they require, and every pass declares the analyses whose
    results it may change, then each required result is the one that computing it anew would give. *)
Theorem C26_required_results_up_to_date : forall dis prog (mg : manager M R) fuel m st o,
  build (empty_manager dis) prog [] = Ok mg ->
  (forall k meta m s s', mlookup (analyses mg) k = Some meta -> (forall q, In q (am_reqs meta) -> s q = s' q) ->
     arun (am_analysis meta) m s = arun (am_analysis meta) m s') ->
  (forall p meta m s k v, mlookup (passes mg) p = Some meta -> ~ pass_invalidates mg p k ->
     fresh mg m k v -> fresh mg (prun (pm_pass meta) m s) k v) ->
  run shuffle fuel mg m = (st, o) ->
  forall pre e post, log st = pre ++ e :: post -> forall k, requires mg e k ->
    exists v, sees e k = Some v /\ fresh mg (on_module e) k v /\ forall v', fresh mg (on_module e) k v' -> v' = v.
Proof.
  intros dis prog mg fuel m st o B DECL HON E.
  pose proof (build_ok prog _ _ _ (wfm_empty dis) B) as W.
  assert (UNIQ : forall m k v, fresh mg m k v -> forall v', fresh mg m k v' -> v' = v).
  { intros m0 k v F. induction F as [k meta s L N F IH]. intros v' F'. inversion F' as [k' meta' s' L' N' G' Q1 Q2]. subst k' v'.
    rewrite L in L'. injection L' as <-. apply (DECL k); auto. intros q I.
    destruct (s q) as [v1|] eqn:E1; [|exfalso; eapply N; eauto].
    destruct (s' q) as [v2|] eqn:E2; [|exfalso; eapply N'; eauto]. f_equal. eapply IH; eauto. }
  set (Q := fun (m : M) (k : string) (v : R) (lg : list (event M R)) => fresh mg m k v).
  assert (S : let '(st', o) := run shuffle fuel mg m in sinv mg Q st' /\ (o = Ok tt \/ o = NoFuel)).
  { apply (run_ok shuffle SH mg W Q); unfold Q.
    - intros m0 k meta seen lg L X. apply fresh_intro; auto.
      + intros q I. destruct (X q I) as (v & -> & _). discriminate.
      + intros q v I Y. destruct (X q I) as (v' & Y' & Z). congruence.
    - auto.
    - intros m0 k v lg p meta seen F _ L D. apply (HON p); auto. intros (meta' & i & L' & J & K).
      rewrite L in L'. injection L' as <-. exact (D i J K). }
  rewrite E in S. destruct S as [S O].
  intros pre e post EL k RQ. pose proof (s_log _ _ _ S pre e post EL) as SV.
  destruct e as [a m0 seen r|p m0 seen]; cbn in *.
  - destruct SV as (meta & L & _ & X). destruct RQ as (meta' & L' & I). rewrite L in L'. injection L' as <-.
    destruct (X k I) as (v & Y & Z). exists v. split; auto. split; auto. intros v' F. eapply UNIQ; eauto.
  - destruct SV as (meta & L & X). destruct RQ as (meta' & L' & I). rewrite L in L'. injection L' as <-.
    destruct (X k I) as (v & Y & Z). exists v. split; auto. split; auto. intros v' F. eapply UNIQ; eauto.
Qed.

(** Two registrations never share a key, so none can replace another. *)
Theorem C26_keys_are_unique : forall dis prog (mg mg' : manager M R) p b reqs inv a reqs' k,
  build (empty_manager dis) prog [] = Ok mg ->
  (registerPass mg p b reqs inv = Ok (k, mg') \/ registerAnalysis mg a reqs' = Ok (k, mg')) ->
  k = ""%string \/ (mlookup (passes mg) k = None /\ mlookup (analyses mg) k = None).
Proof.
  intros dis prog mg mg' p b reqs inv a reqs' k B H.
  pose proof (build_ok prog _ _ _ (wfm_empty dis) B) as W.
  assert (G : forall raw key km', getUniqueKey (km mg) raw = Ok (key, km') -> mlookup (passes mg) key = None /\ mlookup (analyses mg) key = None).
  { intros raw key km' G. destruct (getUniqueKey_ok _ _ _ _ (w_keys _ W) G) as (_ & N & _).
    split; [apply none_issued_ps; auto|apply none_issued_an; auto]. }
  destruct H as [H|H].
  - unfold registerPass in H. destruct (smem (pkey p) (disabled mg)); [injection H as <- _; auto|].
    destruct (getUniqueKey (km mg) (pkey p)) as [[key km']| | |] eqn:X; cbn [bind] in H; try discriminate.
    destruct (addDeps key reqs (deps mg)); cbn [bind] in H; try discriminate.
    match type of H with bind ?x _ = _ => destruct x end; cbn [bind] in H; try discriminate.
    injection H as <- _. right. eapply G; eauto.
  - unfold registerAnalysis in H. destruct (smem (akey a) (disabled mg)); [injection H as <- _; auto|].
    destruct (getUniqueKey (km mg) (akey a)) as [[key km']| | |] eqn:X; cbn [bind] in H; try discriminate.
    destruct (addDeps key reqs' (deps mg)); cbn [bind] in H; try discriminate.
    injection H as <- _. right. eapply G; eauto.
Qed.

(** ** The standard pipeline *)
(** every pass requires nothing or invalidates every analysis *)
Definition covering (mg : manager M R) : Prop := forall p meta, mlookup (passes mg) p = Some meta ->
  pm_reqs meta = [] \/ forall k, mlookup (analyses mg) k <> None -> exists i, In i (pm_invalidates meta) /\ depends mg k i.
Definition nores (st : state M R) : Prop := forall k, mlookup (results st) k = None.
Definition TT : M -> string -> R -> list (event M R) -> Prop := fun _ _ _ _ => True.
Definition idle (mg : manager M R) (st : state M R) : Prop :=
  forall p m s meta k, In (EvPass p m s) (log st) -> mlookup (passes mg) p = Some meta -> pm_reqs meta = [] -> s k = None.

Lemma runAnalysis_log (mg : manager M R) fuel : forall name st st', runAnalysis fuel mg name st = Ok st' ->
  forall p m s, In (EvPass p m s) (log st') -> In (EvPass p m s) (log st).
Proof.
  induction fuel as [|fuel IH]; intros name st st' E p m s I; cbn in E; [discriminate|].
  destruct (mhas (results st) name); [injection E as <-; auto|].
  destruct (mlookup (analyses mg) name) as [meta|]; [|discriminate].
  destruct (fold_left _ (am_reqs meta) (Ok st)) as [st1| | |] eqn:F; cbn [bind] in E; try discriminate.
  injection E as <-. cbn [log] in I. apply in_app_or in I. destruct I as [I|[I|[]]]; [|discriminate].
  revert st F I. generalize (am_reqs meta). clear -IH. intros l. induction l as [|q l IHl]; intros st F I; cbn in F; [injection F as <-; auto|].
  destruct (runAnalysis fuel mg q st) as [st2| | |] eqn:G.
  - eapply IH; [exact G|]. eapply IHl; eauto.
  - exfalso. clear -F. induction l; cbn in F; [discriminate|auto].
  - exfalso. clear -F. induction l; cbn in F; [discriminate|auto].
  - exfalso. clear -F. induction l; cbn in F; [discriminate|auto].
Qed.
Lemma runAnalyses_log (mg : manager M R) fuel l : forall st st', fold_left (fun r dep => bind r (fun st => runAnalysis fuel mg dep st)) l (Ok st) = Ok st' ->
  forall p m s, In (EvPass p m s) (log st') -> In (EvPass p m s) (log st).
Proof.
  induction l as [|q l IHl]; intros st st' F p m s I; cbn in F; [injection F as <-; auto|].
  destruct (runAnalysis fuel mg q st) as [st2| | |] eqn:G.
  - eapply runAnalysis_log; [exact G|]. eapply IHl; eauto.
  - exfalso. clear -F. induction l; cbn in F; [discriminate|auto].
  - exfalso. clear -F. induction l; cbn in F; [discriminate|auto].
  - exfalso. clear -F. induction l; cbn in F; [discriminate|auto].
Qed.
Lemma runPass_idle (mg : manager M R) (W : wfm mg) (CV : covering mg) fuel : forall name it st, sinv mg TT st -> mlookup (passes mg) name <> None ->
  nores st -> idle mg st -> let '(st', o) := runPass shuffle fuel mg name it st in idle mg st' /\ (o = Ok tt -> nores st').
Proof.
  induction fuel as [|fuel IH]; intros name it st S H N ID; cbn [runPass]; [split; [auto|discriminate]|].
  destruct (mlookup (passes mg) name) as [meta|] eqn:L; [|congruence].
  assert (T1 : forall m k meta seen lg, mlookup (analyses mg) k = Some meta ->
    (forall r, In r (am_reqs meta) -> exists v, seen r = Some v /\ TT m r v lg) ->
    TT m k (arun (am_analysis meta) m seen) (lg ++ [EvAnalysis k m seen (arun (am_analysis meta) m seen)])) by (intros; exact I).
  assert (T2 : forall m k v lg k' seen r, TT m k v lg -> TT m k v (lg ++ [EvAnalysis k' m seen r])) by (intros; exact I).
  destruct (wp_inv _ _ (runAnalyses_ok mg W TT T1 T2 (pm_reqs meta) ltac:(intros; eapply (w_pass_reqs _ W); eauto) st S)) as (st1 & E1 & S1 & M1 & X1 & Y1).
  rewrite E1.
  destruct (wp_inv _ _ (invalidates_ok shuffle SH mg (pm_invalidates meta) W (results st1) (s_closed _ _ _ S1))) as (rs & -> & Cl & Hr).
  set (m' := prun (pm_pass meta) (module st1) (mlookup (results st1))).
  assert (N2 : nores (State m' rs (log st1 ++ [EvPass name (module st1) (mlookup (results st1))]))).
  { intros k. cbn [results]. destruct (mlookup rs k) as [v|] eqn:K; auto. exfalso. apply Hr in K. destruct K as [K D].
    destruct (CV name meta L) as [Z|Z].
    - rewrite Z in E1. cbn in E1. injection E1 as <-. rewrite N in K. discriminate.
    - destruct (s_closed _ _ _ S1 k) as (am & La & _); [congruence|]. destruct (Z k) as (i & Ii & Di); [congruence|]. exact (D i Ii Di). }
  assert (I2 : idle mg (State m' rs (log st1 ++ [EvPass name (module st1) (mlookup (results st1))]))).
  { intros p m s meta' k J L' Z. cbn [log] in J. apply in_app_or in J. destruct J as [J|[J|[]]].
    - eapply ID; eauto. eapply runAnalyses_log; eauto.
    - injection J as <- <- <-. rewrite L in L'. injection L' as <-. rewrite Z in E1. cbn in E1. injection E1 as <-. apply N. }
  destruct (shouldRepeat (pm_pass meta) m' (Datatypes.S it)); [|auto].
  assert (S2 : sinv mg TT (State m' rs (log st1 ++ [EvPass name (module st1) (mlookup (results st1))]))).
  { split; cbn [module results log]; [exact Cl|intros; exact I|].
    apply goodlog_snoc; [apply S1|]. cbn. exists meta. split; auto. intros q J.
    destruct (mlookup (results st1) q) as [v|] eqn:E; [|exfalso; eapply Y1; eauto]. exists v. split; [auto|exact I]. }
  apply IH; auto. congruence.
Qed.
Lemma runAll_idle (mg : manager M R) (W : wfm mg) (CV : covering mg) fuel order : (forall k, In k order -> mlookup (passes mg) k <> None) -> forall st,
  sinv mg TT st -> nores st -> idle mg st -> let '(st', o) := runAll shuffle fuel mg order st in idle mg st'.
Proof.
  assert (T1 : forall m k meta seen lg, mlookup (analyses mg) k = Some meta ->
    (forall r, In r (am_reqs meta) -> exists v, seen r = Some v /\ TT m r v lg) ->
    TT m k (arun (am_analysis meta) m seen) (lg ++ [EvAnalysis k m seen (arun (am_analysis meta) m seen)])) by (intros; exact I).
  assert (T2 : forall m k v lg k' seen r, TT m k v lg -> TT m k v (lg ++ [EvAnalysis k' m seen r])) by (intros; exact I).
  induction order as [|p order IH]; intros H st S N ID; cbn [runAll]; [auto|].
  pose proof (runPass_idle mg W CV fuel p 0 st S (H p (or_introl eq_refl)) N ID) as P.
  pose proof (runPass_ok shuffle SH mg W TT T1 T2 ltac:(intros; exact I) fuel p 0 st S (H p (or_introl eq_refl))) as P2.
  destruct (runPass shuffle fuel mg p 0 st) as [st1 o]. destruct P as [P Q]. destruct P2 as [S1 [->| ->]]; [|auto].
  apply IH; auto. intros; apply H; right; auto.
Qed.

(** In a covering set-up every result that a pass requires was computed after every earlier pass. *)
Lemma covering_recomputes (mg : manager M R) (W : wfm mg) (CV : covering mg) fuel m st o : run shuffle fuel mg m = (st, o) ->
  forall pre p mp sp post, log st = pre ++ EvPass p mp sp :: post -> forall k, requires mg (EvPass p mp sp) k ->
    exists v pre1 m1 seen1 pre2, sp k = Some v /\ pre = pre1 ++ EvAnalysis k m1 seen1 v :: pre2 /\
      forall q mq sq, ~ In (EvPass q mq sq) pre2.
Proof.
  intros E.
  set (Q := fun (m : M) (k : string) (v : R) (lg : list (event M R)) =>
    exists pre1 m1 seen1 pre2, lg = pre1 ++ EvAnalysis k m1 seen1 v :: pre2 /\ mlookup (analyses mg) k <> None /\
        forall p mp sp, In (EvPass p mp sp) pre2 -> ~ pass_invalidates mg p k /\ sp k = Some v /\ mlookup (passes mg) p <> None).
  assert (S : let '(st', o) := run shuffle fuel mg m in sinv mg Q st' /\ (o = Ok tt \/ o = NoFuel)).
  { apply (run_ok shuffle SH mg W Q); unfold Q.
    - intros m0 k meta seen lg L _. exists lg, m0, seen, []. split; [auto|]. split; [congruence|]. intros ? ? ? [].
    - intros m0 k v lg k' seen r (pre1 & m1 & s1 & pre2 & -> & LA & N). exists pre1, m1, s1, (pre2 ++ [EvAnalysis k' m0 seen r]).
      split; [rewrite <- app_assoc; reflexivity|]. split; [auto|]. intros p mp sp I. apply in_app_or in I. destruct I as [I|[I|[]]]; [eapply N; eauto|discriminate].
    - intros m0 k v lg p meta seen (pre1 & m1 & s1 & pre2 & -> & LA & N) SK L D. exists pre1, m1, s1, (pre2 ++ [EvPass p m0 seen]).
      split; [rewrite <- app_assoc; reflexivity|]. split; [auto|]. intros p' mp sp I. apply in_app_or in I. destruct I as [I|[I|[]]]; [eapply N; eauto|].
      injection I as <- <- <-. split; [|split; [auto|congruence]].
      intros (meta' & i & L' & J & K). rewrite L in L'. injection L' as <-. exact (D i J K). }
  assert (ID : let '(st', o) := run shuffle fuel mg m in idle mg st').
  { unfold run. apply runAll_idle; auto; [apply (w_order _ W)| |intros k; reflexivity|intros p m0 s meta k []].
    split; cbn; [intros k H; exfalso; apply H; reflexivity|intros; exact I|]. intros pre e post X. destruct pre; discriminate. }
  rewrite E in S, ID. destruct S as [S O].
  intros pre p mp sp post EL k (meta & L & I).
  destruct (s_log _ _ _ S pre _ post EL) as (meta' & L' & X). rewrite L in L'. injection L' as <-.
  destruct (X k I) as (v & Y & pre1 & m1 & s1 & pre2 & Z & LA & N).
  exists v, pre1, m1, s1, pre2. split; auto. split; auto. intros q mq sq J.
  destruct (N q mq sq J) as (NI & SQ & LQ). destruct (mlookup (passes mg) q) as [mq'|] eqn:Eq; [|congruence].
  destruct (CV q mq' Eq) as [R0|R0].
  - assert (K0 : sq k = None); [|congruence]. apply (ID q mq sq mq' k); auto. rewrite EL, Z, <- app_assoc. cbn. apply in_or_app. right. right.
    apply in_or_app. left. exact J.
  - destruct (R0 k LA) as (i & Ii & Di). apply NI. exists mq', i. auto.
Qed.
End Theorems.

Section Standard.
Context {M R : Type} (prun_of : string -> M -> (string -> option R) -> M)
        (arun_of : string -> M -> (string -> option R) -> R) (rep_of : string -> M -> nat -> bool).
Context (shuffle : list string -> list string) (SH : forall l, Permutation (shuffle l) l).

(** a decision procedure for dependence *)
Fixpoint dependsb (fuel : nat) (mg : manager M R) (k d : string) : bool :=
  match fuel with
  | O => false
  | S fuel => String.eqb k d || match mlookup (analyses mg) k with
                                | Some meta => existsb (fun r => dependsb fuel mg r d) (am_reqs meta)
                                | None => false
                                end
  end.
Lemma dependsb_ok fuel mg : forall k d, dependsb fuel mg k d = true -> depends mg k d.
Proof.
  induction fuel as [|fuel IH]; intros k d H; [discriminate|]. cbn in H. apply orb_true_iff in H. destruct H as [H|H].
  - apply String.eqb_eq in H. subst. constructor.
  - destruct (mlookup (analyses mg) k) as [meta|] eqn:L; [|discriminate]. apply existsb_exists in H. destruct H as (r & I & H).
    eapply dep_step; eauto.
Qed.
Definition coversb (mg : manager M R) : bool :=
  forallb (fun '(_, meta) => match pm_reqs meta with [] => true | _ =>
     forallb (fun '(k, _) => existsb (fun i => dependsb 10 mg k i) (pm_invalidates meta)) (analyses mg) end) (passes mg).
Lemma coversb_ok mg : coversb mg = true -> covering mg.
Proof.
  intros H p meta L. apply mlookup_in in L. unfold coversb in H. rewrite forallb_forall in H. specialize (H _ L). cbn in H.
  destruct (pm_reqs meta) as [|r rs]; [auto|right]. rewrite forallb_forall in H. intros k K.
  destruct (mlookup (analyses mg) k) as [am|] eqn:La; [|congruence]. apply mlookup_in in La. specialize (H _ La). cbn in H.
  apply existsb_exists in H. destruct H as (i & I & D). exists i. split; auto. exact (dependsb_ok 10 mg _ _ D).
Qed.

Definition checkb (o : res (manager M R)) (jit : bool) : bool :=
  match o with Ok mg => coversb mg && Nat.eqb (List.length (executionOrder mg)) (if jit then 14 else 15) | _ => false end.
Lemma checkb_ok o jit : checkb o jit = true ->
  exists mg, o = Ok mg /\ coversb mg = true /\ List.length (executionOrder mg) = (if jit then 14 else 15).
Proof.
  destruct o as [mg| | |]; try discriminate. cbn [checkb]. intros C. apply andb_true_iff in C. destruct C as [C N].
  apply Nat.eqb_eq in N. exists mg. auto.
Qed.
Lemma std_checked jit : checkb (build (empty_manager []) (std_passes prun_of arun_of rep_of jit) []) jit = true.
Proof. destruct jit; vm_compute; reflexivity. Qed.

(** The pipelines that the compiler sets up (release and JIT), whatever the passes and analyses do:
    setting up succeeds, and whenever a pass runs, every result it requires was computed after all
    the passes that ran before it. *)
Theorem C26_standard_pipeline_recomputes : forall jit, exists mg,
  build (empty_manager []) (std_passes prun_of arun_of rep_of jit) [] = Ok mg /\
  List.length (executionOrder mg) = (if jit then 14 else 15) /\
  forall fuel m st o, run shuffle fuel mg m = (st, o) ->
  (o = Ok tt \/ o = NoFuel) /\
  forall pre p mp sp post, log st = pre ++ EvPass p mp sp :: post -> forall k, requires mg (EvPass p mp sp) k ->
    exists v pre1 m1 seen1 pre2, sp k = Some v /\ pre = pre1 ++ EvAnalysis k m1 seen1 v :: pre2 /\
      forall q mq sq, ~ In (EvPass q mq sq) pre2.
Proof.
  intros jit.
  pose proof (checkb_ok _ _ (std_checked jit)) as X.
  destruct X as (mg & E & C & N). exists mg. split; auto. split; auto.
  pose proof (build_ok _ _ _ _ (wfm_empty []) E) as W.
  intros fuel m st o RN. split.
  - exact (proj1 (C26_required_results_present_and_valid shuffle SH _ _ mg fuel m st o E RN)).
  - eapply covering_recomputes; eauto. apply coversb_ok, C.
Qed.
End Standard.

(** Disabling an analysis makes the set-up of the standard pipeline fail. *)
Theorem C26_disabled_analysis_refuted : forall jit,
  std_manager (M := nat) (R := nat) (fun _ m _ => m) (fun _ m _ => m) (fun _ _ _ => false) ["core-analyses-cfg"%string] jit = Raise OtherError.
Proof. intros []; vm_compute; reflexivity. Qed.

(** The members of a group all see the results computed before the first of them ran: here the module
    is a number, the analysis gives that number, the first member adds one and the second one sets
    the module to 100 if the result is not that of its module. *)
Definition stale_group : list (nat -> (string -> option nat) -> nat) :=
  [fun m _ => m + 1; fun m seen => match seen "a"%string with Some v => if Nat.eqb v m then m else 100 | None => 200 end].
Theorem C26_group_members_see_old_results_refuted : exists mg,
  build (empty_manager []) [fun _ => RegAnalysis (Analysis "a" (fun m _ => m)) [];
                            fun _ => RegPass (Pass "g" (groupRun stale_group) (fun _ _ => false)) "" ["a"%string] ["a"%string]] [] = Ok mg
  /\ module (fst (run (fun l => l) 1 mg 7)) = 100.
Proof. eexists. split; vm_compute; reflexivity. Qed.

(** A run with dependent analyses, a repeated pass and an invalidation. *)
Example manager_ex : exists mg,
  build (empty_manager []) [fun _ => RegAnalysis (Analysis "a" (fun m _ => m)) [];
                            fun ks => RegAnalysis (Analysis "b" (fun m s => match s "a"%string with Some v => v * 2 | None => 0 end)) [key_at ks 0];
                            fun ks => RegPass (Pass "p" (fun m s => match s "b"%string with Some v => m + v | None => 0 end) (fun _ n => Nat.ltb n 3)) "" [key_at ks 1] ["a"%string];
                            fun ks => RegPass (Pass "p" (fun m s => m) (fun _ _ => false)) "" ["b"%string] []] [] = Ok mg
  /\ module (fst (run (fun l => l) 5 mg 1)) = 27 /\ snd (run (fun l => l) 5 mg 1) = Ok tt
  /\ executionOrder mg = ["p"%string; "p:2"%string] /\ List.length (log (fst (run (fun l => l) 5 mg 1))) = 12.
Proof. eexists. split; [vm_compute; reflexivity|]. split; [|split; [|split]]; vm_compute; reflexivity. Qed.

Print Assumptions C26_required_results_present_and_valid.
Print Assumptions C26_required_results_up_to_date.
Print Assumptions C26_keys_are_unique.
Print Assumptions C26_standard_pipeline_recomputes.
Print Assumptions C26_disabled_analysis_refuted.
Print Assumptions C26_group_members_see_old_results_refuted.
