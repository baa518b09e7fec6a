(** C24: reaching definitions and constant propagation. *)
From Coq Require Import List Bool Arith Lia.
From Verif.Common Require Import Result.
From Verif.Flow Require Import Graph Reach ReachProofs.
Import ListNotations.

(** ** Specification *)
Definition assigns (x : nat) (v : item) : Prop := exists a, ikind v = KDef x a.
(** [d] is the last assignment of [x] in [l]. *)
Definition last_assignment (x : nat) (l : list item) (d : item) : Prop :=
  exists before after, l = before ++ d :: after /\ assigns x d /\ Forall (fun v => ~ assigns x v) after.
(** What an assignment is reported as: by its right-hand side when this is known. *)
Definition reported (d : item) : rdef :=
  match ikind d with KDef _ (Some a) => RKnown a | _ => RUnknown (iid d) end.
(** The values run on a path through blocks [h] (latest first). *)
Fixpoint run_on (items : nat -> list item) (h : list nat) : list item :=
  match h with [] => [] | b :: h => run_on items h ++ items b end.
Definition address_taken (g : graph) (items : nat -> list item) (x : nat) : Prop :=
  exists b v, b < size g /\ In v (items b) /\ ikind v = KPtr x.

Lemma ran_run items h : ran items h = run_on items h.
Proof. induction h as [|b h IH]; auto. now rewrite ran_cons, IH. Qed.
Lemma kills_assigns x v : kills x v = true <-> assigns x v.
Proof.
  rewrite kills_killed. unfold getKilled, assigns. destruct (ikind v) as [y a|y|y|]; split; try discriminate; try (intros [b H]; discriminate).
  - intros H; injection H as ->. eauto.
  - intros [b H]. congruence.
Qed.
Lemma lastdef_last x l d : lastdef x l = Some d <-> last_assignment x l d.
Proof.
  split.
  - induction l as [|v l IH]; [discriminate|]. rewrite lastdef_cons. destruct (lastdef x l) as [e|] eqn:E.
    + intros H; injection H as ->. destruct IH as (b & a & -> & R); auto. exists (v :: b), a. auto.
    + destruct (kills x v) eqn:K; [|discriminate]. intros H; injection H as ->. exists [], l. split; auto. split; [now apply kills_assigns|].
      apply Forall_forall. intros w W A. apply kills_assigns in A. rewrite lastdef_none in E. rewrite E in A by auto. discriminate.
  - intros (b & a & -> & A & F). rewrite lastdef_app, lastdef_cons. replace (lastdef x a) with (@None item); [now rewrite (proj2 (kills_assigns x d) A)|].
    symmetry. apply lastdef_none. intros w W. apply not_true_iff_false. rewrite kills_assigns. rewrite Forall_forall in F. now apply F.
Qed.
Lemma def_reported x d r : assigns x d -> def_of d = Some r <-> r = reported d.
Proof. intros [a E]. unfold def_of, getGenerated, reported. rewrite E. destruct a; split; congruence. Qed.

Section Props.
Context (g : graph) (items : nat -> list item).
Context (WF : wf g) (ND : NoDup (map iid (concat (map items (seq 0 (size g)))))).

(** C24: the analysis ends; for a variable whose address is not taken, the definitions reported at value [v] are exactly
    the last assignments before (or at) [v], over all paths to it, each once. *)
Theorem C24_reaching_definitions_exact : exists ins, analyze g items = Ok ins /\
  forall b before v after x, b < size g -> items b = before ++ v :: after -> ~ address_taken g items x ->
  NoDup (getReachingDefinitions g items ins false x (iid v)) /\
  forall r, In r (getReachingDefinitions g items ins false x (iid v)) <->
  exists s h d, s < size g /\ trace g s h b /\ last_assignment x (run_on items h ++ before ++ [v]) d /\ r = reported d.
Proof.
  destruct (analyze_exact g WF items ND) as (ins & E & _). exists ins. split; auto. intros b before v after x HB EI NT.
  destruct (query_exact g WF items ND ins b x v before after E HB EI) as [Q1 Q2].
  { intros (w & HW & K). apply NT. destruct (all_in g items w HW) as (c & HC & HI). exists c, w. auto. }
  split; auto. intros r. rewrite Q2. split.
  - intros (s & h & d & HS & T & L & D). exists s, h, d. rewrite ran_run in L. apply lastdef_last in L. split; auto. split; auto. split; auto. apply (def_reported x); auto. destruct L as (? & ? & _ & A & _). exact A.
  - intros (s & h & d & HS & T & L & D). exists s, h, d. rewrite ran_run. split; auto. split; auto. split; [now apply lastdef_last|]. apply (def_reported x); auto. destruct L as (? & ? & _ & A & _). exact A.
Qed.

(** Executions: variables hold values, or nothing before they are assigned.  An assignment of a constant
    stores it, any other assignment stores any value; only variables whose address is taken change otherwise. *)
Context {V : Type} (constOf : nat -> option V).
Definition env : Type := nat -> option V.
Inductive step : item -> env -> env -> Prop :=
| step_const v x a c e e' : ikind v = KDef x (Some a) -> constOf a = Some c ->
    e' x = Some c -> (forall y, y <> x -> ~ address_taken g items y -> e' y = e y) -> step v e e'
| step_any v x s c e e' : ikind v = KDef x s -> (forall a, s = Some a -> constOf a = None) ->
    e' x = Some c -> (forall y, y <> x -> ~ address_taken g items y -> e' y = e y) -> step v e e'
| step_other v e e' : (forall x, ~ assigns x v) -> (forall y, ~ address_taken g items y -> e' y = e y) -> step v e e'.
Inductive steps : list item -> env -> env -> Prop :=
| steps_nil e : steps [] e e
| steps_cons v l e e' e'' : step v e e' -> steps l e' e'' -> steps (v :: l) e e''.
(** [arrives b e]: some execution starts block [b] with variables [e]. *)
Inductive arrives : nat -> env -> Prop :=
| arrives_entry : arrives entry (fun _ => None)
| arrives_next b c e e' : arrives b e -> steps (items b) e e' -> In c (succs g b) -> arrives c e'.

(** [e x] is what the last assignment in [l] stored. *)
Definition holds (x : nat) (l : list item) (e : env) : Prop :=
  match lastdef x l with
  | None => e x = None
  | Some d => match ikind d with KDef _ (Some a) => match constOf a with Some c => e x = Some c | None => True end | _ => True end
  end.
Lemma step_holds x l v e e' : ~ address_taken g items x -> holds x l e -> step v e e' -> holds x (l ++ [v]) e'.
Proof.
  intros NT H S. unfold holds in *. rewrite lastdef_app, lastdef_cons. cbn [lastdef fold_left]. destruct S as [v y a c e e' K C E F|v y s c e e' K C E F|v e e' K F].
  - destruct (kills x v) eqn:KX.
    + apply kills_assigns in KX. destruct KX as [b KX]. rewrite K in KX. injection KX as -> <-. rewrite K, C. auto.
    + rewrite F; auto. intros ->. assert (X : kills y v = true) by (apply kills_assigns; eexists; eauto). congruence.
  - destruct (kills x v) eqn:KX.
    + rewrite K. destruct s as [a|]; auto. now rewrite (C a eq_refl).
    + rewrite F; auto. intros ->. assert (X : kills y v = true) by (apply kills_assigns; eexists; eauto). congruence.
  - replace (kills x v) with false by (symmetry; apply not_true_iff_false; rewrite kills_assigns; auto). now rewrite F.
Qed.
Lemma steps_holds x l m e e' : ~ address_taken g items x -> holds x l e -> steps m e e' -> holds x (l ++ m) e'.
Proof.
  intros NT H S. revert l H. induction S as [e|v m e e' e'' S1 S2 IH]; intros l H; [now rewrite app_nil_r|].
  replace (l ++ v :: m) with ((l ++ [v]) ++ m) by (now rewrite <- app_assoc). eapply IH, step_holds; eauto.
Qed.
Lemma arrives_trace b e : arrives b e -> exists h, trace g entry h b /\ forall x, ~ address_taken g items x -> holds x (run_on items h) e.
Proof.
  induction 1 as [|b c e e' A (h & T & H) S E].
  - exists []. split; [constructor|]. intros x _. reflexivity.
  - exists (b :: h). split; [econstructor; eauto|]. intros x NT. cbn. eapply steps_holds; eauto.
Qed.

(** C24: constant propagation replaces the read [v] of [x] by [c] only if every execution that gets to [v] finds
    [c] in [x], or has never assigned [x] (which a checked program does not read). *)
Theorem C24_propagated_constants_are_right : exists ins, analyze g items = Ok ins /\
  forall b before v after x c, b < size g -> items b = before ++ v :: after -> ~ assigns x v -> ~ address_taken g items x ->
  propagate g items constOf ins x (iid v) = Some c ->
  forall e e', arrives b e -> steps before e e' -> e' x = None \/ e' x = Some c.
Proof.
  destruct C24_reaching_definitions_exact as (ins & E & Q). exists ins. split; auto. intros b before v after x c HB EI NA NT P e e' A S.
  destruct (Q b before v after x HB EI NT) as [_ Q']. unfold propagate in P. destruct (getReachingDefinitions g items ins false x (iid v)) as [|[a|] [|]] eqn:R; try discriminate.
  destruct (arrives_trace b e A) as (h & T & H). specialize (H x NT). pose proof (steps_holds x _ _ _ _ NT H S) as H'. unfold holds in H'.
  destruct (lastdef x (run_on items h ++ before)) as [d|] eqn:L; auto. right.
  assert (D : In (reported d) [RKnown a]).
  { apply Q'. exists entry, h, d. split; [apply WF|]. split; auto. split; auto. apply lastdef_last. rewrite app_assoc, lastdef_app. rewrite lastdef_cons. cbn [lastdef fold_left].
    replace (kills x v) with false by (symmetry; apply not_true_iff_false; now rewrite kills_assigns). exact L. }
  destruct D as [D|[]]. unfold reported in D. destruct (ikind d) as [y [a'|]| | |]; try discriminate. injection D as ->. rewrite P in H'. exact H'.
Qed.
(** Variables whose address is taken are left alone. *)
Theorem C24_address_taken_left_alone ins x loc : address_taken g items x -> propagate g items constOf ins x loc = None.
Proof.
  intros (b & v & HB & HV & K). unfold propagate, getReachingDefinitions. replace (memb x (invalid g items)) with true; auto. symmetry. apply DomProofs.memb_In, invalid_taken. exists v. split; auto. eapply in_all; eauto.
Qed.
End Props.
Print Assumptions C24_reaching_definitions_exact.
Print Assumptions C24_propagated_constants_are_right.
Print Assumptions C24_address_taken_left_alone.

(** x0 = 7; x1 = 1; while ...: if ...: x1 = 1 (another) ; use x0, x1 -- blocks 0 entry, 1 endWhile, 2 whileBegin, 3 whileBody, 4 endIf, 5 trueBranch.
    Values 100.. are the constants. *)
Definition wg : graph :=
  {| size := 6; succs := fun b => match b with 0 => [2] | 2 => [1; 3] | 3 => [5; 4] | 5 => [4] | 4 => [2] | _ => [] end |}.
Definition wi (b : nat) : list item :=
  match b with
  | 0 => [Item 1 (KDef 0 (Some 100)); Item 2 (KDef 1 (Some 101))]
  | 3 => [Item 3 KOther]
  | 5 => [Item 4 (KDef 1 (Some 102)); Item 5 KOther]
  | 4 => [Item 6 KOther]
  | _ => []
  end.
Definition wc (a : nat) : option nat := match a with 100 => Some 7 | 101 => Some 1 | 102 => Some 2 | _ => None end.
Example C24_applies : wf wg /\ NoDup (map iid (concat (map wi (seq 0 (size wg))))) /\
  exists ins, analyze wg wi = Ok ins /\ propagate wg wi wc ins 0 6 = Some 7 /\ propagate wg wi wc ins 1 6 = None /\ propagate wg wi wc ins 1 5 = Some 2 /\
  (exists e, arrives wg wi wc 4 e /\ e 0 = Some 7).
Proof.
  split; [|split].
  - split; [cbn; lia|]. split; [intros b c; do 6 (try (destruct b as [|b]; [cbn; intuition lia|])); cbn; intuition lia|].
    split; [unfold entry; intros b; do 6 (try (destruct b as [|b]; [cbn; intuition lia|])); cbn; intuition lia|].
    intros b H; cbn in *; do 6 (destruct b as [|b]; [try lia; reflexivity|]); reflexivity.
  - cbn. repeat constructor; cbn; intuition lia.
  - eexists; split; [vm_compute; reflexivity|]. split; [vm_compute; reflexivity|]. split; [vm_compute; reflexivity|]. split; [vm_compute; reflexivity|].
    exists (fun x => match x with 0 => Some 7 | 1 => Some 1 | _ => None end). split; auto.
    apply (arrives_next wg wi wc 3 4 (fun x => match x with 0 => Some 7 | 1 => Some 1 | _ => None end)); [|cbn|cbn; auto].
    + apply (arrives_next wg wi wc 2 3 (fun x => match x with 0 => Some 7 | 1 => Some 1 | _ => None end)); [|cbn; constructor|cbn; auto].
      apply (arrives_next wg wi wc 0 2 (fun _ => None)); [constructor| |cbn; auto]. cbn.
      apply steps_cons with (fun x => match x with 0 => Some 7 | _ => None end).
      { eapply step_const; [reflexivity|reflexivity|reflexivity|]. intros [|y] HY; [lia|auto]. }
      apply steps_cons with (fun x => match x with 0 => Some 7 | 1 => Some 1 | _ => None end); [|constructor].
      eapply step_const; [reflexivity|reflexivity|reflexivity|]. intros [|[|y]] HY; auto; lia.
    + eapply steps_cons; [|constructor]. apply step_other; auto. intros x [a H]. discriminate.
Qed.
