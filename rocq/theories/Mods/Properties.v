(** Properties of imports (C77). *)
From Coq Require Import List ZArith Bool Arith.
From Verif.Mods Require Import Spec Model Proofs.
Import ListNotations.

(** C77: whatever code was generated, no module body runs twice. *)
Theorem C77_once : forall t env fuel c s, exec t env fuel start c = Some s -> NoDup (started (trace s)).
Proof.
  intros t env fuel c s H. assert (O : once s); [|apply O]. eapply exec_once; [|exact H]. split; [constructor|intros x []].
Qed.

(** C77: each program is type-checked in finitely many steps, however its modules import each other. *)
Theorem C77_ends : forall fbody mbody N main, (forall f, names_below N (fbody f)) -> (forall m, names_below N (mbody m)) -> names_below N main ->
  exists fuel c t, compile_program fbody mbody fuel main = Some (c, t).
Proof. intros fbody mbody N main Bf Bm B. exact (program_total fbody mbody N Bf Bm main B). Qed.

(** C77: if no module body has an import under a condition and no call is delayed, then the
    generated program does what Python does: each module is initialised when its first import is
    reached, whether that import stands at the top level, in a function or in another module.
    Full statement: the same for every program; it is refuted below. *)
Theorem C77_imports_partial : forall fbody mbody main fuel0 c t,
  (forall f, no_late (fbody f)) -> (forall m, no_late (mbody m)) -> no_late main ->
  (forall m, imports_flat (mbody m)) -> imports_flat main ->
  compile_program fbody mbody fuel0 main = Some (c, t) ->
  forall env fuel, exec t env fuel start c = run fbody mbody env fuel start main.
Proof. intros fbody mbody main n c t A B C D E F. exact (program_ok fbody mbody n main c t A B C D E F). Qed.

(** A case: main imports 0 and calls 0; module 0 imports 1, module 1 imports 0 (a cycle);
    function 0 imports 1 again and, under a condition, module 2, whose body calls function 1, which imports 2. *)
Definition ex_f (f : nat) : cmd :=
  match f with
  | O => Seq (Import 1) (If 0 (Import 2) (Ev 10))
  | S O => Seq (Import 2) (Ev 11)
  | _ => Skip
  end.
Definition ex_m (m : nat) : cmd :=
  match m with
  | O => Seq (Ev 0) (Seq (Import 1) (Ev 1))
  | S O => Seq (Import 0) (Ev 2)
  | S (S O) => Seq (Call false 1) (Ev 3)
  | _ => Skip
  end.
Definition ex_main : cmd := Seq (Import 0) (Seq (Call false 0) (Seq (Import 2) (Call false 0))).
Example C77_case : (forall f, no_late (ex_f f)) /\ (forall m, no_late (ex_m m)) /\ no_late ex_main /\
  (forall m, imports_flat (ex_m m)) /\ imports_flat ex_main /\
  (forall f, names_below 3 (ex_f f)) /\ (forall m, names_below 3 (ex_m m)) /\ names_below 3 ex_main /\
  exists c t, compile_program ex_f ex_m 20 ex_main = Some (c, t) /\
  exec t (fun _ tr => Nat.ltb (length tr) 8) 20 start c =
    Some {| loaded := [2; 1; 0]; trace := [Started 0; Seen 0; Started 1; Seen 2; Seen 1; Started 2; Seen 11; Seen 3; Seen 10] |}.
Proof.
  do 3 (split; [try (intros [|[|[|n]]]); cbn; auto|]). do 2 (split; [try (intros [|[|[|n]]]); cbn; auto|]).
  do 3 (split; [try (intros [|[|[|n]]]); cbn; repeat split; auto|]).
  destruct (compile_program ex_f ex_m 20 ex_main) as [[c t]|] eqn:E; [|vm_compute in E; discriminate]. exists c, t. split; [reflexivity|].
  vm_compute in E. inversion E; subst. vm_compute. reflexivity.
Qed.

(** C77: an import under a condition at the top level makes the later imports of the same module
    vanish, so that the module is never initialised if the condition was false. *)
Theorem C77_conditional_refuted : exists fbody mbody main fuel0 c t env fuel s s',
  no_late main /\ compile_program fbody mbody fuel0 main = Some (c, t) /\
  run fbody mbody env fuel start main = Some s /\ exec t env fuel start c = Some s' /\
  trace s = [Started 0; Seen 7] /\ trace s' = [].
Proof.
  exists (fun _ => Skip), (fun _ => Ev 7), (Seq (If 0 (Import 0) Skip) (Import 0)), 9.
  do 2 eexists. exists (fun _ _ => false), 9. do 2 eexists. repeat split; vm_compute; reflexivity.
Qed.

(** C77: a function whose call is type-checked late runs before the module it imports. *)
Theorem C77_late_refuted : exists fbody mbody main fuel0 c t env fuel s s',
  imports_flat main /\ (forall m, imports_flat (mbody m)) /\ compile_program fbody mbody fuel0 main = Some (c, t) /\
  run fbody mbody env fuel start main = Some s /\ exec t env fuel start c = Some s' /\
  trace s = [Started 0; Seen 7; Seen 8] /\ trace s' = [Seen 8; Started 0; Seen 7].
Proof.
  exists (fun _ => Seq (Import 0) (Ev 8)), (fun _ => Ev 7), (Seq (Call true 0) (Import 0)), 9.
  do 2 eexists. exists (fun _ _ => false), 9. do 2 eexists. repeat split; vm_compute; reflexivity.
Qed.

Print Assumptions C77_once.
Print Assumptions C77_ends.
Print Assumptions C77_imports_partial.
Print Assumptions C77_conditional_refuted.
Print Assumptions C77_late_refuted.
