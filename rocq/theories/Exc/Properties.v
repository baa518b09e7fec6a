(** C54: try statements run as in Python. *)
From Coq Require Import List Bool Arith Lia.
From Verif Require Import Exc.Spec Exc.Model Exc.Proofs Exc.Labels Exc.Eval Exc.Diverge
  Exc.Refuted.
Import ListNotations.

Section Final.
  Context {S V X : Type}.
  Context (isinst : X -> nat -> bool).

  (** A machine state a function with ending [o] stops in: label 1 is behind the
      function's last statement. *)
  Definition stops_as (o : outcome S V X) (st : @mstate S V X) : Prop :=
    match o with
    | ONorm s => exists m, st = At 1 s m
    | ORet v s => st = Returned v s
    | OExn e s => st = Unwound e s
    | OBrk _ | OCont _ => False
    end.

  Definition never_ends (s : stmt S V X) (d : S) : Prop := forall o, ~ exec isinst s d o.

  Lemma run_more (P : nat -> option (@instr S V X)) n : forall a,
    step isinst P (run isinst P n a) = None ->
    forall n', n <= n' -> run isinst P n' a = run isinst P n a.
  Proof.
    induction n as [|n IH]; intros a H n' L; cbn [run] in *.
    - destruct n' as [|n']; [reflexivity|]. cbn [run]. rewrite H. reflexivity.
    - destruct n' as [|n']; [lia|]. cbn [run].
      destruct (step isinst P a) as [b|] eqn:E; [apply IH; [exact H|lia]|reflexivity].
  Qed.

  Lemma inv0 (P : nat -> option (@instr S V X)) : inv P (fun _ => None) None mem0.
  Proof. intro c. unfold cell_ok. split; [reflexivity|]. left. left. reflexivity. Qed.

  (** ** A function that ends *)

  (** Every covered function that ends in Python ends in the generated code, the
      same way, with the same data: it falls off its end, returns the same value
      or raises the same exception, and every handler, else and finally block ran
      exactly when it had to.  No run reaches undefined behaviour. *)
  Theorem C54_try_partial (s : stmt S V X) d o :
    covered InBody true false s -> exec isinst s d o ->
    exists n, forall n', n <= n' -> stops_as o (run isinst (compile s) n' (start d)).
  Proof.
    intros Cov H.
    destruct (proj1 (sim_both isinst (compile s)) _ _ _ H InBody false 2 [] (fun _ => None)
                0 1 0 mem0) as (st & St & Ar).
    - exact Cov.
    - split; [exact I|discriminate].
    - intro; discriminate.
    - exact I.
    - reflexivity.
    - apply compile_installed.
    - left. reflexivity.
    - apply inv0.
    - destruct (star_run isinst (compile s) _ _ St) as [n E]. exists n. intros n' L.
      assert (Sa : stops_as o st).
      { destruct o as [s'|s'|s'|v s'|e s']; cbn [arrive arr_jump arr_ret arr_exn stops_as] in *.
        - destruct Ar as (m & -> & _). eauto.
        - exact Ar.
        - exact Ar.
        - exact Ar.
        - exact Ar. }
      unfold start. rewrite (run_more (compile s) n); [rewrite E; exact Sa| |exact L].
      rewrite E. destruct o as [s'|s'|s'|v s'|e s']; cbn [stops_as] in Sa; try contradiction.
      + destruct Sa as [m ->]. cbn [step]. rewrite compile_end. reflexivity.
      + rewrite Sa. reflexivity.
      + rewrite Sa. reflexivity.
  Qed.

  (** ** A function that does not end *)

  Lemma goes_on_run (P : nat -> option (@instr S V X)) n : forall st,
    goes_on isinst P (Datatypes.S n) st -> exists st', step isinst P (run isinst P n st) = Some st'.
  Proof.
    induction n as [|n IH]; intros st (st1 & E & G).
    - exists st1. exact E.
    - cbn [run]. rewrite E. apply IH. exact G.
  Qed.

  (** A covered function that does not end in Python does not stop in the
      generated code. *)
  Theorem C54_diverges_partial (s : stmt S V X) d :
    covered InBody true false s -> never_ends s d ->
    forall n, exists st, step isinst (compile s) (run isinst (compile s) n (start d)) = Some st.
  Proof.
    intros Cov Nv n. apply goes_on_run.
    assert (En : eval isinst (Datatypes.S n + height s) s d = None).
    { destruct (eval isinst _ s d) as [o|] eqn:E; [|reflexivity].
      apply eval_sound in E. destruct (Nv _ E). }
    eapply (diverge_all isinst (compile s) (Datatypes.S n) s _ d InBody false 2 []
             (fun _ => None) 0 1 0 mem0); [|exact En|].
    - lia.
    - unfold ready. split; [exact Cov|]. split; [split; [exact I|discriminate]|].
      split; [intro; discriminate|]. split; [exact I|]. split; [reflexivity|].
      split; [apply compile_installed|]. split; [left; reflexivity|apply inv0].
  Qed.

  (** Hence the ending of the generated code is an ending Python allows. *)
  Corollary C54_only_partial (s : stmt S V X) d n :
    covered InBody true false s ->
    step isinst (compile s) (run isinst (compile s) n (start d)) = None ->
    exists o, exec isinst s d o /\ stops_as o (run isinst (compile s) n (start d)) /\
              forall o', exec isinst s d o' -> o' = o.
  Proof.
    intros Cov St.
    destruct (eval isinst (Datatypes.S n + height s) s d) as [o|] eqn:En.
    - apply eval_sound in En. exists o. split; [exact En|].
      split; [|intros o' H'; eapply exec_det; eauto].
      destruct (C54_try_partial s d o Cov En) as [n0 H].
      specialize (H (n0 + n) ltac:(lia)).
      rewrite (run_more (compile s) n _ St (n0 + n) ltac:(lia)) in H. exact H.
    - exfalso. assert (G : goes_on isinst (compile s) (Datatypes.S n) (start d)).
      { eapply (diverge_all isinst (compile s) (Datatypes.S n) s _ d InBody false 2 []
                 (fun _ => None) 0 1 0 mem0); [|exact En|].
        - lia.
        - unfold ready. split; [exact Cov|]. split; [split; [exact I|discriminate]|].
          split; [intro; discriminate|]. split; [exact I|]. split; [reflexivity|].
          split; [apply compile_installed|]. split; [left; reflexivity|apply inv0]. }
      destruct (goes_on_run _ _ _ G) as [st' E]. congruence.
  Qed.
End Final.

(** ** Examples *)

(** [while not log: try: say 1; (try: say 2; raise 5 / except 4: pass / finally:
     say 3) / except 5: say 6; break / finally: say 9] *)
Definition nested : st :=
  While once (try_ [say 1; try_ [say 2; raise_ 5] [(Some 4, [])] [] [say 3]]
                   [(Some 5, [say 6; Break])] [] [say 9]).

Example nested_covered : covered InBody true false nested.
Proof. repeat split. Qed.

Example nested_runs : exec inst nested [] (ONorm [1; 2; 3; 6; 9]).
Proof. apply (eval_sound inst 30). reflexivity. Qed.

Example nested_stops :
  exists n, forall n', n <= n' ->
    exists m, run inst (compile nested) n' (start []) = At 1 [1; 2; 3; 6; 9] m.
Proof. exact (C54_try_partial inst _ _ _ nested_covered nested_runs). Qed.

(** an outermost finally may return, over a pending exception *)
Example finally_return :
  let p := try_ [try_ [raise_ 1] [(Some 2, [say 3])] [] [say 4]] [] [] [say 5; ret 6] in
  covered InBody true false p /\ exec inst p [] (ORet 6 [4; 5]) /\
  exists n, forall n', n <= n' -> run inst (compile p) n' (start []) = Returned 6 [4; 5].
Proof.
  intro p. assert (C : covered InBody true false p) by (cbn; repeat split; eauto).
  assert (E : exec inst p [] (ORet 6 [4; 5])) by (apply (eval_sound inst 30); reflexivity).
  split; [exact C|]. split; [exact E|]. exact (C54_try_partial inst _ _ _ C E).
Qed.

(** a loop that goes on through a finally block for ever *)
Definition forever : st := While always (try_ [Continue] [] [] [say 1]).

Example forever_covered : covered InBody true false forever.
Proof. repeat split. Qed.

Example forever_never_ends : never_ends inst forever [].
Proof.
  intros o H. destruct (proj1 (eval_complete inst) _ _ _ H) as [f E].
  assert (G : forall f d, eval inst f forever d = None); [|rewrite G in E; discriminate].
  clear. induction f as [f IH] using lt_wf_ind. intro d.
  destruct f as [|f]; [reflexivity|]. 
  destruct f as [|f]; [reflexivity|].
  destruct f as [|f]; [reflexivity|]. 
  apply (IH (Datatypes.S (Datatypes.S f)) ltac:(lia) (d ++ [1])).
Qed.

Example forever_goes_on n :
  exists st, step inst (compile forever) (run inst (compile forever) n (start [])) = Some st.
Proof. exact (C54_diverges_partial inst _ _ forever_covered forever_never_ends n). Qed.

(** ** The statement without [covered] is false *)

Definition full_statement : Prop :=
  forall (s : st) d o, exec inst s d o ->
    exists n, forall n', n <= n' -> stops_as o (run inst (compile s) n' (start d)).

Lemma run_halts (P : nat -> option (@instr log nat nat)) n a x :
  run inst P n a = x -> step inst P x = None ->
  forall n', n <= n' -> run inst P n' a = x.
Proof. intros E H n' L. rewrite <- E in *. apply run_more; assumption. Qed.

Theorem C54_return_in_except_refuted : ~ full_statement.
Proof.
  intro H. destruct return_in_except_skips_finally as [E [n R]].
  destruct (H _ _ _ E) as [n0 Hn]. specialize (Hn (n0 + n) ltac:(lia)).
  pose proof (run_halts _ _ _ _ R eq_refl (n0 + n) ltac:(lia)) as Q.
  pose proof (eq_trans (eq_sym Q) Hn) as D. discriminate D.
Qed.

Theorem C54_raise_in_except_refuted :
  exec inst raise_in_except [] (ONorm [8; 7]) /\ undefined raise_in_except /\
  exec inst raise_in_except_fin [] (ONorm [8; 7; 9]) /\
  unwinds raise_in_except_fin 2 [8; 9].
Proof.
  split; [apply raise_in_except_undefined|]. split; [apply raise_in_except_undefined|].
  exact raise_in_except_not_caught.
Qed.

Theorem C54_try_in_finally_refuted :
  exec inst try_in_finally [] (ONorm [3; 8; 7; 9]) /\ finishes try_in_finally [3; 8; 9].
Proof. exact try_in_finally_loses_exception. Qed.

Theorem C54_break_in_finally_refuted :
  exec inst break_in_finally [] (ONorm [8; 6; 9]) /\ unwinds break_in_finally 1 [8; 6; 9].
Proof. exact break_in_finally_revives_exception. Qed.

Theorem C54_return_in_finally_refuted :
  exec inst return_in_finally [] (ORet 5 []) /\ finishes return_in_finally [7].
Proof. exact return_in_finally_dropped. Qed.

Theorem C54_try_in_except_refuted :
  exec inst try_in_except [] (OExn 2 [4; 9]) /\ unwinds try_in_except 2 [4].
Proof. exact try_in_except_skips_finally. Qed.

Print Assumptions C54_try_partial.
Print Assumptions C54_diverges_partial.
Print Assumptions C54_only_partial.
Print Assumptions C54_return_in_except_refuted.
Print Assumptions C54_raise_in_except_refuted.
