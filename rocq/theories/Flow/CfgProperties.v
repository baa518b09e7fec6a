(** C37: the control flow graph of a function covers its runs; constants are propagated through whole functions correctly. *)
From Coq Require Import List Bool Arith Lia Permutation.
From Verif.Common Require Import Result.
From Verif.Flow Require Import Graph Reach ReachProofs ReachProperties Cfg CfgSpec CfgFrame CfgProofs CfgCover.
Import ListNotations.

(** The assignments of the arguments: number, variable and value. *)
Definition arguments (args : list (nat * nat * nat)) : list item := map (fun '(i, x, a) => Item i (KDef x (Some a))) args.

Section Props.
Context (args : list (nat * nat * nat)) (body : node).
Notation g := (graph_of (func args body)).
Notation items := (its (func args body)).

Definition entered : st := fold_left (fun s '(i, x, a) => pushb 0 (Item i (KDef x (Some a))) s) args start.
Lemma entered_push : entered = fold_left (fun s v => pushb 0 v s) (arguments args) start.
Proof. unfold entered. generalize start. induction args as [|[[i x] a] l IH]; intros s; cbn; auto. Qed.
Lemma entered_facts : sz entered = 1 /\ cur entered = 0 /\ its entered 0 = arguments args /\ swf entered /\ Permutation (all entered) (arguments args).
Proof.
  rewrite entered_push. destruct (fold_push (arguments args) 0 start) as (A & B & C & D & E). rewrite A, B, D. split; auto. split; auto. split; auto. split.
  - apply wf_push_l. split; cbn; [lia|contradiction].
  - apply (all_push_l (arguments args) 0 start). cbn. lia.
Qed.
(** The graph is well-formed and lists the instructions of the function, each once. *)
Theorem C37_graph_well_formed : wf g.
Proof.
  destruct entered_facts as (A & B & C & D & _). assert (W : swf (func args body)). { apply build_wf; fold entered; [apply Forall_nil|apply Forall_nil|lia|exact D]. }
  destruct W as [W1 W2]. split; [exact W1|]. split; [|split].
  - intros b c _ H. apply W2 in H. cbn. lia.
  - intros b _ H. apply W2 in H. unfold entry in H. lia.
  - intros b H. cbn in *. destruct (suc (func args body) b) as [|c l] eqn:E; auto. destruct (W2 b c); [rewrite E; now left|lia].
Qed.
Theorem C37_graph_lists_instructions : Permutation (concat (map items (seq 0 (size g)))) (arguments args ++ own body).
Proof.
  destruct entered_facts as (A & B & C & D & P). change (concat (map items (seq 0 (size g)))) with (all (func args body)).
  etransitivity; [apply (build_adds body [] []); fold entered; lia|]. fold entered. now apply Permutation_app_tail.
Qed.

Context (OK : ok [] false [] body = true) (ND : NoDup (map iid (arguments args ++ own body))).
Lemma nodup_items : NoDup (map iid (concat (map items (seq 0 (size g))))).
Proof. eapply Permutation_NoDup; [|exact ND]. apply Permutation_map, Permutation_sym, C37_graph_lists_instructions. Qed.
Lemma run_covered l o l1 v l2 x : exec body l o -> l = l1 ++ v :: l2 -> ikind v = KUse x ->
  exists b pre suf, b < size g /\ items b = pre ++ v :: suf /\ covx g items x b pre (arguments args ++ l1).
Proof.
  intros E L K. destruct entered_facts as (A & B & C & D & P).
  destruct (proj1 (covered g items) body l o E [] [] [] entered [] (arguments args)) as [R _]; auto.
  - lia.
  - split; cbn; auto. intros r f [].
  - change (build body [] [] entered) with (func args body). split; cbn; auto. exists []. now rewrite app_nil_r.
  - rewrite B, C. intros y _ d LD. exists 0, [], d. split; [apply C37_graph_well_formed|]. split; [constructor|]. auto.
  - apply (R l1 v l2 x L K).
Qed.

(** C37, partial: for the trees [ok] allows (see CfgSpec.v; the refutations below show that each of its conditions is needed).
    In any run of the function, when [v] reads [x], the last assignment of [x] in the run is among the definitions the
    analysis reports at [v], or so is one by an unknown value. *)
Theorem C37_graph_covers_runs_partial : exists ins, analyze g items = Ok ins /\
  forall l1 v l2 o x d, exec body (l1 ++ v :: l2) o -> ikind v = KUse x -> ~ address_taken g items x -> last_assignment x (arguments args ++ l1) d ->
  In (reported d) (getReachingDefinitions g items ins false x (iid v)) \/ exists i, In (RUnknown i) (getReachingDefinitions g items ins false x (iid v)).
Proof.
  destruct (C24_reaching_definitions_exact g items C37_graph_well_formed nodup_items) as (ins & E & Q). exists ins. split; auto.
  intros l1 v l2 o x d Ex K NT LA. destruct (run_covered _ _ l1 v l2 x Ex eq_refl K) as (b & pre & suf & HB & EI & C). apply lastdef_last in LA.
  destruct (C d LA) as (s & h & d' & HS & T & LD & R). destruct (Q b pre v suf x HB EI NT) as [_ Q']. 
  assert (X : In (reported d') (getReachingDefinitions g items ins false x (iid v))).
  { apply Q'. exists s, h, d'. split; auto. split; auto. split; auto. apply lastdef_last. rewrite app_assoc, lastdef_snoc, <- ran_run. unfold kills, getKilled. rewrite K. exact LD. }
  destruct R as [->|[y U]]; auto. right. unfold reported in X. rewrite U in X. eauto.
Qed.

(** Constants are right: a read that the pass replaces by [c] finds [c] in every run, or a variable never assigned. *)
Context {V : Type} (constOf : nat -> option V).
Theorem C37_propagated_constants_are_right_partial : exists ins, analyze g items = Ok ins /\
  forall l1 v l2 o x c e, exec body (l1 ++ v :: l2) o -> ikind v = KUse x -> propagate g items constOf ins x (iid v) = Some c ->
  steps g items constOf (arguments args ++ l1) (fun _ => None) e -> e x = None \/ e x = Some c.
Proof.
  destruct C37_graph_covers_runs_partial as (ins & E & Q). exists ins. split; auto. intros l1 v l2 o x c e Ex K P S.
  assert (NT : ~ address_taken g items x). { intros AT. rewrite (C24_address_taken_left_alone g items constOf ins x (iid v) AT) in P. discriminate. }
  pose proof (steps_holds g items constOf x [] _ _ _ NT eq_refl S) as H. cbn [app] in H. unfold holds in H. destruct (lastdef x (arguments args ++ l1)) as [d|] eqn:L; auto. right.
  apply lastdef_last in L. unfold propagate in P. destruct (Q l1 v l2 o x d Ex K NT L) as [D|[i D]]; destruct (getReachingDefinitions g items ins false x (iid v)) as [|[a|] [|]]; try discriminate.
  - destruct D as [D|[]]. unfold reported in D. destruct (ikind d) as [y [a'|]| | |]; try discriminate. injection D as ->. now rewrite P in H.
  - destruct D as [D|[]]. discriminate.
Qed.
End Props.
Print Assumptions C37_graph_well_formed.
Print Assumptions C37_graph_lists_instructions.
Print Assumptions C37_graph_covers_runs_partial.
Print Assumptions C37_propagated_constants_are_right_partial.

(** ** Building runs *)
Section Run.
Context {V : Type} (constOf : nat -> option V) (ch : nat -> V).
(** the variables after [l], unknown values being chosen by [ch] *)
Definition eff (e : nat -> option V) (v : item) : nat -> option V :=
  match ikind v with
  | KDef x (Some a) => put e x (Some (match constOf a with Some c => c | None => ch (iid v) end))
  | KDef x None => put e x (Some (ch (iid v)))
  | _ => e
  end.
Lemma eff_step g items v e : step g items constOf v e (eff e v).
Proof.
  unfold eff. destruct (ikind v) as [x [a|]| | |] eqn:K.
  - destruct (constOf a) as [c|] eqn:C.
    + eapply step_const; eauto; [apply put_eq|]. intros. now apply put_ne.
    + eapply step_any; eauto; [intros; congruence|apply put_eq|]. intros. now apply put_ne.
  - eapply step_any; eauto; [intros; discriminate|apply put_eq|]. intros. now apply put_ne.
  - apply step_other; auto. intros y [b H]. congruence.
  - apply step_other; auto. intros y [b H]. congruence.
  - apply step_other; auto. intros y [b H]. congruence.
Qed.
Lemma eff_steps g items l : forall e, steps g items constOf l e (fold_left eff l e).
Proof. induction l as [|v l IH]; intros e; cbn; econstructor; [apply eff_step|apply IH]. Qed.
End Run.
Lemma exec_eq e l l' o : exec e l o -> l = l' -> exec e l' o.
Proof. now intros H <-. Qed.

(** def f(n): x = 7; y = 1
      while cond():
        try:
          if c(): break
          for y in it(): x
        except E as y: x
        finally: y
      x; y                          variables 0 n, 1 x, 2 y *)
Definition ex_args : list (nat * nat * nat) := [(1, 0, 2)].
Definition ex_body : node :=
  Series [Assign 10 1 (Leaf 11 LConst); Assign 12 2 (Leaf 13 LConst);
    While 100 (Op 14 [Leaf 15 (LRead 0)])
      (Try (Series [If (Op 16 []) (Break 17 None) None; For 101 18 2 false (Op 19 []) (Leaf 20 (LRead 1))])
           [(Some (21, 2), Leaf 22 (LRead 1))] None (Some (Leaf 23 (LRead 2))));
    Leaf 24 (LRead 1); Leaf 25 (LRead 2)].
Definition ex_const (a : nat) : option nat := match a with 11 => Some 7 | 13 => Some 1 | _ => None end.
Definition ids (args : list (nat * nat * nat)) (body : node) : list nat := map iid (arguments args ++ own body).
Fixpoint nodupb (l : list nat) : bool := match l with [] => true | x :: l => negb (memb x l) && nodupb l end.
Lemma nodupb_ok l : nodupb l = true -> NoDup l.
Proof. induction l as [|x l IH]; cbn; intros H; constructor; apply andb_prop in H; destruct H as [H1 H2]; auto. apply negb_true_iff in H1. intros F. apply DomProofs.memb_In in F. congruence. Qed.
(** The constant found for the read [loc] of [x]. *)
Definition found_const {V} (args : list (nat * nat * nat)) (body : node) (constOf : nat -> option V) (x loc : nat) : option V :=
  match analyze (graph_of (func args body)) (its (func args body)) with
  | Ok ins => propagate (graph_of (func args body)) (its (func args body)) constOf ins x loc
  | _ => None
  end.
Example C37_applies : ok [] false [] ex_body = true /\ NoDup (ids ex_args ex_body) /\
  found_const ex_args ex_body ex_const 1 24 = Some 7 /\ found_const ex_args ex_body ex_const 1 20 = Some 7 /\ found_const ex_args ex_body ex_const 1 22 = Some 7 /\
  found_const ex_args ex_body ex_const 2 25 = None /\ found_const ex_args ex_body ex_const 2 23 = None /\
  (exists l1 l2 o, exec ex_body (l1 ++ Item 24 (KUse 1) :: l2) o /\ In (Item 22 (KUse 1)) l1 /\ In (Item 18 (KDef 2 None)) l1).
Proof.
  split; [reflexivity|]. split; [apply nodupb_ok; reflexivity|]. do 5 (split; [vm_compute; reflexivity|]).
  exists ([Item 11 KOther; Item 10 (KDef 1 (Some 11)); Item 13 KOther; Item 12 (KDef 2 (Some 13)); Item 15 (KUse 0); Item 14 KOther;
     Item 16 KOther; Item 19 KOther; Item 18 (KDef 2 None); Item 20 (KUse 1); Item 23 (KUse 2);
     Item 15 (KUse 0); Item 14 KOther; Item 16 KOther; Item 21 (KDef 2 None); Item 22 (KUse 1); Item 23 (KUse 2);
     Item 15 (KUse 0); Item 14 KOther; Item 16 KOther; Item 23 (KUse 2)]), [Item 25 (KUse 2)], Norm.
  split; [|cbn; tauto]. eapply exec_eq. apply x_series.
  assert (C : exec (Op 14 [Leaf 15 (LRead 0)]) ((([Item 15 (KUse 0)] ++ []) ++ [Item 14 KOther])) Norm).
  { apply x_op; [|now left]. eapply xs_cons; [apply x_leaf|apply xs_nil]. }
  eapply xs_cons; [apply x_assign; [apply x_leaf|now left]|]. eapply xs_cons; [apply x_assign; [apply x_leaf|now left]|].
  eapply xs_cons; [apply x_while|eapply xs_cons; [apply x_leaf|eapply xs_cons; [apply x_leaf|apply xs_nil]]].
  eapply w_next; [exact C| |now left|].
  { eapply x_finally; [apply y_norm; apply x_series|discriminate|apply x_leaf]. eapply xs_cons; [apply x_if_none; apply x_op; [apply xs_nil|now left]|].
    eapply xs_cons; [|apply xs_nil]. eapply x_for; [apply x_op; [apply xs_nil|now left]|]. eapply t_next; [apply x_leaf|now left|apply t_exit]. }
  eapply w_next; [exact C| |now left|].
  { eapply x_finally; [eapply (y_catch _ _ _ _ 0); [apply x_series|reflexivity|apply x_leaf]|discriminate|apply x_leaf].
    eapply xs_stop; [|discriminate]. apply x_if_stop; [|discriminate]. apply x_op; [apply xs_nil|now right]. }
  eapply w_break with (t := None); [exact C| |now left].
  eapply x_finally; [apply y_stop; [apply x_series|discriminate]|discriminate|apply x_leaf].
  eapply xs_stop; [|discriminate]. eapply x_if_true; [apply x_op; [apply xs_nil|now left]|apply x_break].
  reflexivity.
Qed.

(** ** Trees outside [ok], whose graphs miss runs *)
(** Some run of the function reads another value than the one propagation puts there. *)
Definition misread (constOf : nat -> option nat) (body : node) : Prop :=
  NoDup (ids [] body) /\ exists l1 i l2 o x c c' e,
  exec body (l1 ++ Item i (KUse x) :: l2) o /\ found_const [] body constOf x i = Some c /\
  steps (graph_of (func [] body)) (its (func [] body)) constOf l1 (fun _ => None) e /\ e x = Some c' /\ c' <> c.
Definition consts (a : nat) : option nat := match a with 50 => Some 0 | 51 => Some 1 | 52 => Some 2 | 55 => Some 5 | 57 => Some 7 | _ => None end.
Lemma misread_intro constOf body ch l1 i l2 o x c c' : nodupb (ids [] body) = true -> exec body (l1 ++ Item i (KUse x) :: l2) o ->
  found_const [] body constOf x i = Some c -> fold_left (eff constOf ch) l1 (fun _ => None) x = Some c' -> c' <> c -> misread constOf body.
Proof.
  intros A B C D E. split; [now apply nodupb_ok|]. exists l1, i, l2, o, x, c, c', (fold_left (eff constOf ch) l1 (fun _ => None)). split; auto. split; auto. split; auto. apply eff_steps.
Qed.
Ltac opn := apply x_op; [apply xs_nil|now left].
Ltac asg := apply x_assign; [apply x_leaf|now left].
Ltac seqs := eapply xs_cons.
Ltac lastd := eapply xs_cons; [|apply xs_nil].

(** A while whose condition branches and assigns:
      x = 1
      while c() and (x := 2): x                  the read in the body becomes 1 *)
Theorem C37_branching_condition_refuted : misread consts
  (Series [Assign 1 0 (Leaf 51 LConst); While 100 (Ternary 2 (Op 3 []) (Op 4 [Assign 5 0 (Leaf 52 LConst)]) (Leaf 6 LConst)) (Leaf 7 (LRead 0))]).
Proof.
  apply (misread_intro consts _ (fun _ => 9) [Item 51 KOther; Item 1 (KDef 0 (Some 51)); Item 3 KOther; Item 52 KOther; Item 5 (KDef 0 (Some 52)); Item 4 KOther; Item 2 KOther] 7 [] Part 0 1 2);
    [reflexivity| |vm_compute; reflexivity|reflexivity|discriminate].
  eapply exec_eq. apply x_series. seqs; [asg|]. eapply xs_stop; [|discriminate]. apply x_while. 
  eapply w_next; [|apply x_leaf|now left|apply w_stop; [apply x_part|discriminate]].
  apply x_ternary_true; [opn|]. apply x_op; [|now left]. lastd. asg.
  reflexivity.
Qed.
(** Assignments after a break:
      while c():
        x = 2; break; x = 1
      x                                           becomes 1 *)
Theorem C37_code_after_break_refuted : misread consts
  (Series [While 100 (Op 1 []) (Series [Assign 2 0 (Leaf 52 LConst); Break 3 None; Assign 4 0 (Leaf 51 LConst)]); Leaf 7 (LRead 0)]).
Proof.
  apply (misread_intro consts _ (fun _ => 9) [Item 1 KOther; Item 52 KOther; Item 2 (KDef 0 (Some 52))] 7 [] Norm 0 1 2);
    [reflexivity| |vm_compute; reflexivity|reflexivity|discriminate].
  eapply exec_eq. apply x_series. seqs; [|lastd; apply x_leaf]. apply x_while. 
  eapply w_break with (t := None); [opn|apply x_series|now left]. seqs; [asg|]. apply xs_stop; [apply x_break|discriminate].
  reflexivity.
Qed.
(** A counted loop whose bound reads its variable:
      i = 5
      for i in range(0, i): ...                   the bound becomes 0 *)
Theorem C37_bound_reads_counter_refuted : misread consts
  (Series [Assign 1 0 (Leaf 55 LConst); ImpFor 100 2 3 0 (Leaf 50 LConst) (Leaf 7 (LRead 0)) (Series [])]).
Proof.
  apply (misread_intro consts _ (fun _ => 9) [Item 55 KOther; Item 1 (KDef 0 (Some 55)); Item 50 KOther] 7 [] Norm 0 0 5);
    [reflexivity| |vm_compute; reflexivity|reflexivity|discriminate].
  eapply exec_eq. apply x_series. seqs; [asg|]. lastd. eapply x_imp; [apply x_leaf|apply x_leaf|apply t_exit].
  reflexivity.
Qed.
(** A counted loop in a try, whose bound raises:
      x = 5
      try: for x in range(0, g()): pass
      except: x                                   becomes 0 *)
Theorem C37_bound_raises_refuted : misread consts
  (Series [Assign 1 0 (Leaf 55 LConst); Try (ImpFor 100 2 3 0 (Leaf 50 LConst) (Op 4 []) (Series [])) [(None, Leaf 7 (LRead 0))] None None]).
Proof.
  apply (misread_intro consts _ (fun _ => 9) [Item 55 KOther; Item 1 (KDef 0 (Some 55)); Item 50 KOther; Item 4 KOther] 7 [] Norm 0 0 5);
    [reflexivity| |vm_compute; reflexivity|reflexivity|discriminate].
  eapply exec_eq. apply x_series. seqs; [asg|]. lastd. apply x_try. eapply (y_catch _ _ _ _ 0); [|reflexivity|apply x_leaf].
  eapply x_imp_stop2; [apply x_leaf|apply x_op; [apply xs_nil|now right]|discriminate].
  reflexivity.
Qed.
(** A for loop in a try, whose iterator raises after the first turn:
      x = 5
      try: for x in gen(): pass
      except: x                                   becomes 5 *)
Theorem C37_iterator_raises_refuted : misread consts
  (Series [Assign 1 0 (Leaf 55 LConst); Try (For 100 2 0 true (Op 3 []) (Series [])) [(None, Leaf 7 (LRead 0))] None None]).
Proof.
  apply (misread_intro consts _ (fun _ => 9) [Item 55 KOther; Item 1 (KDef 0 (Some 55)); Item 3 KOther; Item 2 (KDef 0 None)] 7 [] Norm 0 5 9);
    [reflexivity| |vm_compute; reflexivity|reflexivity|discriminate].
  eapply exec_eq. apply x_series. seqs; [asg|]. lastd. apply x_try. eapply (y_catch _ _ _ _ 0); [|reflexivity|apply x_leaf].
  eapply x_for; [opn|]. eapply t_next; [apply x_series; apply xs_nil|now left|apply t_raise].
  reflexivity.
Qed.
(** A while in a try, whose condition assigns:
      x = 1
      try:
        while (x := 2): x                         becomes 1 *)
Theorem C37_condition_in_try_refuted : misread consts
  (Series [Assign 1 0 (Leaf 51 LConst); Try (While 100 (Op 2 [Assign 3 0 (Leaf 52 LConst)]) (Leaf 7 (LRead 0))) [] None None]).
Proof.
  apply (misread_intro consts _ (fun _ => 9) [Item 51 KOther; Item 1 (KDef 0 (Some 51)); Item 52 KOther; Item 3 (KDef 0 (Some 52)); Item 2 KOther] 7 [] Part 0 1 2);
    [reflexivity| |vm_compute; reflexivity|reflexivity|discriminate].
  eapply exec_eq. apply x_series. seqs; [asg|]. eapply xs_stop; [|discriminate]. apply x_try. apply y_stop; [|discriminate]. apply x_while. 
  eapply w_next; [|apply x_leaf|now left|apply w_stop; [apply x_part|discriminate]]. apply x_op; [|now left]. lastd. asg.
  reflexivity.
Qed.
(** A finally that branches, left by a break:
      while (x := 7):
        try: break
        finally:
          if c(): pass
          x = 2
      x                                           becomes 7 *)
Theorem C37_branching_finally_refuted : misread consts
  (Series [While 100 (Op 1 [Assign 2 0 (Leaf 57 LConst)]) (Try (Break 3 None) [] None (Some (Series [If (Op 4 []) (Leaf 5 LConst) None; Assign 6 0 (Leaf 52 LConst)]))); Leaf 7 (LRead 0)]).
Proof.
  apply (misread_intro consts _ (fun _ => 9) [Item 57 KOther; Item 2 (KDef 0 (Some 57)); Item 1 KOther; Item 4 KOther; Item 52 KOther; Item 6 (KDef 0 (Some 52))] 7 [] Norm 0 7 2);
    [reflexivity| |vm_compute; reflexivity|reflexivity|discriminate].
  eapply exec_eq. apply x_series. seqs; [|lastd; apply x_leaf]. apply x_while. 
  eapply w_break with (t := None); [apply x_op; [|now left]; lastd; asg| |now left].
  eapply x_finally; [apply y_stop; [apply x_break|discriminate]|discriminate|]. apply x_series. seqs; [apply x_if_none; opn|]. lastd. asg.
  reflexivity.
Qed.
Print Assumptions C37_branching_condition_refuted.
Print Assumptions C37_code_after_break_refuted.
Print Assumptions C37_bound_reads_counter_refuted.
Print Assumptions C37_bound_raises_refuted.
Print Assumptions C37_iterator_raises_refuted.
Print Assumptions C37_condition_in_try_refuted.
Print Assumptions C37_branching_finally_refuted.
