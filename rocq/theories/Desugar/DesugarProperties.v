(** C64: match statements, loop else clauses and loops over tuples. *)
From Coq Require Import ZArith List Bool String Lia.
From Verif.Desugar Require Import DesugarSpec DesugarModel DesugarPat DesugarSim.
Import ListNotations.
Local Open Scope string_scope.
Local Open Scope list_scope.
Local Open Scope Z_scope.

(** For every function body in which no case contains a break or continue for a loop
    outside the match (and the further conditions of [ok]), every initial state of the
    variables and of the temporaries, and every bound on the rounds of loops: the desugared
    program ends as the source does - normally, with the same returned value, or with an
    error - with the same values of all variables but those captured by patterns, and runs
    out of rounds exactly when the source does. *)
Theorem C64_desugar_partial :
  forall p A, ok A false p -> brks p = false -> conts p = false ->
  forall k e T, (1 <= k)%nat ->
  match sexec k p e, texec k (desugar p) (e, T) with
  | None, None => True
  | Some (o, e'), Some (o', (e'', _)) =>
      o' = o /\ o <> Break /\ o <> Continue /\ forall x, A x -> e'' x = e' x
  | _, _ => False
  end.
Proof.
  intros p A Hok Hb Hc k e T Hk.
  assert (W : wfctx (Ctx None None) 0 None).
  { split; [discriminate|]. split; [discriminate|now left]. }
  pose proof (proj1 (sim_all k Hk) p A false (Ctx None None) 0%nat None Hok W ltac:(congruence)
                e (e, T) (fun x _ => eq_refl)) as H.
  pose proof (proj1 (no_break k) p Hb e) as NB. pose proof (proj1 (no_continue k) p Hc e) as NC.
  unfold desugar, rel in *.
  destruct (sexec k p e) as [[o e']|], (texec k _ (e, T)) as [[o' [e'' T']]|]; try contradiction; auto.
  destruct H as (H1 & H2 & _).
  assert (o <> Break) by (intros ->; now apply (NB e')).
  assert (o <> Continue) by (intros ->; now apply (NC e')).
  split; [destruct o; simpl in H1; congruence|]. do 2 (split; auto).
  intros x Hx. symmetry. exact (H2 x Hx).
Qed.

(** A pattern that matches reaches the case body with the bindings that the pattern
    denotes, and a pattern that does not match runs nothing of it: for every pattern,
    value and body that does not end normally (a case body ends with break). *)
Theorem C64_pattern :
  forall p v k body e T, pat_ok p -> T 0%nat = v ->
  match pmatch p v with
  | Some bs =>
      exists e1, (forall x, e1 x = upds bs e x) /\
        ((forall s, texec k body (e1, T) <> Some (Normal, s)) ->
         texec k (tr_pat 0 [] p body) (e, T) = texec k body (e1, T))
  | None =>
      exists e1, (forall x, ~ In x (pvars p) -> e1 x = e x) /\
        texec k (tr_pat 0 [] p body) (e, T) = Some (Normal, (e1, T))
  end.
Proof.
  intros p v k body e T Hp Hv. assert (Hf : follow (T 0%nat) [] = Some v) by (simpl; now rewrite Hv).
  destruct (pmatch p v) as [bs|] eqn:E.
  - destruct (tr_pat_run k T 0 p [] body v bs (e, T) Hf Hp E eq_refl) as ([e1 T1] & H1 & H2 & H3).
    simpl in H1. subst T1. exists e1. split; [exact H2|]. intros H. apply H3. now right.
  - destruct (tr_pat_quiet k (pvars p) T e 0 p [] body v Hf (incl_refl _) Hp (or_introl E) (e, T)
                eq_refl ltac:(auto)) as ([e1 T1] & H1 & H2 & H3).
    simpl in H2. subst T1. exists e1. auto.
Qed.

(** ** What goes wrong outside these conditions *)

Definition one : env -> val := fun _ => VInt 1.
Definition nil_env : env := fun _ => VInt 0.
Definition no_temps : nat -> val := fun _ => VInt 0.
Definition incr (x : string) : src :=
  Assign x (fun s => match s x with VInt z => VInt (z + 1) | v => v end).
Definition three : env -> val := fun _ => VList [VInt 1; VInt 2; VInt 3].

(** break in a case leaves the match, not the loop:
    for i in [1, 2, 3]: n += 1; match 1: case 1: break *)
Theorem C64_break_in_case_refuted :
  let p := Loop (HFor "i" three) (Seq (incr "n") (Match one (CCons (PInt 1) None SBreak CNil))) in
  (exists e', sexec 9 p nil_env = Some (Normal, e') /\ e' "n" = VInt 1) /\
  (exists e' T', texec 9 (desugar p) (nil_env, no_temps) = Some (Normal, (e', T')) /\ e' "n" = VInt 3).
Proof. split; [eexists; split; reflexivity|do 2 eexists; split; reflexivity]. Qed.

(** continue in a case runs the match again, for ever:
    for i in [1, 2, 3]: match 1: case 1: continue *)
Theorem C64_continue_in_case_refuted :
  let p := Loop (HFor "i" three) (Match one (CCons (PInt 1) None SContinue CNil)) in
  (exists e', sexec 9 p nil_env = Some (Normal, e')) /\
  forall k, texec k (desugar p) (nil_env, no_temps) = None.
Proof.
  split; [eexists; reflexivity|]. intros k. unfold desugar. cbn.
  assert (H : forall j (s : tenv), while_ j (eval_cond CTrue)
     (texec k (TSeq (TSave 0 one)
       (TSeq (TIf (TIs 0 [] KInt) (TIf (TEq 0 [] (VInt 1)) (TSeq TContinue TBreak))) TBreak))) s = None).
  { induction j as [|j IH]; intros s; [reflexivity|]. cbn in *. apply IH. }
  change (fun s : tenv => true) with (eval_cond CTrue).
  specialize (H k (tupd "i" (VInt 1) (nil_env, no_temps))). cbn in H.
  match goal with |- context [while_ k ?c ?f ?s] =>
    replace (while_ k c f s) with (@None (outcome * tenv)) by (symmetry; exact H) end.
  reflexivity.
Qed.

(** A guard after alternatives that bind different parts is tried for each:
    match (1, 2): case (x, _) | (_, x) if x == 2: n = 1 *)
Theorem C64_guard_refuted :
  let p := Match (fun _ => VTuple [VInt 1; VInt 2])
             (CCons (POr (PTuple [PVar "x"; PWild]) (PTuple [PWild; PVar "x"]))
                (Some (fun s => match s "x" with VInt z => z =? 2 | _ => false end))
                (Assign "n" one) CNil) in
  (exists e', sexec 9 p nil_env = Some (Normal, e') /\ e' "n" = VInt 0) /\
  (exists e' T', texec 9 (desugar p) (nil_env, no_temps) = Some (Normal, (e', T')) /\ e' "n" = VInt 1).
Proof. split; [eexists; split; reflexivity|do 2 eexists; split; reflexivity]. Qed.

(** Variables are assigned although the pattern does not match:
    match 5: case (x := 1): pass *)
Theorem C64_capture_refuted :
  let p := Match (fun _ => VInt 5) (CCons (PBind "x" (PInt 1)) None Skip CNil) in
  (exists e', sexec 9 p nil_env = Some (Normal, e') /\ e' "x" = VInt 0) /\
  (exists e' T', texec 9 (desugar p) (nil_env, no_temps) = Some (Normal, (e', T')) /\ e' "x" = VInt 5).
Proof. split; [eexists; split; reflexivity|do 2 eexists; split; reflexivity]. Qed.

(** break in an else clause does not count as leaving the outer loop:
    for i in [1, 2, 3]:
      for j in [1, 2, 3]: pass
      else: break
    else: n = 1 *)
Theorem C64_break_in_else_refuted :
  let p := LoopElse (HFor "i" three) (LoopElse (HFor "j" three) Skip SBreak) (Assign "n" one) in
  (exists e', sexec 9 p nil_env = Some (Normal, e') /\ e' "n" = VInt 0) /\
  (exists e' T', texec 9 (desugar p) (nil_env, no_temps) = Some (Normal, (e', T')) /\ e' "n" = VInt 1).
Proof. split; [eexists; split; reflexivity|do 2 eexists; split; reflexivity]. Qed.

(** The else clause of a loop over a tuple of various types never runs:
    for i in (1, 'a'): pass
    else: n = 1 *)
Theorem C64_tuple_else_refuted :
  let p := LoopElse (HStatic "i" (fun _ => VTuple [VInt 1; VStr "a"]) 2) Skip (Assign "n" one) in
  (exists e', sexec 9 p nil_env = Some (Normal, e') /\ e' "n" = VInt 1) /\
  (exists e' T', texec 9 (desugar p) (nil_env, no_temps) = Some (Normal, (e', T')) /\ e' "n" = VInt 0).
Proof. split; [eexists; split; reflexivity|do 2 eexists; split; reflexivity]. Qed.

(** ** Non-vacuity *)

(** for t in (1, 'a', 'b'):
      match t:
        case 0 ... 5: n += 1
        case 'a' | 'b' if n < 2: n += 10
        case _: return n
      if n > 10: continue
      for j in [1, 2, 3]:
        match [j, 7, 8, 9]:
          case [2, ..., y]: m = y
        if m == 9: break
      else: break *)
Definition getz (x : string) (s : env) : Z := match s x with VInt z => z | _ => 0 end.
Definition sample : src :=
  Loop (HStatic "t" (fun _ => VTuple [VInt 1; VStr "a"; VStr "b"]) 3)
    (Seq (Match (fun s => s "t")
            (CCons (PRange 0 5) None (incr "n")
            (CCons (POr (PStr "a") (PStr "b")) (Some (fun s => getz "n" s <? 2))
               (Assign "n" (fun s => VInt (getz "n" s + 10)))
            (CCons PWild None (SReturn (fun s => s "n")) CNil))))
    (Seq (If (fun s => 10 <? getz "n" s) SContinue Skip)
         (LoopElse (HFor "j" three)
            (Seq (Match (fun s => VList [s "j"; VInt 7; VInt 8; VInt 9])
                    (CCons (PList [PInt 2; PEllipsis; PVar "y"]) None (Assign "m" (fun s => s "y")) CNil))
                 (If (fun s => getz "m" s =? 9) SBreak Skip))
            SBreak))).

Definition user (x : string) : Prop := x <> "y".

Ltac read := repeat intro; unfold getz;
  repeat match goal with H : forall x, _ -> _ x = _ x |- context [?s ?y] =>
    rewrite (H y) by (unfold user; first [discriminate | left; discriminate | right; now left]); clear H end;
  reflexivity.

Example sample_ok : ok user false sample /\ brks sample = false /\ conts sample = false.
Proof.
  split; [|split; reflexivity]. cbn. split; [split; [read|eexists; split; reflexivity]|].
  repeat split; try read; try (intros; discriminate); auto.
  all: try (intros x []; fail).
  all: try (intros H; exact H).
  - right. read.
  - intros x [<- |[]]. unfold user. congruence.
Qed.

Example sample_runs :
  exists e', sexec 9 sample nil_env = Some (Return (VInt 11), e') /\ e' "m" = VInt 9 /\ e' "t" = VStr "b".
Proof. eexists. split; [reflexivity|split; reflexivity]. Qed.

Example sample_desugared :
  exists s', texec 9 (desugar sample) (nil_env, no_temps) = Some (Return (VInt 11), s') /\
             fst s' "m" = VInt 9.
Proof. eexists. split; [reflexivity|reflexivity]. Qed.

Print Assumptions C64_desugar_partial.
Print Assumptions C64_pattern.
Print Assumptions C64_break_in_case_refuted.
Print Assumptions C64_continue_in_case_refuted.
Print Assumptions C64_guard_refuted.
Print Assumptions C64_capture_refuted.
Print Assumptions C64_break_in_else_refuted.
Print Assumptions C64_tuple_else_refuted.
