(** C80: replacement templates of regular expressions. *)
From Coq Require Import List ZArith Bool Lia.
From Verif.Common Require Import Result.
From Verif.Re Require Import TemplateSpec TemplateModel TemplateProofs.
Import ListNotations.
Local Open Scope Z_scope.

(** A template that Python accepts expands to what Python's does, whatever the groups are, apart from the two
    forms that [strict] leaves out; a group that cannot be found raises the same error. *)
Theorem C80_template_partial : forall group text ts,
  template true text ts -> expand group text = expansion group ts.
Proof. exact expand_correct. Qed.

(** An unknown letter after a backslash, or "\g" without a name in angle brackets, is never accepted,
    wherever it stands. *)
Theorem C80_bad_escape : forall group before ts c after out,
  template true before ts -> letter c = true -> (forall v, ~ In (c, v) escapes) ->
  (c = 103 -> forall name rest, name <> [] -> forallb word name = true -> after <> 60 :: name ++ 62 :: rest) ->
  expand group (before ++ 92 :: c :: after) <> Ok out.
Proof.
  intros group before ts c after out T A N G. apply expand_bad with (ts := ts); [exact T|exact A|exact N|].
  intros ->. apply g_no_match. now apply G.
Qed.

(** "\0123" is a newline and "3" in Python, one byte here. *)
Theorem C80_octal_refuted : exists text ts out, template false text ts /\
  (forall group, expansion group ts = Ok [10; 51]) /\ (forall group, expand group text = Ok out) /\ out <> [10; 51].
Proof.
  exists [92; 48; 49; 50; 51], [Lit 10; Lit 51], [83]. split; [|repeat split; discriminate].
  apply (t_zero false [49; 50] [51] [Lit 51]); [reflexivity|cbn; lia|cbn; lia|discriminate|].
  apply t_char; [lia|]. apply t_end.
Qed.

(** A backslash before a quote is lost. *)
Theorem C80_quote_refuted : exists text ts out, template false text ts /\
  (forall group, expansion group ts = Ok [92; 34]) /\ (forall group, expand group text = Ok out) /\ out <> [92; 34].
Proof.
  exists [92; 34], [Lit 92; Lit 34], [34]. split; [|repeat split; discriminate].
  apply t_other; [reflexivity|reflexivity|lia|discriminate|]. apply t_end.
Qed.

(** A backslash at the end, and a number beyond 377, are errors in Python and accepted here. *)
Theorem C80_accepts_refuted : exists text text',
  (forall ts, ~ template false text ts) /\ (forall group, expand group text = Ok [92]) /\
  (forall ts, ~ template false text' ts) /\ (forall group, expand group text' = Ok [0]).
Proof.
  exists [92], [92; 52; 48; 48]. repeat split; try reflexivity.
  - intros ts T. inversion T; subst; congruence.
  - intros ts T. inversion T; subst; try congruence; try discriminate.
    cbn in *. repeat match goal with H : _ \/ _ |- _ => destruct H as [H|H]; [discriminate|] end. assumption.
Qed.

(** Non-vacuity: [x\2-\g<n>\n\061\.\12] *)
Definition example : list Z :=
  [120; 92; 50; 45; 92; 103; 60; 110; 62; 92; 110; 92; 48; 54; 49; 92; 46; 92; 49; 50].
Example C80_example : template true example
  [Lit 120; Ref (Num 2); Lit 45; Ref (Name [110]); Lit 10; Lit 49; Lit 92; Lit 46; Ref (Num 12)].
Proof.
  apply t_char; [lia|]. apply (t_group true 50); [lia|reflexivity|reflexivity|]. apply t_char; [lia|].
  apply (t_name true [110]); [discriminate|reflexivity|reflexivity|].
  apply t_escape; [cbn; tauto|]. apply (t_zero true [54; 49]); [reflexivity|cbn; lia|cbn; lia|reflexivity|].
  apply t_other; [reflexivity|reflexivity|lia|lia|].
  apply (t_group2 true 49 50); [lia|reflexivity|reflexivity|reflexivity|]. apply t_end.
Qed.
Example C80_example_run : expand (fun r => match r with Num 2 => Ok (Some [65; 66]) | Name _ => Ok (Some [67]) | _ => Ok None end) example =
  Ok [120; 65; 66; 45; 67; 10; 49; 92; 46].
Proof. reflexivity. Qed.
Example C80_example_bad : expand (fun _ => Ok None) (example ++ [92; 113]) = Raise OtherError.
Proof. reflexivity. Qed.

Print Assumptions C80_template_partial.
Print Assumptions C80_bad_escape.
Print Assumptions C80_octal_refuted.
Print Assumptions C80_quote_refuted.
Print Assumptions C80_accepts_refuted.
