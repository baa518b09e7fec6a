(** C81: reading command lines. *)
From Coq Require Import List ZArith Bool Lia.
From Verif.Common Require Import Result.
From Verif.Getopt Require Import Spec Model Proofs.
Import ListNotations.
Local Open Scope Z_scope.

(** A command line that can be read is read so, whatever options are declared, unless "--name=" stands for an
    empty argument. *)
Theorem C81_reads_partial : forall posix shorts longs args opts rest,
  command_line true posix shorts longs args opts rest -> getopt posix args shorts longs = Ok (opts, rest).
Proof. exact getopt_complete. Qed.

(** And nothing else is accepted, unless an argument is "--name=". *)
Theorem C81_accepts_partial : forall posix shorts longs args opts rest,
  Forall (fun a => ~ exists name, a = 45 :: 45 :: name ++ [61] /\ ~ In 61 name) args ->
  getopt posix args shorts longs = Ok (opts, rest) -> command_line true posix shorts longs args opts rest.
Proof. exact getopt_sound. Qed.

(** Everything else raises an error: no command line is read out of bounds or without end. *)
Theorem C81_otherwise_raises : forall posix shorts longs args,
  (exists opts rest, getopt posix args shorts longs = Ok (opts, rest)) \/
  (exists e, getopt posix args shorts longs = Raise e).
Proof.
  intros posix shorts longs args. destruct (getopt_ends posix shorts longs args) as [A B].
  destruct (getopt posix args shorts longs) as [[o r]|e| |]; [left|right|..]; eauto; congruence.
Qed.

(** A command line has at most one reading. *)
Theorem C81_one_reading : forall posix shorts longs args opts rest opts' rest',
  command_line true posix shorts longs args opts rest -> command_line true posix shorts longs args opts' rest' ->
  opts = opts' /\ rest = rest'.
Proof.
  intros posix shorts longs args opts rest opts' rest' A B. apply getopt_complete in A, B. rewrite A in B. now inversion B.
Qed.

(** All arguments after "--" are operands, in their order, and follow the operands before it. *)
Theorem C81_after_dashes : forall posix shorts longs before after opts rest,
  command_line true posix shorts longs before opts rest -> ~ In [45; 45] before ->
  (posix = false /\ ~ prefix [43] shorts) ->
  getopt posix (before ++ [45; 45] :: after) shorts longs = Ok (opts, rest ++ after).
Proof.
  intros posix shorts longs before after opts rest C N [-> P]. apply getopt_complete. right. split; [exact P|].
  destruct C as [(s & -> & _)|[_ R]]; [destruct P; now exists s|]. revert N.
  induction R as [|args|a args F Q|a args opts rest F Q R IH|name full args opts rest Nm E L R IH|name full value args opts rest E L V R IH
    |name full value args opts rest Nm E L R IH|letters args args' opts opts' rest Nm D C R IH]; intros N; cbn [app].
  - apply r_dashes.
  - destruct N. now left.
  - discriminate.
  - apply r_operand; [reflexivity|exact Q|]. apply IH. intros I. apply N. now right.
  - apply r_flag; try assumption. apply IH. intros I. apply N. now right.
  - apply r_attached; try assumption. apply IH. intros I. apply N. now right.
  - apply r_next; try assumption. apply IH. intros I. apply N. right. now right.
  - destruct (cluster_suffix _ _ _ _ _ C) as [pre E].
    apply (r_cluster _ _ _ _ letters _ (args' ++ [45; 45] :: after)); try assumption.
    + clear -C. induction C; cbn [app]; constructor; assumption.
    + apply IH. intros I. apply N. right. rewrite E. apply in_or_app. now right.
Qed.

(** "--name=" is an empty argument in Python; here the next argument is taken. *)
Theorem C81_empty_refuted : exists shorts longs args opts rest, command_line false false shorts longs args opts rest /\
  forall opts' rest', getopt false args shorts longs = Ok (opts', rest') -> opts' <> opts /\ rest' <> rest.
Proof.
  exists [], [[111; 61]], [[45; 45; 111; 61]; [97]], [([45; 45; 111], [])], [[97]]. split.
  - right. split; [intros [r E]; discriminate|]. apply (r_attached _ _ _ _ [111] [111] []).
    + intros [E|[]]. discriminate.
    + apply long_exact_takes; [intros [E|[]]; discriminate|now left].
    + discriminate.
    + apply r_operand; [reflexivity| |apply r_end]. right. intros [r E]. discriminate.
  - intros o r E. vm_compute in E. inversion E; subst. split; discriminate.
Qed.

(** "--flag=" for an option without argument is refused in Python, accepted here. *)
Theorem C81_flag_refuted : exists shorts longs args opts rest,
  getopt false args shorts longs = Ok (opts, rest) /\
  forall opts' rest', ~ command_line false false shorts longs args opts' rest'.
Proof.
  exists [], [[102]], [[45; 45; 102; 61]], [([45; 45; 102], [])], []. split; [reflexivity|].
  intros o r [(s & E & _)|[_ R]]; [discriminate|].
  assert (S1 : forall n f, long_option [[102]] n f true -> n = [102] -> False).
  { intros n f L ->. inversion L as [I|N I|b x a f' t N1 N2 E P A T]; subst; apply N1 || apply N || idtac; now left. }
  inversion R; subst.
  - match goal with H : operand _ |- _ => destruct H as [H|H]; [discriminate|apply H; now exists [45; 102; 61]] end.
  - match goal with H : operand _ |- _ => destruct H as [H|H]; [discriminate|apply H; now exists [45; 102; 61]] end.
  - match goal with H : ~ In 61 [102; 61] |- _ => apply H; right; now left end.
  - match goal with H : name ++ 61 :: value = [102; 61], L : long_option _ _ _ true |- _ =>
      apply (S1 _ _ L); destruct name as [|x [|y n]]; inversion H; subst; try reflexivity end.
    + match goal with H : n ++ 61 :: value = [] |- _ => now destruct n end.
  - match goal with H : ~ prefix [45] [45; 102; 61] |- _ => apply H; now exists [102; 61] end.
Qed.

(** Python's [getopt] stops at the first operand; this one does not, as [gnu_getopt]. *)
Theorem C81_stops_refuted : exists shorts args opts rest, reads false true shorts [] args opts rest /\
  getopt false args shorts [] = Ok ([([45; 120], [])], [[97]]) /\ opts = [] /\ rest = args.
Proof.
  exists [120], [[97]; [45; 120]], [], [[97]; [45; 120]]. split; [|now repeat split].
  apply r_stop; [reflexivity|]. right. intros [r E]. discriminate.
Qed.

(** Non-vacuity: -ab v x --ver --out=y -- -a, with short options "ab:" and long ones "verbose", "out=" *)
Example C81_example : getopt false
  [[45; 97; 98]; [118]; [120]; [45; 45; 118; 101; 114]; [45; 45; 111; 117; 116; 61; 121]; [45; 45]; [45; 97]]
  [97; 98; 58] [[118; 101; 114; 98; 111; 115; 101]; [111; 117; 116; 61]] =
  Ok ([([45; 97], []); ([45; 98], [118]); ([45; 45; 118; 101; 114; 98; 111; 115; 101], []); ([45; 45; 111; 117; 116], [121])],
      [[120]; [45; 97]]).
Proof. reflexivity. Qed.
Example C81_example_reads : exists opts rest, command_line true false [97; 98; 58] [[118; 101; 114; 98; 111; 115; 101]; [111; 117; 116; 61]]
  [[45; 97; 98]; [118]; [120]; [45; 45; 118; 101; 114]; [45; 45; 111; 117; 116; 61; 121]; [45; 45]; [45; 97]] opts rest.
Proof.
  eexists. eexists. apply C81_accepts_partial; [|exact C81_example].
  repeat (apply Forall_cons; [intros (name & E & _); apply (f_equal (fun l => last l 0)) in E;
    rewrite !app_comm_cons, last_last in E; discriminate|]).
  apply Forall_nil.
Qed.

Print Assumptions C81_reads_partial.
Print Assumptions C81_accepts_partial.
Print Assumptions C81_otherwise_raises.
Print Assumptions C81_one_reading.
Print Assumptions C81_after_dashes.
Print Assumptions C81_empty_refuted.
Print Assumptions C81_flag_refuted.
Print Assumptions C81_stops_refuted.
