(** C82: fusing the addition of strings, and printing and writing the pieces. *)
From Coq Require Import List ZArith Bool Lia.
From Verif.Common Require Import Result.
From Verif.Fuse Require Import Spec Model Proofs.
Import ListNotations.

(** Replacing additions of strings by one call, anywhere in an expression, keeps its value, its effects and their
    order, and its exceptions, if only strings' own addition is so named. *)
Theorem C82_additions_partial : forall (U : Type) e e', step_expr e e' -> own_add e = true -> same_value (U := U) e e'.
Proof. intros U e e' S1 O P w. now apply step_expr_eval. Qed.

(** A program after any number of replacements by the two passes, in any order, prints and writes the same, with
    the same other effects and exceptions. *)
Theorem C82_programs_partial : forall (U : Type) p q, steps p q -> forallb plain_stmt p = true -> same_runs (U := U) p q.
Proof. intros U p q S1 O P used w. now apply steps_run. Qed.

(** Parts of a program that do nothing, for the witnesses below *)
Definition silent : parts unit :=
  Parts (fun _ => raise ValueError) (fun _ => ret [[65%Z]; [66%Z]]) (fun n => ret n) (fun _ _ _ => ret [1%Z]) (fun _ => [91%Z; 93%Z]).
Definition nothing : nat -> text -> comp unit unit := fun _ _ => ret tt.
Definition start : world unit := World tt [[]; []] [false; true].

(** A user's function named [__add__] on two strings is replaced as well. *)
Theorem C82_user_refuted : exists e e', step_expr e e' /\ ~ same_value (U := unit) e e'.
Proof.
  exists (Add (Some 0) (Add (Some 0) (Lit [65%Z]) (Lit [66%Z])) (Lit [67%Z])), (Cat [Lit [65%Z]; Lit [66%Z]; Lit [67%Z]]).
  split; [now apply step_here|]. intros S1. specialize (S1 silent start). discriminate.
Qed.

(** The separator of [print] is not evaluated any more: its exceptions and effects are lost. *)
Theorem C82_separator_refuted : exists p q, steps p q /\ ~ same_runs (U := unit) p q.
Proof.
  exists [Print [Cat [Lit [65%Z]; Lit [66%Z]]] (Some_text 0) (Lit []) 0], [Print [Lit [65%Z]; Lit [66%Z]] (Lit []) (Lit []) 0].
  split.
  - eapply steps_more; [|apply steps_none]. apply (step_at [] _ _ []). now apply step_print.
  - intros S1. specialize (S1 silent nothing start). discriminate.
Qed.

(** Printing, or writing, [str.cat] of a list gives the text of the list and not its strings in a row. *)
Theorem C82_items_refuted : exists p q p' q', steps p q /\ ~ same_runs (U := unit) p q /\
  steps p' q' /\ ~ same_runs (U := unit) p' q'.
Proof.
  exists [Print [CatItems 0] (Lit []) (Lit []) 0], [PrintItems 0 (Lit []) (Lit []) 0], [Write 0 (CatItems 0)], [WriteItems 0 0].
  split; [|split; [|split]].
  - eapply steps_more; [|apply steps_none]. apply (step_at [] _ _ []). now apply step_print.
  - intros S1. specialize (S1 silent nothing start). discriminate.
  - eapply steps_more; [|apply steps_none]. apply (step_at [] _ _ []). now apply step_write.
  - intros S1. specialize (S1 silent nothing start). discriminate.
Qed.

(** Writing [str.cat()] to a closed file does not raise any more. *)
Theorem C82_closed_refuted : exists p q, steps p q /\ ~ same_runs (U := unit) p q.
Proof.
  exists [Write 1 (Cat [])], [WriteEach 1 []]. split.
  - eapply steps_more; [|apply steps_none]. apply (step_at [] _ _ []). now apply step_write.
  - intros S1. specialize (S1 silent nothing start). discriminate.
Qed.

(** A call of a function named [write] with fewer than two arguments makes the compiler read beyond the arguments. *)
Theorem C82_arguments_refuted : exists args : list nat, write_arguments args = Undef.
Proof. exists []. reflexivity. Qed.
Theorem C82_arguments_partial : forall (A : Type) (args : list A), (2 <= length args)%nat -> write_arguments args <> Undef.
Proof. intros A [|x [|y l]]; cbn; try lia. discriminate. Qed.

(** Non-vacuity: print(a + "b" + c, end="") becomes print(a, "b", c, sep="", end="") in two steps. *)
Example C82_example :
  steps [Print [Add None (Add None (Some_text 0) (Lit [98%Z])) (Some_text 1)] (Lit [32%Z]) (Lit []) 0]
        [Print [Some_text 0; Lit [98%Z]; Some_text 1] (Lit []) (Lit []) 0].
Proof.
  apply steps_more with (q := [Print [Cat [Some_text 0; Lit [98%Z]; Some_text 1]] (Lit [32%Z]) (Lit []) 0]).
  - apply (step_at [] _ _ []). apply (step_print_arg [] _ (Cat [Some_text 0; Lit [98%Z]; Some_text 1]) []). now apply step_here.
  - eapply steps_more; [|apply steps_none]. apply (step_at [] _ _ []). now apply step_print.
Qed.
Example C82_example_plain :
  forallb plain_stmt [Print [Add None (Add None (Some_text 0) (Lit [98%Z])) (Some_text 1)] (Lit [32%Z]) (Lit []) 0] = true.
Proof. reflexivity. Qed.
Example C82_example_runs : runs (Parts (fun n => ret [Z.of_nat n]) (some_list silent) (fun n => ret n) (added silent) (shown silent)) nothing
  [Print [Some_text 0; Lit [98%Z]; Some_text 1] (Lit []) (Lit [10%Z]) 0; Write 0 (Cat [Lit [65%Z]; Some_text 3])] start =
  Done tt (World tt [[0%Z; 98%Z; 1%Z; 10%Z; 65%Z; 3%Z]; []] [false; true]).
Proof. reflexivity. Qed.

Print Assumptions C82_additions_partial.
Print Assumptions C82_programs_partial.
Print Assumptions C82_user_refuted.
Print Assumptions C82_separator_refuted.
Print Assumptions C82_items_refuted.
Print Assumptions C82_closed_refuted.
Print Assumptions C82_arguments_refuted.
Print Assumptions C82_arguments_partial.
