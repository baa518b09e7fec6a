(** Tactics for total-correctness proofs over [res]. *)
From Coq Require Import List ZArith Lia Bool Permutation.
From Verif.Common Require Import Result Arr.
Local Open Scope Z_scope.

Ltac zl := rewrite ?zlen_upd, ?zlen_swp in *; try lia.

(** One symbolic-execution step; [d] is the default element used by [zn]. *)
Ltac wps d :=
  match goal with
  | |- wp (bind _ _) _ => apply wp_bind
  | |- wp (Ok _) _ => apply wp_ok; cbv beta iota
  | |- wp (aget ?a ?i) _ =>
      rewrite (aget_ok d a i) by (rewrite ?zlen_upd, ?zlen_swp; lia);
      apply wp_ok; cbv beta iota
  | |- wp (aset ?a ?i ?x) _ =>
      rewrite (aset_ok a i x) by (rewrite ?zlen_upd, ?zlen_swp; lia);
      apply wp_ok; cbv beta iota
  | |- wp (aswap ?a ?i ?j) _ =>
      rewrite (aswap_ok d a i j) by (rewrite ?zlen_upd, ?zlen_swp; lia);
      apply wp_ok; cbv beta iota
  | |- wp (if ?b then _ else _) _ =>
      apply wp_if; let E := fresh "E" in intros E
  end.

(** Run straight-line code up to the next branch, loop or call. *)
Ltac wpr d :=
  repeat match goal with
  | |- wp (if _ then _ else _) _ => fail 1
  | _ => wps d
  end.

(** Turn boolean comparisons in hypotheses into propositions on [Z]. *)
Ltac zb :=
  repeat match goal with
  | H : (_ <? _) = true |- _ => apply Z.ltb_lt in H
  | H : (_ <? _) = false |- _ => apply Z.ltb_ge in H
  | H : (_ <=? _) = true |- _ => apply Z.leb_le in H
  | H : (_ <=? _) = false |- _ => apply Z.leb_gt in H
  | H : (_ =? _) = true |- _ => apply Z.eqb_eq in H
  | H : (_ =? _) = false |- _ => apply Z.eqb_neq in H
  | H : negb _ = true |- _ => apply negb_true_iff in H
  | H : negb _ = false |- _ => apply negb_false_iff in H
  | H : _ && _ = true |- _ => apply andb_true_iff in H; destruct H
  | H : _ || _ = false |- _ => apply orb_false_iff in H; destruct H
  end.
