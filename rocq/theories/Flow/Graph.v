(** Control flow graphs: codon/cir/analyze/dataflow/cfg.h. *)
From Coq Require Import List Bool Arith.
Import ListNotations.

(** cfg.h:24-120 and 300-: blocks are numbered in the order of the list [blocks]; the entry block is
    created first (cfg.cpp:101).  [succs] are the successors of a block; the predecessors
    are kept in step by [successors_insert] (lines 91-94). *)
Record graph := { size : nat; succs : nat -> list nat }.
Definition memb (x : nat) (l : list nat) : bool := existsb (Nat.eqb x) l.
Definition preds (g : graph) (b : nat) : list nat := filter (fun p => memb b (succs g p)) (seq 0 (size g)).
Definition entry : nat := 0.

(** Specification: [trace g r h b]: some path from [r] arrives in [b]; [h] are the blocks it went
    through before, the latest first. *)
Inductive trace (g : graph) (r : nat) : list nat -> nat -> Prop :=
| t_start : trace g r [] r
| t_step h b c : trace g r h b -> In c (succs g b) -> trace g r (b :: h) c.

(** Edges stay in the graph, there is an entry and nothing leads to it. *)
Definition wf (g : graph) : Prop :=
  0 < size g /\ (forall b c, b < size g -> In c (succs g b) -> c < size g) /\
  (forall b, b < size g -> ~ In entry (succs g b)) /\ (forall b, size g <= b -> succs g b = []).
