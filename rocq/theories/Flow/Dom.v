(** Dominators: codon/cir/analyze/dataflow/dominator.cpp. *)
From Coq Require Import List Bool Arith.
From Verif.Common Require Import Result.
From Verif.Flow Require Import Graph.
Import ListNotations.

(** llvm::BitVector: reset/set/resize, [set(i)], [operator&=] *)
Definition bv := list bool.
Fixpoint bset (v : bv) (i : nat) : bv :=
  match v, i with
  | [], _ => []
  | _ :: v, O => true :: v
  | b :: v, S i => b :: bset v i
  end.
Definition bget (v : bv) (i : nat) : bool := nth i v false.
Fixpoint band (v w : bv) : bv :=
  match v, w with a :: v, b :: w => (a && b) :: band v w | v, _ => v end.
Fixpoint beqb (v w : bv) : bool :=
  match v, w with [], [] => true | a :: v, b :: w => Bool.eqb a b && beqb v w | _, _ => false end.
Fixpoint vset (l : list bv) (i : nat) (x : bv) : list bv :=
  match l, i with
  | [], _ => []
  | _ :: l, O => x :: l
  | b :: l, S i => b :: vset l i x
  end.

Section Dom.
Context (g : graph).
Notation n := (size g).

(** lines 28-36 *)
Definition init : list bv :=
  map (fun b => if Nat.eqb b entry then bset (repeat false n) b else repeat true n) (seq 0 n).

(** lines 43-60: the intersection of the predecessors' sets, and the block *)
Definition newset (bits : list bv) (b : nat) : bv :=
  bset match preds g b with
       | [] => repeat false n
       | p :: ps => fold_left (fun s p => band s (nth p bits [])) ps (nth p bits [])
       end b.
(** lines 41-66: one sweep over the blocks *)
Definition sweep1 (st : list bv * bool) (b : nat) : list bv * bool :=
  let '(bits, changed) := st in
  let new := newset bits b in
  if beqb new (nth b bits []) then (bits, changed) else (vset bits b new, true).
Definition sweep (bits : list bv) : list bv * bool := fold_left sweep1 (seq 0 n) (bits, false).

(** lines 38-67 *)
Definition analyze : res (list bv) :=
  loop (S (n * n)) (fun bits => let '(bits, changed) := sweep bits in Ok (if changed then inl bits else inr bits)) init.

(** lines 81-96; the values of each block, and the block a value is in *)
Context (items : nat -> list nat).
Definition getBlock (v : nat) : option nat := find (fun b => memb v (items b)) (seq 0 n).
(** std::distance(begin, std::find(...)) *)
Fixpoint dist (v : nat) (l : list nat) : nat := match l with [] => 0 | x :: l => if Nat.eqb v x then 0 else S (dist v l) end.
Definition isDominated (bits : list bv) (v dominator : nat) : res bool :=
  match getBlock v, getBlock dominator with
  | Some vb, Some db =>
      if Nat.eqb vb db then Ok (Nat.leb (dist dominator (items vb)) (dist v (items vb)))
      else Ok (bget (nth vb bits []) db)
  | _, _ => Undef
  end.
End Dom.
