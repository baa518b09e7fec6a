(** Reaching definitions and constant propagation of local variables:
    codon/cir/analyze/dataflow/reaching.cpp, codon/cir/transform/folding/const_prop.cpp. *)
From Coq Require Import List Bool Arith.
From Verif.Common Require Import Result.
From Verif.Flow Require Import Graph BitSet.
Import ListNotations.

(** The values listed in the blocks: assignments of a known value (AssignInstr, and SyntheticAssignInstr
    of kind KNOWN) with the id of the value, of an unknown value (other SyntheticAssignInstr), pointers
    to variables, reads of variables (VarValue) and the rest. *)
Inductive kind := KDef (x : nat) (assignee : option nat) | KPtr (x : nat) | KUse (x : nat) | KOther.
Record item := Item { iid : nat; ikind : kind }.

(** reaching.h:16-41 *)
Inductive rdef := RKnown (assignee : nat) | RUnknown (assignment : nat).
Definition rd_eqb (a b : rdef) : bool :=
  match a, b with RKnown i, RKnown j | RUnknown i, RUnknown j => Nat.eqb i j | _, _ => false end.

(** reaching.cpp:14-21 *)
Definition getKilled (v : item) : option nat := match ikind v with KDef x _ => Some x | _ => None end.
(** lines 23-36 *)
Definition getGenerated (v : item) : option (nat * rdef) :=
  match ikind v with
  | KDef x (Some a) => Some (x, RKnown a)
  | KDef x None => Some (x, RUnknown (iid v))
  | _ => None
  end.
Definition kills (x : nat) (v : item) : bool := match getKilled v with Some y => Nat.eqb x y | None => false end.

(** lines 38-64 *)
Definition push (q : list nat) (b : nat) : list nat := if memb b q then q else q ++ [b].
Fixpoint upd {A} (l : list A) (i : nat) (x : A) : list A :=
  match l, i with
  | [], _ => []
  | _ :: l, O => x :: l
  | y :: l, S i => y :: upd l i x
  end.

Section Reach.
Context (g : graph) (items : nat -> list item).
Notation n := (size g).

Definition all_items : list item := concat (map items (seq 0 n)).
(** lines 136-151: [ordering], [lookup] and [varToAssignments] *)
Definition ordering : list item := filter (fun v => match getKilled v with Some _ => true | None => false end) all_items.
Fixpoint index (id : nat) (l : list item) : nat := match l with [] => 0 | v :: l => if Nat.eqb (iid v) id then 0 else S (index id l) end.
Definition lookup (id : nat) : nat := index id ordering.
Definition assignments (x : nat) : list item := filter (kills x) ordering.
Definition N : nat := length ordering.

(** lines 156-191: the last assignment of each variable in a block, and what its assignments kill *)
Definition generated (b : nat) : list (nat * nat) :=
  fold_left (fun m v => match getGenerated v with
                        | Some (x, _) => (x, iid v) :: filter (fun e => negb (Nat.eqb (fst e) x)) m
                        | None => m
                        end) (items b) [].
Definition gen (b : nat) : bits := fold_left (fun w e => set w (lookup (snd e))) (generated b) (empty N).
Definition kill1 (v : item) (w : bits) : bits :=
  match getKilled v with
  | Some k => fold_left (fun w a => if Nat.eqb (iid a) (iid v) then w else set w (lookup (iid a))) (assignments k) w
  | None => w
  end.
Definition kill (b : nat) : bits := fold_left (fun w v => kill1 v w) (items b) (empty N).
Definition invalid : list nat := flat_map (fun v => match ikind v with KPtr x => [x] | _ => [] end) all_items.

(** lines 201-222: one block of the work list; [ins] and [outs] by block *)
Definition IN (outs : list bits) (b : nat) : bits := fold_left (fun w p => update w (nth p outs [])) (preds g b) (empty N).
Definition OUT (inb : bits) (b : nat) : bits := update (subtract inb (kill b)) (gen b).
Definition state : Type := list nat * list bits * list bits.
Definition work (s : state) : res (state + list bits) :=
  let '(q, ins, outs) := s in
  match q with
  | [] => Ok (inr ins)
  | b :: q =>
      let i := IN outs b in
      let o := OUT i b in
      Ok (inl (if equals o (nth b outs []) then q else fold_left push (succs g b) q, upd ins b i, upd outs b o))
  end.
(** lines 186-190 and 200-222 *)
Definition init : state := (seq 0 n, map (fun _ => empty N) (seq 0 n), map gen (seq 0 n)).
Definition fuel : nat := S (n * (64 * allocSize N) * S n + n).
Definition analyze : res (list bits) := loop fuel work init.

(** unordered_set<ReachingDef>::insert *)
Definition insert (d : rdef) (l : list rdef) : list rdef := if existsb (rd_eqb d) l then l else d :: l.
(** lines 224-235 and 247: the definitions of [x] among those that reach the start of block [b] *)
Definition in_defs (ins : list bits) (b x : nat) : list rdef :=
  fold_left (fun l i => if get (nth b ins []) i then
                          match nth_error ordering i with
                          | Some v => match getGenerated v with Some (y, d) => if Nat.eqb x y then insert d l else l | None => l end
                          | None => l
                          end
                        else l) (seq 0 N) [].
(** lines 252-268 *)
Fixpoint walk (x loc : nat) (l : list item) (defs : list rdef) (didClear : bool) : list rdef * bool :=
  match l with
  | [] => (defs, didClear)
  | v :: l =>
      let '(defs, didClear) := if kills x v then ([], true) else (defs, didClear) in
      let defs := match getGenerated v with Some (y, d) => if Nat.eqb x y then insert d defs else defs | None => defs end in
      if Nat.eqb (iid v) loc then (defs, didClear) else walk x loc l defs didClear
  end.
Definition getBlock (loc : nat) : option nat := find (fun b => memb loc (map iid (items b))) (seq 0 n).
(** lines 237-274 *)
Definition getReachingDefinitions (ins : list bits) (is_global : bool) (x loc : nat) : list rdef :=
  if memb x invalid || is_global then []
  else match getBlock loc with
       | None => []
       | Some b =>
           let '(defs, didClear) := walk x loc (items b) (in_defs ins b x) false in
           if Nat.eqb b entry && negb didClear then [] else defs
       end.

(** const_prop.cpp:21-66, local variables: the constant that replaces the read [loc] of [x];
    [constOf] gives the int, float or bool constant a value is, if it is one *)
Context {V : Type} (constOf : nat -> option V).
Definition propagate (ins : list bits) (x loc : nat) : option V :=
  match getReachingDefinitions ins false x loc with
  | [RKnown a] => constOf a
  | _ => None
  end.
End Reach.
