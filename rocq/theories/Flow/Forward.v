(** Forwarding of array expressions: codon/cir/transform/numpy/forward.cpp, and the part of
    codon/cir/transform/numpy/numpy.cpp that applies it.

    The array expressions of a function are found by [parse] (numpy.cpp:253-696); here they are given.
    Not modelled: connected components and the search for cycles (forward.cpp:226-323), which only give up on
    some of the forwardings, and the choice between fused and sequential evaluation of the result. *)
From Coq Require Import List Bool Arith.
From Verif.Common Require Import Result.
From Verif.Flow Require Import Graph BitSet Reach.
Import ListNotations.
Local Open Scope res_scope.

(** numpy.h:124-267 NumPyExpr: a leaf is a value, with the variables it uses (GetVars, forward.cpp:15-26), or a
    read of a variable; an operation has one or two operands.  The numbers are those of the values. *)
Inductive leafk := VarLeaf (x : nat) | ValLeaf (vs : list nat).
Inductive nexpr := NLeaf (i : nat) (k : leafk) | NUn (i op : nat) (l : nexpr) | NBin (i op : nat) (l r : nexpr).
Definition root (e : nexpr) : nat := match e with NLeaf i _ | NUn i _ _ | NBin i _ _ _ => i end.
(** numpy.h:229-231 *)
Fixpoint depth (e : nexpr) : nat :=
  match e with NLeaf _ _ => 1 | NUn _ _ l => S (depth l) | NBin _ _ l r => S (Nat.max (depth l) (depth r)) end.
(** expr.cpp:461-467 [apply], on leaves *)
Fixpoint leaves (e : nexpr) : list (nat * leafk) :=
  match e with NLeaf i k => [(i, k)] | NUn _ _ l => leaves l | NBin _ _ l r => leaves l ++ leaves r end.
Definition leaf_vars (k : leafk) : list nat := match k with VarLeaf x => [x] | ValLeaf vs => vs end.
Definition vids (e : nexpr) : list nat := flat_map (fun l => leaf_vars (snd l)) (leaves e).
(** numpy.h:273-286 NumPyOptimizationUnit: [uassign] is the number of the assignment of the value and its variable *)
Record nunit := NUnit { uexpr : nexpr; uassign : option (nat * nat) }.

Section Forward.
Context (g : graph) (items : nat -> list item) (ins : list bits).
(** [effect i]: the side effect analysis does not call value [i] pure; for the operations inside an array expression:
    one of its leaves (forward.cpp:47-53). *)
Context (effect : nat -> bool).

(** lines 28-59 OkToForwardPast.  The parts of a value are items of the block themselves.  The instructions
    that the graph adds (a for loop's next element) have no recorded status, which counts as an effect. *)
Definition okPast (vs : list nat) (v : item) : bool :=
  match ikind v with
  | KDef x (Some _) => negb (memb x vs)
  | KDef _ None => false
  | _ => negb (effect (iid v))
  end.

(** lines 77-107 canForwardExpressionAlongPath; the inner loop returns whether all is well, and [go] *)
Fixpoint scan (src dst : nat) (vs : list nat) (front back : bool) (l : list item) (go : bool) : bool * bool :=
  match l with
  | [] => (true, go)
  | v :: l =>
      if negb go && front && Nat.eqb (iid v) src then scan src dst vs front back l true
      else if go && back && Nat.eqb (iid v) dst then (true, false)
      else if negb go then scan src dst vs front back l go
      else if okPast vs v then scan src dst vs front back l go
      else (false, go)
  end.
Fixpoint along (src dst : nat) (vs : list nat) (first final : nat) (path : list nat) (go : bool) : bool :=
  match path with
  | [] => true
  | b :: path =>
      let '(ok, go) := scan src dst vs (Nat.eqb b first) (Nat.eqb b final) (items b) go in
      if ok then along src dst vs first final path go else false
  end.

(** lines 134-151: the search over paths.  It goes on with the successors that are found in the path. *)
Fixpoint dfs (fuel : nat) (check : list nat -> bool) (fin curr : nat) (path : list nat) : res bool :=
  match fuel with
  | O => NoFuel
  | S fuel =>
      let path := path ++ [curr] in
      if Nat.eqb curr fin then Ok (check path)
      else fold_left (fun r s => ok <- r ;;
             if memb s path then ok' <- dfs fuel check fin s path ;; Ok (ok && ok') else Ok ok) (succs g curr) (Ok true)
  end.

(** lines 109-156 *)
Definition canForwardExpression (e : nexpr) (assign dst : nat) : res bool :=
  if existsb (fun l => effect (fst l)) (leaves e) then Ok false
  else match getBlock g items assign, getBlock g items dst with
       | Some s, Some t => dfs (S (size g)) (fun path => along assign dst (vids e) s t path false) t s []
       | _, _ => Undef (* an assertion *)
       end.

(** lines 61-75 GetAllUses *)
Definition uses (x : nat) (v : item) : bool :=
  match ikind v with KUse y | KPtr y | KDef y (Some _) => Nat.eqb x y | _ => false end.
(** lines 158-183; an assignment is known by its right-hand side [a] *)
Definition canForwardVariable (assign x a dst : nat) : bool :=
  match getReachingDefinitions g items ins false x dst with
  | [d] => rd_eqb d (RKnown a)
  | _ => false
  end &&
  forallb (fun u => negb (uses x u) || Nat.eqb (iid u) dst || Nat.eqb (iid u) assign ||
             negb (existsb (rd_eqb (RKnown a)) (getReachingDefinitions g items ins false x (iid u)))) (all_items g items).

(** lines 185-224: the forwardings into leaf [dst] of variable [x]: the numbers of the units forwarded *)
Context (units : list nunit).
Definition unit_at (k : nat) : nunit := nth k units (NUnit (NLeaf 0 (ValLeaf [])) None).
Definition forwards (k dst x : nat) : bool :=
  match uassign (unit_at k) with
  | Some (i, y) =>
      Nat.eqb x y && canForwardVariable i x (root (uexpr (unit_at k))) dst &&
      match canForwardExpression (uexpr (unit_at k)) i dst with Ok b => b | _ => false end
  | None => false
  end.
Definition sources (n dst x : nat) : list nat := filter (fun k => negb (Nat.eqb k n) && forwards k dst x) (seq 0 (length units)).

(** lines 325-344 doForwardingHelper: the leaves that units are forwarded to are replaced by their expressions, in
    which this was done before.  [fuel]: the number of units bounds the length of a chain. *)
Fixpoint graft (f : nat -> nat -> option nexpr) (e : nexpr) : nexpr :=
  match e with
  | NLeaf i (VarLeaf x) => match f i x with Some e' => e' | None => e end
  | NLeaf _ _ => e
  | NUn i op l => NUn i op (graft f l)
  | NBin i op l r => NBin i op (graft f l) (graft f r)
  end.
Fixpoint forwarded (fuel n : nat) : nexpr :=
  match fuel with
  | O => uexpr (unit_at n)
  | S fuel => graft (fun i x => match sources n i x with k :: _ => Some (forwarded fuel k) | [] => None end) (uexpr (unit_at n))
  end.
(** lines 357-387 doForwarding and numpy.cpp:760-762, 872-879: the units that are replaced, each by one evaluation of
    its forwarded expression; the assignments of the units forwarded are deleted *)
Definition is_source (k : nat) : bool :=
  existsb (fun n => existsb (fun l => match snd l with VarLeaf x => memb k (sources n (fst l) x) | _ => false end) (leaves (uexpr (unit_at n))))
    (seq 0 (length units)).
Definition result (n : nat) : option nexpr :=
  let e := forwarded (length units) n in
  if negb (is_source n) && (2 <? depth e) then Some e else None.
End Forward.
