(** Side-effect analysis: codon/cir/analyze/module/side_effect.cpp.

    The status of a function is a parameter: it is computed from the function's attributes or
    body (lines 146-167), and the theorems assume that a function called PURE is. *)
From Coq Require Import List ZArith Bool.
From Verif.Ir Require Import Num Sem.
Import ListNotations.

(** codon/cir/util/side_effect.h:19-24; later ones are weaker *)
Inductive status := PURE | NO_SIDE_EFFECT | NO_CAPTURE | UNKNOWN.
Definition rank (s : status) : nat := match s with PURE => 0 | NO_SIDE_EFFECT => 1 | NO_CAPTURE => 2 | UNKNOWN => 3 end.
(** lines 17-23 *)
Definition smax (a b : status) : status := if Nat.ltb (rank b) (rank a) then a else b.

Definition is_var (g : bool) (i : nat) (x : var) : nat := if Bool.eqb (vglobal x) g && Nat.eqb (vid x) i then 1 else 0.

(** lines 25-36 [VarUseAnalyzer]: how often the nodes below [e] use a variable (VarValue and
    AssignInstr, codon/cir/flow.h:296 ImperativeForFlow, flow.cpp:230-237 TryCatchFlow), and how
    often they assign it *)
Section Count.
Context (g : bool) (i : nat).
Fixpoint varCounts (e : node) : nat :=
  match e with
  | Const _ | Break | Continue => 0
  | VarV x => is_var g i x
  | Call _ args => fold_right (fun a n => varCounts a + n) 0 args
  | Ternary c a b | If c a b => varCounts c + varCounts a + varCounts b
  | Assign x e => is_var g i x + varCounts e
  | Series l => fold_right (fun a n => varCounts a + n) 0 l
  | While c b => varCounts c + varCounts b
  | ImpFor x a _ b body => is_var g i x + varCounts a + varCounts b + varCounts body
  | Return e | Throw e => varCounts e
  | FlowI f v => varCounts f + varCounts v
  | Try b x h f => is_var g i x + varCounts b + varCounts h + varCounts f
  end.
Fixpoint varAssignCounts (e : node) : nat :=
  match e with
  | Const _ | Break | Continue | VarV _ => 0
  | Call _ args => fold_right (fun a n => varAssignCounts a + n) 0 args
  | Ternary c a b | If c a b => varAssignCounts c + varAssignCounts a + varAssignCounts b
  | Assign x e => is_var g i x + varAssignCounts e
  | Series l => fold_right (fun a n => varAssignCounts a + n) 0 l
  | While c b => varAssignCounts c + varAssignCounts b
  | ImpFor x a _ b body => varAssignCounts a + varAssignCounts b + varAssignCounts body
  | Return e | Throw e => varAssignCounts e
  | FlowI f v => varAssignCounts f + varAssignCounts v
  | Try b x h f => varAssignCounts b + varAssignCounts h + varAssignCounts f
  end.
End Count.

(** lines 114-121 [used] for variable [i] of function body [prog]; [oc], [oa] count the uses and
    assignments of globals in the rest of the module *)
Definition used (oc oa : nat -> nat) (prog : node) (g : bool) (i : nat) : bool :=
  negb (Nat.eqb ((if g then oc i else 0) + varCounts g i prog) ((if g then oa i else 0) + varAssignCounts g i prog)).

Section Status.
Context (py : bool) (fstat : nat -> status).
(** [globalAssignmentHasSideEffects] *)
Context (gase : bool) (used : bool -> nat -> bool).

(** lines 110-130 [getVarAssignStatus], first component (no external variables) *)
Definition var_assign_status (x : var) : status :=
  let u := used (vglobal x) (vid x) in
  let d := if vglobal x then UNKNOWN else NO_CAPTURE in
  if gase then (if u || vglobal x then d else PURE) else (if u then d else PURE).

(** The magic methods of numbers are @pure, except that the Python division operators have a
    body that throws (lines 339-342: NO_CAPTURE for the function) *)
Definition magic_status (m : magic) : status :=
  match m with
  | FloorDiv | TrueDiv | Mod => if py then NO_CAPTURE else PURE
  | _ => PURE
  end.
Definition fn_status (f : fn) : status := match f with Magic m _ => magic_status m | User f => fstat f end.

(** lines 169-346: the status of each node, without the statement kinds absent from [node] *)
Fixpoint stat (e : node) : status :=
  match e with
  | Const _ | VarV _ => PURE
  | Call f args => smax (fold_right (fun a s => smax s (stat a)) PURE args) (fn_status f)
  | Ternary c a b | If c a b => smax (smax (stat c) (stat a)) (stat b)
  | Assign x e => smax (var_assign_status x) (stat e)
  | Series l => fold_right (fun a s => smax s (stat a)) PURE l
  | While c b => smax (stat c) (stat b)
  | ImpFor x a _ b body => smax (var_assign_status x) (smax (smax (stat a) (stat b)) (stat body))
  | Break | Continue => NO_CAPTURE
  | Return e => smax NO_CAPTURE (stat e)
  | Throw _ => UNKNOWN
  | FlowI f v => smax (stat f) (stat v)
  | Try b x h f => smax (smax (smax (stat b) (stat f)) (var_assign_status x)) (stat h)
  end.
(** lines 357-360 *)
Definition hasSideEffect (e : node) : bool := match stat e with PURE => false | _ => true end.
End Status.
