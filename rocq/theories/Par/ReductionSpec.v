(** Specification for reductions: what the sequential loop computes. *)
From Coq Require Import ZArith List Bool.
From Verif.Common Require Import Int64.
Import ListNotations.
Local Open Scope Z_scope.

(** Operations on [int]: those the compiler may reduce with, and two it may not. *)
Inductive op := OAdd | OMul | OAnd | OOr | OXor | OMin | OMax | OSub | OFloorDiv.

(** 64-bit wrapping semantics (division by zero, which is undefined, gives 0 here). *)
Definition apply (o : op) (a b : Z) : Z :=
  match o with
  | OAdd => w64 (a + b)
  | OMul => w64 (a * b)
  | OAnd => Z.land a b
  | OOr => Z.lor a b
  | OXor => Z.lxor a b
  | OMin => if a <=? b then a else b
  | OMax => if b <=? a then a else b
  | OSub => w64 (a - b)
  | OFloorDiv => w64 (a / b)
  end.

(** Expressions in a loop body: the variable [s] shared with the enclosing function, values
    that depend only on the iteration, operations. *)
Inductive expr :=
| EVar
| EVal (f : Z -> Z)
| EBin (o : op) (a b : expr).

(** Statements of the body, as far as they concern [s]; conditions may look at [s]. *)
Inductive stmt :=
| SSkip
| SSet (e : expr)
| SSeq (a b : stmt)
| SIf (c : Z -> Z -> bool) (a b : stmt).

Fixpoint eval (i s : Z) (e : expr) : Z :=
  match e with
  | EVar => s
  | EVal f => w64 (f i)
  | EBin o a b => apply o (eval i s a) (eval i s b)
  end.

Fixpoint exec (st : stmt) (i s : Z) : Z :=
  match st with
  | SSkip => s
  | SSet e => eval i s e
  | SSeq a b => exec b i (exec a i s)
  | SIf c a b => if c i s then exec a i s else exec b i s
  end.

(** The sequential loop over [xs]. *)
Definition seq_loop (st : stmt) (xs : list Z) (s : Z) : Z :=
  fold_left (fun s i => exec st i s) xs s.

(** [e] does not read [s]. *)
Fixpoint free (e : expr) : bool :=
  match e with
  | EVar => false
  | EVal _ => true
  | EBin _ a b => free a && free b
  end.

(** The accumulations: [e] combines [s], once, by the operation [o] with values that do
    not depend on [s].  For min and max these are [min(s, x)] and [min(x, s)]. *)
Definition nary (o : op) : bool :=
  match o with OAdd | OMul | OAnd | OOr | OXor => true | _ => false end.
Definition binary (o : op) : bool := match o with OMin | OMax => true | _ => false end.

Fixpoint chain_of (o : op) (e : expr) : Prop :=
  match e with
  | EVar => True
  | EVal _ => False
  | EBin o' a b => o' = o /\ (chain_of o a /\ free b = true \/ free a = true /\ chain_of o b)
  end.

Definition accumulates (o : op) (e : expr) : Prop :=
  match e with
  | EBin o' a b =>
      o' = o /\
      (nary o = true /\ chain_of o e \/
       binary o = true /\ (a = EVar /\ free b = true \/ free a = true /\ b = EVar))
  | _ => False
  end.

(** Every assignment of [s] in the body is such an accumulation, and no condition looks
    at [s]. *)
Fixpoint reduces (o : op) (st : stmt) : Prop :=
  match st with
  | SSkip => True
  | SSet e => accumulates o e
  | SSeq a b => reduces o a /\ reduces o b
  | SIf c a b => (forall i s s', c i s = c i s') /\ reduces o a /\ reduces o b
  end.

(** The body assigns [s] somewhere. *)
Fixpoint assigns (st : stmt) : bool :=
  match st with
  | SSkip => false
  | SSet _ => true
  | SSeq a b | SIf _ a b => assigns a || assigns b
  end.
