(** Model of reductions in /repo/codon/cir/transform/parallel/openmp.cpp.

    Reductions over [int] variables; the table of initial values also for the other
    types.  Simplifications: expressions are typed [int] throughout, so the type tests of
    [isCallOf] hold; [min] and [max] are the two-argument functions. *)
From Coq Require Import ZArith List Bool Permutation.
From Coq Require Import Floats.SpecFloat.
From Verif.Common Require Import Int64.
From Verif.Par Require Import ReductionSpec.
Import ListNotations.
Local Open Scope Z_scope.

(** openmp.cpp:118-141 [Reduction::getInitial] for [int] *)
Definition initial (o : op) : option Z :=
  match o with
  | OAdd => Some 0
  | OMul => Some 1
  | OAnd => Some (-1)
  | OOr => Some 0
  | OXor => Some 0
  | OMin => Some max64
  | OMax => Some min64
  | _ => None
  end.

(** openmp.cpp:402-413 [extractAssociativeOpChain] *)
Definition op_eqb (a b : op) : bool :=
  match a, b with
  | OAdd, OAdd | OMul, OMul | OAnd, OAnd | OOr, OOr | OXor, OXor | OMin, OMin | OMax, OMax
  | OSub, OSub | OFloorDiv, OFloorDiv => true
  | _, _ => false
  end.

Fixpoint op_chain (o : op) (e : expr) : list expr :=
  match e with
  | EBin o' a b => if op_eqb o' o then op_chain o a ++ op_chain o b else [e]
  | _ => [e]
  end.

(** openmp.cpp:385-400 [isSharedDeref] *)
Definition is_deref (e : expr) : bool := match e with EVar => true | _ => false end.

(** openmp.cpp:415-503 [getReductionFromCall]: the value stored decides *)
Definition reduction_from (item : expr) : option op :=
  match item with
  | EBin o a b =>
      let operands := if nary o then op_chain o item else if binary o then [a; b] else [] in
      if existsb is_deref operands then
        match initial o with Some _ => Some o | None => None end
      else None
  | _ => None
  end.

(** openmp.cpp:510-522 [handle], over the stores in program order.  [None] means not seen
    yet, [Some None] means found inconsistent. *)
Definition see (r : option (option op)) (item : expr) : option (option op) :=
  match reduction_from item with
  | None => r
  | Some k =>
      match r with
      | None => Some (Some k)
      | Some (Some k') => if op_eqb k' k then r else Some None
      | Some None => r
      end
  end.

Fixpoint identify (st : stmt) (r : option (option op)) : option (option op) :=
  match st with
  | SSkip => r
  | SSet e => see r e
  | SSeq a b => identify b (identify a r)
  | SIf _ a b => identify b (identify a r)
  end.

(** openmp.cpp:505-508 [getReduction] *)
Definition reduction_of (st : stmt) : option op :=
  match identify st None with Some (Some k) => Some k | _ => None end.

(** openmp.cpp:735-745: a thread's private copy starts at the initial value; it then runs
    its iterations on the copy. *)
Definition thread_value (st : stmt) (k : op) (init : Z) (xs : list Z) : Z := seq_loop st xs init.

(** openmp.cpp:571-596, 626-672: combining.  The runtime combines private copies pairwise
    with the reduction function, or lets threads combine their copy into the shared
    variable, in any order, until no copies are left. *)
Inductive combine {A} (f : A -> A -> A) : A -> list A -> A -> Prop :=
| CDone s : combine f s [] s
| CCommit s l ls rest s' :
    Permutation ls (l :: rest) -> combine f (f s l) rest s' -> combine f s ls s'
| CMerge s a b ls rest s' :
    Permutation ls (a :: b :: rest) -> combine f s (f a b :: rest) s' -> combine f s ls s'.

(** The loop: threads get the iterations [xss]; [s'] is a possible final value.  Without a
    reduction the thread with the last iteration stores its copy (C62). *)
Definition reduced (st : stmt) (k : op) (xss : list (list Z)) (s s' : Z) : Prop :=
  exists init, initial k = Some init /\
    combine (apply k) s (map (thread_value st k init) xss) s'.

(** ** Initial values of the other types *)

(** openmp.cpp:144-157 for [float]: [std::numeric_limits<double>::max()] is
    (2^53 - 1) * 2^971 and [std::numeric_limits<double>::min()] is 2^-1022. *)
Definition dbl_max : spec_float := S754_finite false 9007199254740991 971.
Definition dbl_min : spec_float := S754_finite false 4503599627370496 (-1074).

Definition initial_float (o : op) : option spec_float :=
  match o with
  | OAdd => Some (S754_zero false)
  | OMul => Some (S754_finite false 4503599627370496 (-52))
  | OMin => Some dbl_max
  | OMax => Some dbl_min
  | _ => None
  end.

(** builtin.codon:86-89, 128-131 on floats *)
Definition fmin (a b : spec_float) : spec_float := if SFleb a b then a else b.
Definition fmax (a b : spec_float) : spec_float := if SFleb b a then a else b.

(** openmp.cpp:180-183: for any other type, the type's default value, whatever the kind
    ([bool()] is False: bool.codon:7-8; [Int[N]()] is 0: intn.codon:30-32). *)
Definition initial_other {A} (default : A) (o : op) : option A :=
  match o with OSub | OFloorDiv => None | _ => Some default end.
