(** Functions made of assignments, conditions and loops, and what Python does
    with their variables: the specification C55 is stated against.  Nothing here
    refers to the compiler. *)
From Coq Require Import List Bool Arith.
Import ListNotations.

Section Source.
  (** [V]: values; [truth]: their truth value; [elems]: what iterating over one
      yields. *)
  Context {V : Type} (truth : V -> bool) (elems : V -> list V).

  (** Names are numbers.  Nodes and blocks of the syntax tree carry numbers
      too, which stand for the identity of the tree's objects and mean nothing:
      [r] numbers an occurrence of a variable, [b] an assignment to one, [k] a
      part that may not be executed (branch, loop, right operand). *)
  Inductive expr : Type :=
  | EConst (v : V)
  | EVar (r x : nat)
  | EOp (f : V -> V -> V) (e1 e2 : expr)
  | EWalrus (b x : nat) (e : expr)                       (* (x := e) *)
  | EAnd (e1 : expr) (k : nat) (e2 : expr)
  | EOr (e1 : expr) (k : nat) (e2 : expr)
  | EIf (c : expr) (k1 : nat) (e1 : expr) (k2 : nat) (e2 : expr).

  Inductive stmt : Type :=
  | SSkip
  | SPrint (e : expr)
  | SAssign (b x : nat) (e : expr)
  | SSeq (s1 s2 : stmt)
  | SIf (c : expr) (k1 : nat) (s1 : stmt) (k2 : nat) (s2 : stmt)
  | SWhile (c : expr) (k : nat) (s : stmt)
  | SFor (b x : nat) (e : expr) (k : nat) (s : stmt)
  | SBreak
  | SContinue
  | SReturn (e : expr).

  (** Evaluation of an expression: a value and what becomes of the variables, a
      NameError, or a value read from storage nothing was stored in (which
      Python never does). *)
  Inductive res (A : Type) : Type :=
  | Val (a : A)
  | Undef (x : nat)
  | Garbage.
  Arguments Val {A}. Arguments Undef {A}. Arguments Garbage {A}.

  (** How a statement ends. *)
  Inductive ending (A : Type) : Type :=
  | Fin (a : A)
  | Brk (a : A)
  | Cnt (a : A)
  | Ret (v : V)
  | NameError (x : nat)
  | Undefined           (* storage nothing was stored in was read *)
  | Out.                (* the allowed number of steps is used up *)
  Arguments Fin {A}. Arguments Brk {A}. Arguments Cnt {A}. Arguments Ret {A}.
  Arguments NameError {A}. Arguments Undefined {A}. Arguments Out {A}.

  Definition env : Type := nat -> option V.
  Definition env0 : env := fun _ => None.
  Definition put (x : nat) (v : V) (m : env) : env :=
    fun y => if Nat.eqb y x then Some v else m y.

  Definition bind {A B} (r : res A) (f : A -> res B) : res B :=
    match r with Val a => f a | Undef x => Undef x | Garbage => Garbage end.

  Fixpoint peval (e : expr) (m : env) : res (V * env) :=
    match e with
    | EConst v => Val (v, m)
    | EVar _ x => match m x with Some v => Val (v, m) | None => Undef x end
    | EOp f a b =>
        bind (peval a m) (fun '(va, m1) =>
        bind (peval b m1) (fun '(vb, m2) => Val (f va vb, m2)))
    | EWalrus _ x a => bind (peval a m) (fun '(v, m1) => Val (v, put x v m1))
    | EAnd a _ b =>
        bind (peval a m) (fun '(v, m1) => if truth v then peval b m1 else Val (v, m1))
    | EOr a _ b =>
        bind (peval a m) (fun '(v, m1) => if truth v then Val (v, m1) else peval b m1)
    | EIf c _ a _ b =>
        bind (peval c m) (fun '(v, m1) => if truth v then peval a m1 else peval b m1)
    end.

  (** Output so far and ending; [after o r]: first [o] is printed. *)
  Definition after {A} (o : list V) (r : list V * ending A) : list V * ending A :=
    (o ++ fst r, snd r).
  Definition with_val {A B} (r : res A) (f : A -> list V * ending B) : list V * ending B :=
    match r with
    | Val a => f a
    | Undef x => ([], NameError x)
    | Garbage => ([], Undefined)
    end.

  (** What a loop does with the ending of its body. *)
  Definition next {A} (r : list V * ending A) (again : A -> list V * ending A)
    : list V * ending A :=
    match r with
    | (o, Fin m) | (o, Cnt m) => after o (again m)
    | (o, Brk m) => (o, Fin m)
    | r => r
    end.

  Section Each.
    Context {A : Type} (body : V -> A -> list V * ending A).
    Fixpoint each (vs : list V) (m : A) : list V * ending A :=
      match vs with
      | [] => ([], Fin m)
      | v :: vs => next (body v m) (each vs)
      end.
  End Each.

  Fixpoint pexec (n : nat) (s : stmt) (m : env) : list V * ending env :=
    match n with
    | 0 => ([], Out)
    | S n =>
        match s with
        | SSkip => ([], Fin m)
        | SPrint e => with_val (peval e m) (fun '(v, m1) => ([v], Fin m1))
        | SAssign _ x e => with_val (peval e m) (fun '(v, m1) => ([], Fin (put x v m1)))
        | SSeq a b =>
            match pexec n a m with
            | (o, Fin m1) => after o (pexec n b m1)
            | r => r
            end
        | SIf c _ a _ b =>
            with_val (peval c m) (fun '(v, m1) =>
              if truth v then pexec n a m1 else pexec n b m1)
        | SWhile c k a =>
            with_val (peval c m) (fun '(v, m1) =>
              if truth v then next (pexec n a m1) (pexec n (SWhile c k a))
              else ([], Fin m1))
        | SFor _ x e _ a =>
            with_val (peval e m) (fun '(v, m1) =>
              each (fun v m => pexec n a (put x v m)) (elems v) m1)
        | SBreak => ([], Brk m)
        | SContinue => ([], Cnt m)
        | SReturn e => with_val (peval e m) (fun '(v, _) => ([], Ret v))
        end
    end.

  (** What can be seen of a run: the values printed and how it ended. *)
  Definition seen {A} (r : list V * ending A) : list V * ending unit :=
    (fst r, match snd r with
            | Fin _ => Fin tt
            | Brk _ => Brk tt
            | Cnt _ => Cnt tt
            | Ret v => Ret v
            | NameError x => NameError x
            | Undefined => Undefined
            | Out => Out
            end).

  Definition python (n : nat) (p : stmt) : list V * ending unit := seen (pexec n p env0).

  (** ** The functions the theorems cover *)

  (** The names assigned to. *)
  Fixpoint bound_e (e : expr) : list nat :=
    match e with
    | EConst _ | EVar _ _ => []
    | EOp _ a b => bound_e a ++ bound_e b
    | EWalrus _ x a => bound_e a ++ [x]
    | EAnd a _ b | EOr a _ b => bound_e a ++ bound_e b
    | EIf c _ a _ b => bound_e c ++ bound_e a ++ bound_e b
    end.
  Fixpoint bound (s : stmt) : list nat :=
    match s with
    | SSkip | SBreak | SContinue => []
    | SPrint e | SReturn e => bound_e e
    | SAssign _ x e => bound_e e ++ [x]
    | SSeq a b => bound a ++ bound b
    | SIf c _ a _ b => bound_e c ++ bound a ++ bound b
    | SWhile c _ a => bound_e c ++ bound a
    | SFor _ x e _ a => bound_e e ++ x :: bound a
    end.
  Definition not_in (x : nat) (l : list nat) : bool := negb (existsb (Nat.eqb x) l).

  (** No walrus at all; none in an operand that may not be evaluated; none in
      such an operand of such an operand. *)
  Fixpoint no_walrus (e : expr) : bool :=
    match e with
    | EConst _ | EVar _ _ => true
    | EOp _ a b => no_walrus a && no_walrus b
    | EWalrus _ _ _ => false
    | EAnd a _ b | EOr a _ b => no_walrus a && no_walrus b
    | EIf c _ a _ b => no_walrus c && no_walrus a && no_walrus b
    end.

  Fixpoint flat_walrus (e : expr) : bool :=
    match e with
    | EConst _ | EVar _ _ => true
    | EOp _ a b => flat_walrus a && flat_walrus b
    | EWalrus _ x a => flat_walrus a && not_in x (bound_e a)
    | EAnd a _ b | EOr a _ b => flat_walrus a && no_walrus b
    | EIf c _ a _ b => flat_walrus c && no_walrus a && no_walrus b
    end.

  Fixpoint cond_walrus (e : expr) : bool :=
    match e with
    | EConst _ | EVar _ _ => true
    | EOp _ a b => cond_walrus a && cond_walrus b
    | EWalrus _ x a => cond_walrus a && not_in x (bound_e a)
    | EAnd a _ b | EOr a _ b => cond_walrus a && flat_walrus b
    | EIf c _ a _ b => cond_walrus c && flat_walrus a && flat_walrus b
    end.

  (** The walruses of a function are in no operand of an operand that may not be
      evaluated, in no such operand of a while condition, and in no right-hand
      side of an assignment to the same name. *)
  Fixpoint covered (s : stmt) : bool :=
    match s with
    | SSkip | SBreak | SContinue => true
    | SPrint e | SReturn e => cond_walrus e
    | SAssign _ x e => cond_walrus e && not_in x (bound_e e)
    | SSeq a b => covered a && covered b
    | SIf c _ a _ b => cond_walrus c && covered a && covered b
    | SWhile c _ a => flat_walrus c && covered a
    | SFor _ _ e _ a => cond_walrus e && covered a
    end.

  (** Every name assigned to in a loop is also assigned to somewhere in the text
      before that loop.  [before]: the names assigned to so far. *)
  Fixpoint loops_after (before : list nat) (s : stmt) : Prop :=
    match s with
    | SSeq a b => loops_after before a /\ loops_after (bound a ++ before) b
    | SIf c _ a _ b =>
        loops_after (bound_e c ++ before) a /\
        loops_after (bound a ++ bound_e c ++ before) b
    | SWhile c _ a => incl (bound_e c ++ bound a) before
    | SFor _ x e _ a => incl (x :: bound a) (bound_e e ++ before)
    | _ => True
    end.

  (** Every name read is assigned to somewhere in the text before. *)
  Fixpoint named_e (before : list nat) (e : expr) : Prop :=
    match e with
    | EConst _ => True
    | EVar _ x => In x before
    | EOp _ a b | EAnd a _ b | EOr a _ b =>
        named_e before a /\ named_e (bound_e a ++ before) b
    | EWalrus _ _ a => named_e before a
    | EIf c _ a _ b =>
        named_e before c /\ named_e (bound_e c ++ before) a /\
        named_e (bound_e a ++ bound_e c ++ before) b
    end.
  Fixpoint named (before : list nat) (s : stmt) : Prop :=
    match s with
    | SSkip | SBreak | SContinue => True
    | SPrint e | SReturn e | SAssign _ _ e => named_e before e
    | SSeq a b => named before a /\ named (bound a ++ before) b
    | SIf c _ a _ b =>
        named_e before c /\ named (bound_e c ++ before) a /\
        named (bound a ++ bound_e c ++ before) b
    | SWhile c _ a => named_e before c /\ named (bound_e c ++ before) a
    | SFor _ x e _ a => named_e before e /\ named (x :: bound_e e ++ before) a
    end.

  (** The numbers of the parts, of the assignments and of the reads: distinct
      objects have distinct numbers. *)
  Fixpoint parts_e (e : expr) : list nat :=
    match e with
    | EConst _ | EVar _ _ => []
    | EOp _ a b => parts_e a ++ parts_e b
    | EWalrus _ _ a => parts_e a
    | EAnd a k b | EOr a k b => parts_e a ++ k :: parts_e b
    | EIf c k1 a k2 b => parts_e c ++ k1 :: parts_e a ++ k2 :: parts_e b
    end.
  Fixpoint parts (s : stmt) : list nat :=
    match s with
    | SSkip | SBreak | SContinue => []
    | SPrint e | SAssign _ _ e | SReturn e => parts_e e
    | SSeq a b => parts a ++ parts b
    | SIf c k1 a k2 b => parts_e c ++ k1 :: parts a ++ k2 :: parts b
    | SWhile c k a => k :: parts_e c ++ parts a
    | SFor _ _ e k a => parts_e e ++ k :: parts a
    end.
  Fixpoint nodes_e (e : expr) : list nat :=
    match e with
    | EConst _ => []
    | EVar r _ => [r]
    | EOp _ a b => nodes_e a ++ nodes_e b
    | EWalrus b _ a => nodes_e a ++ [b]
    | EAnd a _ b | EOr a _ b => nodes_e a ++ nodes_e b
    | EIf c _ a _ b => nodes_e c ++ nodes_e a ++ nodes_e b
    end.
  Fixpoint nodes (s : stmt) : list nat :=
    match s with
    | SSkip | SBreak | SContinue => []
    | SPrint e | SReturn e => nodes_e e
    | SAssign b _ e => nodes_e e ++ [b]
    | SSeq a b => nodes a ++ nodes b
    | SIf c _ a _ b => nodes_e c ++ nodes a ++ nodes b
    | SWhile c _ a => nodes_e c ++ nodes a
    | SFor b _ e _ a => nodes_e e ++ b :: nodes a
    end.
  (** 0 is the function's own body *)
  Definition well_numbered (p : stmt) : Prop :=
    NoDup (0 :: parts p) /\ NoDup (nodes p).
End Source.

Arguments expr : clear implicits.
Arguments stmt : clear implicits.
Arguments Val {A}. Arguments Undef {A}. Arguments Garbage {A}.
Arguments Fin {V A}. Arguments Brk {V A}. Arguments Cnt {V A}. Arguments Ret {V A}.
Arguments NameError {V A}. Arguments Undefined {V A}. Arguments Out {V A}.
