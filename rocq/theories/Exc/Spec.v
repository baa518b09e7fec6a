(** What Python says a function built from try statements, loops and returns
    does: the specification C54 is stated against.  Nothing here refers to the
    compiler. *)
From Coq Require Import List Bool Arith.
Import ListNotations.

Section Source.
  (** [S]: the program's data; [V]: returned values; [X]: exceptions. *)
  Context {S V X : Type}.

  (** A statement.  [Act] is any computation that either finishes or raises
      (calls, assignments, [raise]).  Conditions do not raise: a condition that
      can raise is an [Act] storing its value, followed by the test.
      The handler's [X -> S -> S] is the binding of [except T as e]; a bare
      [raise] is an [Act] that raises what the binding stored.  [Skip] as
      [finally] block is an absent [finally], as else block an absent
      [else]. *)
  Inductive stmt : Type :=
  | Skip
  | Act (a : S -> S + X * S)
  | Seq (s1 s2 : stmt)
  | If (c : S -> bool) (s1 s2 : stmt)
  | While (c : S -> bool) (s : stmt)
  | Break
  | Continue
  | Return (v : S -> V)
  | Try (body : stmt) (hs : handlers) (els fin : stmt)
  with handlers : Type :=
  | HNil
  | HCons (t : option nat) (b : X -> S -> S) (h : stmt) (rest : handlers).

  (** How a statement ends. *)
  Inductive outcome : Type :=
  | ONorm (s : S)
  | OBrk (s : S)
  | OCont (s : S)
  | ORet (v : V) (s : S)
  | OExn (e : X) (s : S).

  Definition data_of (o : outcome) : S :=
    match o with
    | ONorm s => s | OBrk s => s | OCont s => s | ORet _ s => s | OExn _ s => s
    end.

  (** The same ending with other data: what a pending outcome becomes after a
      [finally] block finished normally. *)
  Definition with_data (o : outcome) (s : S) : outcome :=
    match o with
    | ONorm _ => ONorm s
    | OBrk _ => OBrk s
    | OCont _ => OCont s
    | ORet v _ => ORet v s
    | OExn e _ => OExn e s
    end.

  Definition is_norm (o : outcome) : bool :=
    match o with ONorm _ => true | _ => false end.

  (** [except T] catches instances of [T]; a bare [except] catches all. *)
  Context (isinst : X -> nat -> bool).

  Definition catches (e : X) (t : option nat) : bool :=
    match t with None => true | Some k => isinst e k end.

  (** The first clause that catches. *)
  Fixpoint find_handler (hs : handlers) (e : X) : option ((X -> S -> S) * stmt) :=
    match hs with
    | HNil => None
    | HCons t b h rest => if catches e t then Some (b, h) else find_handler rest e
    end.

  Inductive exec : stmt -> S -> outcome -> Prop :=
  | X_Skip s : exec Skip s (ONorm s)
  | X_Act a s s' : a s = inl s' -> exec (Act a) s (ONorm s')
  | X_Raise a s e s' : a s = inr (e, s') -> exec (Act a) s (OExn e s')
  | X_Seq a b s s' o :
      exec a s (ONorm s') -> exec b s' o -> exec (Seq a b) s o
  | X_SeqAbrupt a b s o :
      exec a s o -> is_norm o = false -> exec (Seq a b) s o
  | X_If (c : S -> bool) a b s o : exec (if c s then a else b) s o -> exec (If c a b) s o
  | X_WhileEnd c a s : c s = false -> exec (While c a) s (ONorm s)
  | X_WhileNext c a s s' o :
      c s = true -> exec a s (ONorm s') -> exec (While c a) s' o -> exec (While c a) s o
  | X_WhileContinue c a s s' o :
      c s = true -> exec a s (OCont s') -> exec (While c a) s' o -> exec (While c a) s o
  | X_WhileBreak c a s s' :
      c s = true -> exec a s (OBrk s') -> exec (While c a) s (ONorm s')
  | X_WhileRet c a s v s' :
      c s = true -> exec a s (ORet v s') -> exec (While c a) s (ORet v s')
  | X_WhileExn c a s e s' :
      c s = true -> exec a s (OExn e s') -> exec (While c a) s (OExn e s')
  | X_Break s : exec Break s (OBrk s)
  | X_Continue s : exec Continue s (OCont s)
  | X_Return v s : exec (Return v) s (ORet (v s) s)
  (** whatever the protected part ends with is pending while [finally] runs,
      and is resumed if that finishes normally *)
  | X_Try body hs els fin s o s' :
      exec_protected body hs els s o ->
      exec fin (data_of o) (ONorm s') ->
      exec (Try body hs els fin) s (with_data o s')
  (** any other ending of [finally] replaces what was pending *)
  | X_TryFin body hs els fin s o o' :
      exec_protected body hs els s o ->
      exec fin (data_of o) o' -> is_norm o' = false ->
      exec (Try body hs els fin) s o'
  with exec_protected : stmt -> handlers -> stmt -> S -> outcome -> Prop :=
  | P_Else body hs els s s' o :
      exec body s (ONorm s') -> exec els s' o -> exec_protected body hs els s o
  | P_Caught body hs els s e s' b h o :
      exec body s (OExn e s') -> find_handler hs e = Some (b, h) ->
      exec h (b e s') o -> exec_protected body hs els s o
  | P_Uncaught body hs els s e s' :
      exec body s (OExn e s') -> find_handler hs e = None ->
      exec_protected body hs els s (OExn e s')
  | P_Brk body hs els s s' :
      exec body s (OBrk s') -> exec_protected body hs els s (OBrk s')
  | P_Cont body hs els s s' :
      exec body s (OCont s') -> exec_protected body hs els s (OCont s')
  | P_Ret body hs els s v s' :
      exec body s (ORet v s') -> exec_protected body hs els s (ORet v s').

  (** ** The statements the positive theorem covers

      [region]: where a statement stands.
      - [InBody]: ordinary code.  This includes the body of a try, the handlers
        and else block of a try without [finally], and the [finally] block of
        an outermost try (one that is not in the body of another);
      - [InGuard r]: a handler or else block of a try that has a [finally];
        [r] says that this try is outermost;
      - [InFinally]: the [finally] block of a try that is not outermost.

      The theorem covers functions in which
      - the [finally] block of a try inside the body of another contains no try
        statement and no return, and leaves no loop around it by break or
        continue;
      - a handler or else block of a try with [finally] contains no try
        statement and no return, and does not raise unless that try is
        outermost.
      What happens to the others is the subject of the [_refuted] theorems. *)
  Inductive region : Type := InBody | InGuard (outermost : bool) | InFinally.

  Definition has_finally (fin : stmt) : bool :=
    match fin with Skip => false | _ => true end.

  (** [outer]: no try body around; [lp]: break and continue have a target. *)
  Fixpoint covered (k : region) (outer lp : bool) (s : stmt) : Prop :=
    match s with
    | Skip => True
    | Act a => match k with
               | InGuard false => forall d, exists d', a d = inl d'
               | _ => True
               end
    | Seq a b => covered k outer lp a /\ covered k outer lp b
    | If _ a b => covered k outer lp a /\ covered k outer lp b
    | While _ a => covered k outer true a
    | Break | Continue => lp = true
    | Return _ => k = InBody
    | Try body hs els fin =>
        k = InBody
        /\ covered InBody false lp body
        /\ covered_handlers (if has_finally fin then InGuard outer else InBody)
             outer lp hs
        /\ covered (if has_finally fin then InGuard outer else InBody) outer lp els
        /\ covered (if outer then InBody else InFinally) outer (outer && lp) fin
    end
  with covered_handlers (k : region) (outer lp : bool) (hs : handlers) : Prop :=
    match hs with
    | HNil => True
    | HCons _ _ h rest => covered k outer lp h /\ covered_handlers k outer lp rest
    end.
End Source.

Arguments stmt : clear implicits.
Arguments handlers : clear implicits.
Arguments outcome : clear implicits.
