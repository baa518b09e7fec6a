(** Programs with modules and functions, and what importing means in Python: the body of a module
    runs at its first import, when the import is reached, and never again. *)
From Coq Require Import List ZArith Bool Arith.
Import ListNotations.

(** [Call late f]: [late] marks a call whose argument types are known only from later statements;
    it makes no difference to the meaning. The condition [k] of an [If] is
    decided by [env] from what has happened so far. *)
Inductive cmd : Type :=
| Skip | Ev (e : Z) | Seq (a b : cmd) | If (k : nat) (a b : cmd) | Call (late : bool) (f : nat) | Import (m : nat).

(** What happens: a module body starts, or something is printed. *)
Inductive event : Type := Started (m : nat) | Seen (e : Z).
Record state : Type := { loaded : list nat; trace : list event }.
Definition memb (x : nat) (l : list nat) : bool := existsb (Nat.eqb x) l.

(** [fbody f] and [mbody m] are the bodies of function [f] and of module [m]; [None] if the fuel
    does not suffice. *)
Fixpoint run (fbody mbody : nat -> cmd) (env : nat -> list event -> bool) (fuel : nat) (s : state) (c : cmd) : option state :=
  match fuel with
  | O => None
  | S fuel =>
      let go := run fbody mbody env fuel in
      match c with
      | Skip => Some s
      | Ev e => Some {| loaded := loaded s; trace := trace s ++ [Seen e] |}
      | Seq a b => match go s a with Some s => go s b | None => None end
      | If k a b => go s (if env k (trace s) then a else b)
      | Call _ f => go s (fbody f)
      | Import m =>
          if memb m (loaded s) then Some s
          else go {| loaded := m :: loaded s; trace := trace s ++ [Started m] |} (mbody m)
      end
  end.
Definition start : state := {| loaded := []; trace := [] |}.

(** No import under a condition. *)
Fixpoint no_import (c : cmd) : Prop :=
  match c with Import _ => False | Seq a b | If _ a b => no_import a /\ no_import b | _ => True end.
Fixpoint imports_flat (c : cmd) : Prop :=
  match c with If _ a b => no_import a /\ no_import b | Seq a b => imports_flat a /\ imports_flat b | _ => True end.
Fixpoint no_late (c : cmd) : Prop :=
  match c with Call late _ => late = false | Seq a b | If _ a b => no_late a /\ no_late b | _ => True end.
Definition started (t : list event) : list nat := flat_map (fun e => match e with Started m => [m] | Seen _ => [] end) t.
(** Only modules and functions numbered below [n] are named. *)
Fixpoint names_below (n : nat) (c : cmd) : Prop :=
  match c with Import m => m < n | Call _ f => f < n | Seq a b | If _ a b => names_below n a /\ names_below n b | _ => True end.
