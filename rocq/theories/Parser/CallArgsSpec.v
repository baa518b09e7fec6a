(** How Python binds the arguments of a call, https://docs.python.org/3/reference/expressions.html#calls,
    extended to parameters that were given earlier when a partial application was made. It uses
    only the description of parameters from CallArgs. *)
From Coq Require Import List Bool Arith String.
From Verif.Parser Require Import CallArgs.
Import ListNotations.
Open Scope string_scope.
Open Scope nat_scope.
Open Scope list_scope.

(** how many numbers below [k] satisfy [f] *)
Definition count (f : nat -> bool) (k : nat) : nat := List.length (filter f (seq 0 k)).

(** argument [a] is positional *)
Definition isPos (args : list string) (a : nat) : bool :=
  match nth_error args a with Some s => String.eqb s "" | None => false end.
Definition keyword (args : list string) (a : nat) (name : string) : Prop :=
  nth_error args a = Some name /\ name <> "".
(** parameter [i] is written by the user, without star *)
Definition plain (ps : list param) (i : nat) (p : param) : Prop :=
  nth_error ps i = Some p /\ pstars p = 0 /\ pcapture p = false.
Definition starred (k : nat) (ps : list param) (i : nat) : Prop :=
  exists p, nth_error ps i = Some p /\ pstars p = k.
(** no starred parameter comes before parameter [i] *)
Definition before_stars (ps : list param) (i : nat) : Prop :=
  forall j p, j <= i -> nth_error ps j = Some p -> pstars p = 0.

(** Parameter [i] takes positional argument [a]: both have the same place in line. *)
Definition takes_position (ps : list param) (given : nat -> bool) (args : list string) (a i : nat) : Prop :=
  isPos args a = true /\ given i = false /\ before_stars ps i /\ (exists p, plain ps i p) /\
  count (fun j => negb (given j)) i = count (isPos args) a.
(** Parameter [i] takes the keyword argument [a] of the same name. *)
Definition takes_name (ps : list param) (given : nat -> bool) (args : list string) (a i : nat) : Prop :=
  exists p, plain ps i p /\ given i = false /\ keyword args a (pname p).

Inductive takes (ps : list param) (given : nat -> bool) (args : list string) (a i : nat) : Prop :=
  | Take_position : takes_position ps given args a i -> takes ps given args a i
  | Take_name : takes_name ps given args a i -> takes ps given args a i
  | Take_args : isPos args a = true -> (forall j, ~ takes_position ps given args a j) ->
      starred 1 ps i -> takes ps given args a i
  | Take_kwargs name : keyword args a name -> (forall j, ~ takes_name ps given args a j) ->
      starred 2 ps i -> takes ps given args a i.

(** The call is accepted: every argument is taken, no parameter takes two arguments, and every
    parameter that has no value otherwise takes one. [partial]: the call ends in `...`. *)
Record accepted (ps : list param) (given : nat -> bool) (partial : bool) (args : list string) : Prop := {
  acc_taken : forall a, a < List.length args -> exists i, takes ps given args a i;
  acc_once : forall i p a b, plain ps i p -> takes ps given args a i -> takes ps given args b i -> a = b;
  acc_needed : forall i p, partial = false -> plain ps i p -> pvalue p = true -> pdefault p = false ->
    given i = false -> exists a, takes ps given args a i
}.

(** A signature the compiler lets through (visitors/scoping/scoping.cpp:495-520), after the captured
    variables were appended (visitors/typecheck/function.cpp:304-345). *)
Record signature (ps : list param) : Prop := {
  sig_stars : forall i p, nth_error ps i = Some p -> pstars p <= 2;
  sig_one_args : forall i j, starred 1 ps i -> starred 1 ps j -> i = j;
  sig_kwargs_last : forall i, starred 2 ps i -> S i = List.length ps;
  sig_names : NoDup (map pname ps);
  sig_named : ~ In "" (map pname ps);
  sig_captures : forall i j p q, nth_error ps i = Some p -> nth_error ps j = Some q ->
    pcapture p = true -> pstars p = 0 /\ (i < j -> pcapture q = true \/ pstars q = 2)
}.
(** An argument list the compiler lets through: no keyword twice (call.cpp:334-342), and names that
    start with `$` cannot be written. *)
Record arguments (ps : list param) (args : list string) : Prop := {
  arg_once : forall a b name, keyword args a name -> keyword args b name -> a = b;
  arg_dollar : forall p, In p ps -> pcapture p = true -> ~ In (pname p) args
}.
