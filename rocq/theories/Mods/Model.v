(** Model of how imports are compiled: codon/parser/visitors/typecheck/import.cpp (lines 28-110 and
    [transformNewImport], 332-421) and the order in which bodies are type-checked
    (codon/parser/visitors/typecheck/infer.cpp:47-118, 339-553).

    The type checker walks over the statements; it remembers the modules it has met
    ([cache->imports]) with their flag [loadedAtToplevel], and the functions it has realised. A
    module is type-checked at its first import, a function at its first call. The generated code
    is again a [cmd], in which [Import m] is the call of [import_m_call] and a dropped import is
    [Skip].

    Left out: names, types, errors and exceptions, the special imports (C, Python), modules of
    the standard library (which are loaded without guard before the program). A function has one
    realisation. *)
From Coq Require Import List ZArith Bool Arith.
From Verif.Mods Require Import Spec.
Import ListNotations.

(** The state of the type checker. [flags]: modules met, with [loadedAtToplevel] (cache.h:86-100).
    [real]: functions realised or being realised (infer.cpp:446-453). [pending]: calls delayed to
    the next iteration over the top level. *)
Record tc : Type := {
  flags : list (nat * bool);
  real : list nat;
  fcode : nat -> cmd;
  mcode : nat -> cmd;
  pending : list nat }.
Definition set (t : nat -> cmd) (k : nat) (c : cmd) : nat -> cmd := fun x => if Nat.eqb x k then c else t x.
Definition flag_of (m : nat) (l : list (nat * bool)) : option bool :=
  match find (fun p => Nat.eqb (fst p) m) l with Some p => Some (snd p) | None => None end.

(** [top]: [getImport(ctx->moduleName.path)->loadedAtToplevel && ctx->isGlobal()] at this point
    (import.cpp:350-352). The third test there, [ctx->scope.size() == 1], always holds: [scope] is
    extended once, in the constructor (ctx.cpp:29), so that conditional blocks do not count. *)
Fixpoint compile (fbody mbody : nat -> cmd) (fuel : nat) (top : bool) (t : tc) (c : cmd) : option (cmd * tc) :=
  match fuel with
  | O => None
  | S fuel =>
      let go := compile fbody mbody fuel in
      match c with
      | Skip => Some (Skip, t)
      | Ev e => Some (Ev e, t)
      | Seq a b =>
          match go top t a with
          | Some (a', t) => match go top t b with Some (b', t) => Some (Seq a' b', t) | None => None end
          | None => None
          end
      | If k a b =>
          match go top t a with
          | Some (a', t) => match go top t b with Some (b', t) => Some (If k a' b', t) | None => None end
          | None => None
          end
      | Call late f =>
          if late then
            Some (Call late f, {| flags := flags t; real := real t; fcode := fcode t; mcode := mcode t; pending := pending t ++ [f] |})
          else if memb f (real t) then Some (Call late f, t)
          else
            match go false {| flags := flags t; real := f :: real t; fcode := fcode t; mcode := mcode t; pending := pending t |} (fbody f) with
            | Some (c', t) =>
                Some (Call late f, {| flags := flags t; real := real t; fcode := set (fcode t) f c'; mcode := mcode t; pending := pending t |})
            | None => None
            end
      | Import m =>
          match flag_of m (flags t) with
          | None =>
              match go top {| flags := (m, top) :: flags t; real := real t; fcode := fcode t; mcode := mcode t; pending := pending t |} (mbody m) with
              | Some (c', t) =>
                  Some (Import m, {| flags := flags t; real := real t; fcode := fcode t; mcode := set (mcode t) m c'; pending := pending t |})
              | None => None
              end
          | Some at_top => Some (if negb at_top then Import m else Skip, t)
          end
      end
  end.
(** The delayed calls (infer.cpp:51-118: the next iterations) *)
Fixpoint realize_pending (fbody mbody : nat -> cmd) (fuel : nat) (l : list nat) (t : tc) : option tc :=
  match l with
  | [] => Some t
  | f :: l => match compile fbody mbody fuel false t (Call false f) with Some (_, t) => realize_pending fbody mbody fuel l t | None => None end
  end.
(** The whole program *)
Definition fresh : tc := {| flags := []; real := []; fcode := fun _ => Skip; mcode := fun _ => Skip; pending := [] |}.
Definition compile_program (fbody mbody : nat -> cmd) (fuel : nat) (main : cmd) : option (cmd * tc) :=
  match compile fbody mbody fuel true fresh main with
  | Some (c, t) => match realize_pending fbody mbody fuel (pending t) t with Some t => Some (c, t) | None => None end
  | None => None
  end.

(** The generated code. [Import m]: [if import_m.loaded: return], [_set_loaded], then the body
    (import.cpp:402-411). *)
Fixpoint exec (t : tc) (env : nat -> list event -> bool) (fuel : nat) (s : state) (c : cmd) : option state :=
  match fuel with
  | O => None
  | S fuel =>
      match c with
      | Skip => Some s
      | Ev e => Some {| loaded := loaded s; trace := trace s ++ [Seen e] |}
      | Seq a b => match exec t env fuel s a with Some s => exec t env fuel s b | None => None end
      | If k a b => exec t env fuel s (if env k (trace s) then a else b)
      | Call _ f => exec t env fuel s (fcode t f)
      | Import m =>
          if memb m (loaded s) then Some s
          else exec t env fuel {| loaded := m :: loaded s; trace := trace s ++ [Started m] |} (mcode t m)
      end
  end.
