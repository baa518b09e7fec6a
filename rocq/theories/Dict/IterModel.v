(** Loops over a dict that assign to it, and the rewriting of [d[k] = d.get(k, c) op x]. *)
From Coq Require Import List ZArith Bool.
From Verif.Common Require Import Result Arr.
From Verif.Dict Require Import Model.
Import ListNotations.
Local Open Scope Z_scope.
Local Open Scope res_scope.

Section Iter.
Context {K V : Type} (eqb : K -> K -> bool) (hash : K -> Z).
Notation tbl := (tbl K V).

(** dict.codon:228-236: [for k, v in d.items(): d[k] = f(k, v)]; the items visited and the
    dict left. [items] looks at the bucket it stands on in the current table, so the table
    the body leaves is the one the iteration goes on with. *)
Fixpoint assign_loop (fuel : nat) (f : K -> V -> V) (t : tbl) (i : Z) : res (list (K * V) * tbl) :=
  match fuel with
  | O => NoFuel
  | S fuel =>
      if i <? nb t then
        e <- iseither (flags t) i ;;
        if e =? 0 then
          k <- rd (keys t) i ;; v <- rd (vals t) i ;;
          t <- setitem eqb hash t k (f k v) ;;
          '(vis, t) <- assign_loop fuel f t (i + 1) ;; Ok ((k, v) :: vis, t)
        else assign_loop fuel f t (i + 1)
      else Ok ([], t)
  end.

(** ** codon/cir/transform/pythonic/dict.cpp *)

(** How the statement [d[k] = op(get, second)] reads the dict: [d[k]] or [d.get(k, dflt)],
    the default being an IR constant or not (a variable, say). *)
Inductive getter := GItem | GConst (c : V) | GExpr (c : V).
(** The IR call it is rewritten to. *)
Inductive target := TThrows | TOp (dflt : V).

(** dict.cpp:32-64 [analyzeGet] and 115-127: [cast<Const>] of a non-constant default is null,
    and a null default selects [__dict_do_op_throws__] *)
Definition rewrite_get (g : getter) : target :=
  match g with
  | GItem => TThrows
  | GConst c => TOp c
  | GExpr _ => TThrows
  end.

Context {X : Type}.
(** [second d] runs the second operand, which may change the dict; [op v x] the operator.
    The outcome is the dict left and the exception, if any. *)
Context (second : tbl -> res (tbl * X)) (op : V -> X -> res V).

Definition outcome := (tbl * option exn)%type.
Definition raising (t : tbl) (m : res outcome) : res outcome :=
  match m with Raise e => Ok (t, Some e) | m => m end.

(** the statement as written: read, run the second operand, apply, store *)
Definition run_source (t : tbl) (k : K) (g : getter) : res outcome :=
  raising t
  (v <- match g with
        | GItem => getitem eqb hash t k
        | GConst c | GExpr c => o <- get eqb hash t k ;; Ok (match o with Some v => v | None => c end)
        end ;;
   '(t1, x) <- second t ;;
   raising t1 (w <- op v x ;; t2 <- setitem eqb hash t1 k w ;; Ok (t2, None))).

(** the statement as rewritten: the second operand is an argument, so it runs first *)
Definition run_rewritten (t : tbl) (k : K) (g : getter) : res outcome :=
  raising t
  ('(t1, x) <- second t ;;
   match rewrite_get g with
   | TThrows => raising t1 (t2 <- do_op_throws eqb hash t1 k (fun v => op v x) ;; Ok (t2, None))
   | TOp c => do_op eqb hash t1 k c (fun v => op v x)
   end).
End Iter.
