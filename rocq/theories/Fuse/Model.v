(** Model of the passes [StrAdditionOptimization] (codon/cir/transform/pythonic/str.cpp) and [IOCatOptimization]
    (codon/cir/transform/pythonic/io.cpp). A pass visits the calls of a program in some order and may replace each;
    here any call may be replaced at any time, in any order. [flush] is left out; the arguments of [print] are
    strings, since the pass looks at no others. *)
From Coq Require Import List ZArith Bool.
From Verif.Common Require Import Result.
From Verif.Fuse Require Import Spec.
Import ListNotations.

(** [inspect] (str.cpp:25-41): it looks at the name of the function only. All expressions here are strings. *)
Fixpoint inspect (v : sexp) : list sexp :=
  match v with Add f a b => inspect a ++ inspect b | _ => [v] end.
(** [StrAdditionOptimization::handle] (str.cpp:46-70) *)
Definition handle_add (v : sexp) : option sexp :=
  match v with
  | Add _ _ _ => let args := inspect v in if Nat.ltb 2 (length args) then Some (Cat args) else None
  | _ => None
  end.
(** [optimizePrint] (io.cpp:15-55): the tuple given to [str.cat] becomes the arguments of [print], and the
    separator the empty string *)
Definition handle_print (s : stmt) : option stmt :=
  match s with
  | Print [Cat args] sep fin file => Some (Print args (Lit []) fin file)
  | Print [CatItems n] sep fin file => Some (PrintItems n (Lit []) fin file)
  | _ => None
  end.
(** [optimizeWrite] (io.cpp:57-87); [__file_write_gen__] (stdlib/internal/file.codon:49-51) writes the text of each
    element of the tuple *)
Definition handle_write (s : stmt) : option stmt :=
  match s with
  | Write file (Cat args) => Some (WriteEach file args)
  | Write file (CatItems n) => Some (WriteItems file n)
  | _ => None
  end.
(** The beginning of [optimizeWrite] for a call with any arguments (io.cpp:60-63): it reads the first two, whether
    or not there are two. *)
Definition write_arguments {A} (args : list A) : res (A * A) :=
  match args with file :: x :: _ => Ok (file, x) | _ => Undef end.

(** Replacing one call inside an expression *)
Inductive step_expr : sexp -> sexp -> Prop :=
| step_here v v' : handle_add v = Some v' -> step_expr v v'
| step_left f a a' b : step_expr a a' -> step_expr (Add f a b) (Add f a' b)
| step_right f a b b' : step_expr b b' -> step_expr (Add f a b) (Add f a b')
| step_cat before e e' after : step_expr e e' -> step_expr (Cat (before ++ e :: after)) (Cat (before ++ e' :: after)).
(** and inside a statement *)
Inductive step_stmt : stmt -> stmt -> Prop :=
| step_print s s' : handle_print s = Some s' -> step_stmt s s'
| step_write s s' : handle_write s = Some s' -> step_stmt s s'
| step_print_arg before e e' after sep fin file : step_expr e e' ->
    step_stmt (Print (before ++ e :: after) sep fin file) (Print (before ++ e' :: after) sep fin file)
| step_print_sep args e e' fin file : step_expr e e' -> step_stmt (Print args e fin file) (Print args e' fin file)
| step_print_end args sep e e' file : step_expr e e' -> step_stmt (Print args sep e file) (Print args sep e' file)
| step_write_arg file e e' : step_expr e e' -> step_stmt (Write file e) (Write file e')
| step_each_arg file before e e' after : step_expr e e' ->
    step_stmt (WriteEach file (before ++ e :: after)) (WriteEach file (before ++ e' :: after))
| step_bind n e e' : step_expr e e' -> step_stmt (Bind n e) (Bind n e').
(** One step, any number of steps of the passes on a program *)
Inductive step : list stmt -> list stmt -> Prop :=
| step_at before s s' after : step_stmt s s' -> step (before ++ s :: after) (before ++ s' :: after).
Inductive steps : list stmt -> list stmt -> Prop :=
| steps_none p : steps p p
| steps_more p q r : step p q -> steps q r -> steps p r.
