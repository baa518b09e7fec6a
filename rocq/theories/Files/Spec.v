(** The lines of a text: each ends with a newline (byte 10), except perhaps what follows the last
    newline. *)
From Coq Require Import List ZArith.
Import ListNotations.
Local Open Scope Z_scope.

(** [splits text lines tail]: the complete lines of [text], and what follows the last newline. *)
Inductive splits : list Z -> list (list Z) -> list Z -> Prop :=
| s_tail t : ~ In 10 t -> splits t [] t
| s_line l r ls t : ~ In 10 l -> splits r ls t -> splits (l ++ 10 :: r) ((l ++ [10]) :: ls) t.

(** All lines; the tail counts as a line unless it is empty. *)
Definition all_lines (ls : list (list Z)) (t : list Z) : list (list Z) := match t with [] => ls | _ => ls ++ [t] end.
(** A line without its newline. *)
Definition without_newline (l : list Z) : list Z := if Z.eqb (last l 0) 10 then removelast l else l.
