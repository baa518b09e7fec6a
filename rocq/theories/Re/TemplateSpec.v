(** Replacement templates of regular expressions, as in Python. Bytes are numbers; 92 is the
    backslash. *)
From Coq Require Import List ZArith Bool.
From Verif.Common Require Import Result.
Import ListNotations.
Local Open Scope Z_scope.
Local Open Scope res_scope.

(** A reference to a group, by number or by name *)
Inductive ref : Type := Num (k : Z) | Name (name : list Z).
(** A template is a sequence of bytes and references. *)
Inductive tok : Type := Lit (c : Z) | Ref (r : ref).

Definition octal (c : Z) : bool := (48 <=? c) && (c <=? 55).
Definition digit (c : Z) : bool := (48 <=? c) && (c <=? 57).
Definition letter (c : Z) : bool := ((65 <=? c) && (c <=? 90)) || ((97 <=? c) && (c <=? 122)).
Definition word (c : Z) : bool := letter c || digit c || (c =? 95).
Definition value (base : Z) (ds : list Z) : Z := fold_left (fun v d => v * base + (d - 48)) ds 0.
(** The first byte of a text has a property. *)
Definition starts (f : Z -> bool) (l : list Z) : bool := match l with c :: _ => f c | [] => false end.
(** backslash followed by a b f n r t v, and the backslash itself *)
Definition escapes : list (Z * Z) := [(97, 7); (98, 8); (102, 12); (110, 10); (114, 13); (116, 9); (118, 11); (92, 92)].

(** [template false text ts]: Python reads [text] as [ts]. With [strict], two things are left
    out: an octal number of three digits followed by a fourth, and a backslash before a quote. *)
Inductive template (strict : bool) : list Z -> list tok -> Prop :=
| t_end : template strict [] []
| t_char c r ts : c <> 92 -> template strict r ts -> template strict (c :: r) (Lit c :: ts)
| t_escape c v r ts : In (c, v) escapes -> template strict r ts -> template strict (92 :: c :: r) (Lit v :: ts)
| t_zero ds r ts : forallb octal ds = true -> (length ds <= 2)%nat -> ((length ds < 2)%nat -> starts octal r = false) ->
    (strict = true -> starts octal r = false) ->
    template strict r ts -> template strict (92 :: 48 :: ds ++ r) (Lit (value 8 ds) :: ts)
| t_octal a b c r ts : a <> 48 -> octal a = true -> octal b = true -> octal c = true -> value 8 [a; b; c] < 256 ->
    (strict = true -> starts octal r = false) ->
    template strict r ts -> template strict (92 :: a :: b :: c :: r) (Lit (value 8 [a; b; c]) :: ts)
| t_group a r ts : a <> 48 -> digit a = true -> starts digit r = false ->
    template strict r ts -> template strict (92 :: a :: r) (Ref (Num (a - 48)) :: ts)
| t_group2 a b r ts : a <> 48 -> digit a = true -> digit b = true -> octal a && octal b && starts octal r = false ->
    template strict r ts -> template strict (92 :: a :: b :: r) (Ref (Num (value 10 [a; b])) :: ts)
| t_number ds r ts : ds <> [] -> forallb digit ds = true ->
    template strict r ts -> template strict (92 :: 103 :: 60 :: ds ++ 62 :: r) (Ref (Num (value 10 ds)) :: ts)
| t_name name r ts : name <> [] -> forallb word name = true -> starts digit name = false ->
    template strict r ts -> template strict (92 :: 103 :: 60 :: name ++ 62 :: r) (Ref (Name name) :: ts)
| t_other c r ts : letter c = false -> digit c = false -> c <> 92 -> (strict = true -> c <> 34 /\ c <> 39) ->
    template strict r ts -> template strict (92 :: c :: r) (Lit 92 :: Lit c :: ts).

(** What it expands to; [group r] is the text of a group, [None] if it took no part. *)
Fixpoint expansion (group : ref -> res (option (list Z))) (ts : list tok) : res (list Z) :=
  match ts with
  | [] => Ok []
  | Lit c :: ts => l <- expansion group ts ;; Ok (c :: l)
  | Ref r :: ts => g <- group r ;; l <- expansion group ts ;; Ok (match g with Some x => x | None => [] end ++ l)
  end.
