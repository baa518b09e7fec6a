(** The successive matches of a pattern in a text, as in Python, and what splitting and replacing
    at matches mean.

    A pattern on a given text of [n] bytes is described by two functions: [at_ s] is the end of
    the match that the engine prefers among those starting at [s], and [ne s] the end of the one
    preferred among those that are not empty. *)
From Coq Require Import List ZArith.
Import ListNotations.
Local Open Scope Z_scope.

Record pattern : Type := { at_ : Z -> option Z; ne : Z -> option Z }.
(** Matches lie in the text. *)
Definition proper (n : Z) (p : pattern) : Prop :=
  (forall s e, at_ p s = Some e -> 0 <= s <= e /\ e <= n) /\
  (forall s e, ne p s = Some e -> 0 <= s < e /\ e <= n) /\
  (forall s e, at_ p s = Some e -> s < e -> ne p s = Some e) /\
  (forall s, at_ p s = None -> ne p s = None).

(** The match at [s], if an empty one is not allowed at [q]. *)
Definition here (p : pattern) (barred : option Z) (s : Z) : option Z :=
  match barred with Some q => if Z.eqb q s then ne p s else at_ p s | None => at_ p s end.
(** [scan n p pos barred l]: the matches from position [pos] on are [l]. Each is the leftmost one
    after the previous one; after an empty match there is no second empty one at its place. *)
Inductive scan (n : Z) (p : pattern) : Z -> option Z -> list (Z * Z) -> Prop :=
| scan_end pos b : (forall s, pos <= s <= n -> here p b s = None) -> scan n p pos b []
| scan_next pos b s e l : pos <= s <= n -> here p b s = Some e -> (forall s', pos <= s' < s -> here p b s' = None) ->
    scan n p e (if Z.eqb s e then Some e else None) l -> scan n p pos b ((s, e) :: l).

(** Part of a text *)
Definition part (text : list Z) (a b : Z) : list Z := firstn (Z.to_nat (b - a)) (skipn (Z.to_nat a) text).
(** The text from [a] on, with each match replaced. *)
Fixpoint replaced (text : list Z) (repl : Z * Z -> list Z) (a : Z) (ms : list (Z * Z)) : list Z :=
  match ms with
  | [] => skipn (Z.to_nat a) text
  | (s, e) :: ms => part text a s ++ repl (s, e) ++ replaced text repl e ms
  end.
(** The texts between the matches, each followed by the groups of the match. *)
Fixpoint between {T} (text : list Z) (wrap : list Z -> T) (groups : Z * Z -> list T) (a : Z) (ms : list (Z * Z)) : list T :=
  match ms with
  | [] => [wrap (skipn (Z.to_nat a) text)]
  | (s, e) :: ms => wrap (part text a s) :: groups (s, e) ++ between text wrap groups e ms
  end.
(** The matches used if at most [count] are wanted; 0 means all, negative none. *)
Definition wanted (count : Z) (ms : list (Z * Z)) : list (Z * Z) :=
  if Z.eqb count 0 then ms else firstn (Z.to_nat count) ms.
(** Matches in order within the text, none before [a] *)
Fixpoint ordered (n a : Z) (ms : list (Z * Z)) : Prop :=
  match ms with [] => a <= n | (s, e) :: ms => a <= s <= e /\ ordered n e ms end.
(** No empty match comes after a position where nothing matches, and an empty match is only
    preferred where nothing else matches. *)
Definition steady (p : pattern) (pos : Z) : Prop :=
  forall s, at_ p s = Some s -> ne p s = None /\ (s = pos \/ at_ p (s - 1) <> None).
