(** What the string operations mean, after the Python documentation of [str].  Texts are lists
    of bytes; nothing here mentions the implementation. *)
From Coq Require Import List ZArith Bool.
Import ListNotations.
Local Open Scope Z_scope.

Definition size (s : list Z) : Z := Z.of_nat (length s).

(** [p] occurs in [s] at position [i]. *)
Definition occurs (p s : list Z) (i : Z) : Prop := exists a b, s = a ++ p ++ b /\ i = size a.

(** The part of a text of size [n] that [start] and [end] select: negative numbers count from
    the end. *)
Definition window_start (n v : Z) : Z := if v <? 0 then Z.max 0 (v + n) else v.
Definition window_end (n : Z) (v : option Z) : Z :=
  match v with
  | None => n
  | Some v => if v <? 0 then Z.max 0 (v + n) else Z.min v n
  end.
Definition occurs_within (p s : list Z) (start : Z) (end_ : option Z) (i : Z) : Prop :=
  occurs p s i /\ window_start (size s) start <= i /\ i + size p <= window_end (size s) end_.

(** [r] is the first (last) position that satisfies [P], or -1 when there is none. *)
Definition first_position (P : Z -> Prop) (r : Z) : Prop :=
  (P r /\ forall i, P i -> r <= i) \/ (r = -1 /\ forall i, ~ P i).
Definition last_position (P : Z -> Prop) (r : Z) : Prop :=
  (P r /\ forall i, P i -> i <= r) \/ (r = -1 /\ forall i, ~ P i).

(** [l] are the pieces of [s] cut at the separator, from the left, at most [m] times; a
    negative [m] is no limit. *)
Inductive split_left (sep : list Z) : Z -> list Z -> list (list Z) -> Prop :=
| split_left_stop m s : m = 0 \/ (forall i, ~ occurs sep s i) -> split_left sep m s [s]
| split_left_cut m a b l :
    m <> 0 -> (forall i, occurs sep (a ++ sep ++ b) i -> size a <= i) ->
    split_left sep (m - 1) b l -> split_left sep m (a ++ sep ++ b) (a :: l).

(** The same from the right. *)
Inductive split_right (sep : list Z) : Z -> list Z -> list (list Z) -> Prop :=
| split_right_stop m s : m = 0 \/ (forall i, ~ occurs sep s i) -> split_right sep m s [s]
| split_right_cut m a b l :
    m <> 0 -> (forall i, occurs sep (a ++ sep ++ b) i -> i <= size a) ->
    split_right sep (m - 1) a l -> split_right sep m (a ++ sep ++ b) (l ++ [b]).

Fixpoint join (sep : list Z) (l : list (list Z)) : list Z :=
  match l with
  | [] => []
  | [s] => s
  | s :: l => s ++ sep ++ join sep l
  end.

(** [new] before each of the first [m] bytes (and at the end if they are not exhausted). *)
Fixpoint insert_before (new : list Z) (m : Z) (s : list Z) : list Z :=
  if m =? 0 then s else
  new ++ match s with [] => [] | c :: s => c :: insert_before new (m - 1) s end.

(** White space of the C locale: space, tab, newline, vertical tab, form feed, return. *)
Definition white (c : Z) : Prop := In c [32; 9; 10; 11; 12; 13].
Definition starts (P : Z -> Prop) (s : list Z) : Prop := match s with [] => False | c :: _ => P c end.
Definition ends (P : Z -> Prop) (s : list Z) : Prop := starts P (rev s).

(** The words of a text from the left; after [m] words the rest of the text is one piece. *)
Inductive words : Z -> list Z -> list (list Z) -> Prop :=
| words_none m s : Forall white s -> words m s []
| words_rest a r : Forall white a -> starts (fun c => ~ white c) r -> words 0 (a ++ r) [r]
| words_more m a w r l :
    m <> 0 -> Forall white a -> w <> [] -> Forall (fun c => ~ white c) w ->
    (r = [] \/ starts white r) -> words (m - 1) r l -> words m (a ++ w ++ r) (w :: l).

(** The same from the right. *)
Inductive rwords : Z -> list Z -> list (list Z) -> Prop :=
| rwords_none m s : Forall white s -> rwords m s []
| rwords_rest r b : Forall white b -> ends (fun c => ~ white c) r -> rwords 0 (r ++ b) [r]
| rwords_more m r w b l :
    m <> 0 -> Forall white b -> w <> [] -> Forall (fun c => ~ white c) w ->
    (r = [] \/ ends white r) -> rwords (m - 1) r l -> rwords m (r ++ w ++ b) (l ++ [w]).

(** The lines of a text, with or without their ends: LF, CR LF or CR. *)
Definition line_end (e rest : list Z) : Prop :=
  e = [10] \/ e = [13; 10] \/ (e = [13] /\ ~ starts (fun c => c = 10) rest).
Definition no_break (s : list Z) : Prop := Forall (fun c => c <> 10 /\ c <> 13) s.
Inductive lines (keep : bool) : list Z -> list (list Z) -> Prop :=
| lines_nil : lines keep [] []
| lines_last s : s <> [] -> no_break s -> lines keep s [s]
| lines_more s e r l : no_break s -> line_end e r -> lines keep r l ->
    lines keep (s ++ e ++ r) ((if keep then s ++ e else s) :: l).

(** [s] without the bytes at its beginning (end) that satisfy [P]. *)
Definition stripped_left (P : Z -> Prop) (s r : list Z) : Prop :=
  exists a, s = a ++ r /\ Forall P a /\ ~ starts P r.
Definition stripped_right (P : Z -> Prop) (s r : list Z) : Prop :=
  exists b, s = r ++ b /\ Forall P b /\ ~ ends P r.

(** Tabs replaced by spaces up to the next multiple of [tab]; [col] is the current column. *)
Fixpoint expand (tab col : Z) (s : list Z) : list Z :=
  match s with
  | [] => []
  | c :: s =>
      if c =? 9 then
        if tab <=? 0 then expand tab col s
        else let w := tab - col mod tab in repeat 32 (Z.to_nat w) ++ expand tab (col + w) s
      else c :: expand tab (if (c =? 10) || (c =? 13) then 0 else col + 1) s
  end.

(** Lexicographic order on bytes. *)
Inductive lex_lt : list Z -> list Z -> Prop :=
| lex_prefix c t : lex_lt [] (c :: t)
| lex_less c d s t : c < d -> lex_lt (c :: s) (d :: t)
| lex_same c s t : lex_lt s t -> lex_lt (c :: s) (c :: t).

(** The bytes from position [i] to before [j]. *)
Definition between (i j : Z) (s : list Z) : list Z := firstn (Z.to_nat (j - i)) (skipn (Z.to_nat i) s).
Definition byte (s : list Z) (i : Z) : Z := nth (Z.to_nat i) s 0.

(** [s] with [n] copies of [c] after the sign, if any. *)
Definition zeros_after_sign (n : nat) (s : list Z) : list Z :=
  match s with
  | c :: t => if (c =? 43) || (c =? 45) then c :: repeat 48 n ++ t else repeat 48 n ++ s
  | [] => repeat 48 n
  end.

(** What the lexer reads between two quotes [q]: pairs of a backslash and a byte, and bytes
    other than the backslash, the quote and line ends. *)
Inductive literal_body (q : Z) : list Z -> Prop :=
| literal_nil : literal_body q []
| literal_pair c t : literal_body q t -> literal_body q (92 :: c :: t)
| literal_byte c t : c <> 92 -> c <> q -> c <> 10 -> c <> 13 -> literal_body q t -> literal_body q (c :: t).
