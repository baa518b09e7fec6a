(** String escapes of the parser: codon/parser/common.cpp:159-240, and the names of static
    strings that are built from them. Strings are lists of bytes. *)
From Coq Require Import List ZArith Bool.
From Verif.Common Require Import Result.
Import ListNotations.
Local Open Scope Z_scope.

Definition BSL : Z := 92.   (* backslash *)
Definition QUO : Z := 39.   (* ' *)
Definition DQ : Z := 34.    (* double quote *)

(** fmt's {:x} of a byte *)
Definition hexdig (d : Z) : Z := if d <? 10 then 48 + d else 87 + d.
Definition hex (c : Z) : list Z := if c <? 16 then [hexdig c] else [hexdig (c / 16); hexdig (c mod 16)].

(** lines 162-178 *)
Definition escape1 (c : Z) : list Z :=
  if c =? 7 then [BSL; 97]
  else if c =? 8 then [BSL; 98]
  else if c =? 12 then [BSL; 102]
  else if c =? 10 then [BSL; 110]
  else if c =? 13 then [BSL; 114]
  else if c =? 9 then [BSL; 116]
  else if c =? 11 then [BSL; 118]
  else if c =? QUO then [BSL; QUO]
  else if c =? BSL then [BSL; BSL]
  else if (c <? 32) || (127 <=? c) then [BSL; 120] ++ hex c
  else [c].
(** lines 159-181 *)
Definition escape (s : list Z) : list Z := flat_map escape1 s.

(** The value of a digit in the given base, as in strtol *)
Definition digit (base c : Z) : option Z :=
  let d := if (48 <=? c) && (c <=? 57) then Some (c - 48)
           else if (97 <=? c) && (c <=? 122) then Some (c - 87)
           else if (65 <=? c) && (c <=? 90) then Some (c - 55)
           else None in
  match d with Some d => if d <? base then Some d else None | None => None end.
Fixpoint digits (base : Z) (s : list Z) (acc : Z) (n : nat) : Z * nat :=
  match s with
  | c :: s => match digit base c with Some d => digits base s (acc * base + d) (S n) | None => (acc, n) end
  | [] => (acc, n)
  end.
Definition space (c : Z) : bool := (c =? 32) || ((9 <=? c) && (c <=? 13)).
Fixpoint skip (s : list Z) : list Z * nat :=
  match s with
  | c :: t => if space c then let '(r, n) := skip t in (r, S n) else (s, O)
  | [] => ([], O)
  end.
(** std::stoi(s, &pos, base): leading white space, a sign, and in base 16 the prefix 0x are
    accepted (a prefix that no digit follows is just the digit 0); no digit is invalid_argument *)
Definition stoi (base : Z) (s : list Z) : res (Z * nat) :=
  let '(s, n) := skip s in
  let '(sg, s, n) := match s with
                     | c :: t => if c =? 45 then (-1, t, S n) else if c =? 43 then (1, t, S n) else (1, s, n)
                     | [] => (1, s, n)
                     end in
  let '(s, n) := match s with
                 | z :: x :: d :: t =>
                     if (base =? 16) && (z =? 48) && ((x =? 120) || (x =? 88)) && match digit 16 d with Some _ => true | None => false end
                     then (d :: t, S (S n)) else (s, n)
                 | _ => (s, n)
                 end in
  let '(v, m) := digits base s 0 0%nat in
  match m with O => Raise ValueError | _ => Ok (sg * v, (n + m)%nat) end.
(** static_cast<char>, as a byte *)
Definition byte (v : Z) : Z := v mod 256.

Definition simple (c : Z) : option Z :=
  if c =? 97 then Some 7
  else if c =? 98 then Some 8
  else if c =? 102 then Some 12
  else if c =? 110 then Some 10
  else if c =? 114 then Some 13
  else if c =? 116 then Some 9
  else if c =? 118 then Some 11
  else if c =? DQ then Some DQ
  else if c =? QUO then Some QUO
  else if c =? BSL then Some BSL
  else None.

(** lines 182-222; [s] is the rest of the string from index i *)
Fixpoint unescape_ (fuel : nat) (s : list Z) : res (list Z) :=
  match fuel with
  | O => NoFuel
  | S fuel =>
      match s with
      | [] => Ok []
      | b :: ((c :: t) as ct) =>
          if b =? BSL then
            match simple c with
            | Some x => bind (unescape_ fuel t) (fun r => Ok (x :: r))
            | None =>
                if c =? 120 then
                  match t with
                  | [] => Raise ValueError
                  | _ => bind (stoi 16 (firstn 2 t)) (fun '(v, pos) =>
                         bind (unescape_ fuel (skipn pos t)) (fun r => Ok (byte v :: r)))
                  end
                else if (48 <=? c) && (c <=? 55) then
                  bind (stoi 8 (firstn 3 ct)) (fun '(v, pos) =>
                  bind (unescape_ fuel (skipn pos ct)) (fun r => Ok (byte v :: r)))
                else bind (unescape_ fuel ct) (fun r => Ok (b :: r))
            end
          else bind (unescape_ fuel ct) (fun r => Ok (b :: r))
      | [b] => Ok [b]
      end
  end.
Definition unescape (s : list Z) : res (list Z) := unescape_ (S (length s)) s.

(** lines 223-240 *)
Definition escapeFStringBraces (s : list Z) (start len : nat) : list Z :=
  flat_map (fun c => if c =? 123 then [123; 123] else if c =? 125 then [125; 125] else [c]) (firstn len (skipn start s)).

(** codon/parser/ast/types/static.cpp:21 and 91-94: the name under which the instances of generic
    functions and classes on a static string are stored *)
Definition static_name (s : list Z) : list Z := [QUO] ++ escape s ++ [QUO].
