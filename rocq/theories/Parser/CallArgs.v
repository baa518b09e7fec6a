(** Binding the arguments of a call to parameters:
    codon/parser/visitors/typecheck/typecheck.cpp:1482-1597 (reorderNamedArgs), and the order in
    which the bound arguments are evaluated: codon/parser/visitors/typecheck/call.cpp:470-500,
    520-560, 640-680 (callReorderArguments).

    An argument is known by its index in the call and by its name; the empty name marks a
    positional argument (CallArg::name). Starred arguments have been expanded before
    (transformCallArgs), which also rejects a keyword used twice. Types are not modelled. *)
From Coq Require Import List Bool Arith String.
Import ListNotations.
Open Scope string_scope.
Open Scope nat_scope.
Open Scope list_scope.

(** A parameter: name without stars, number of stars (ast/expr.cpp:75-81), whether it has a
    default, whether it takes a value (isValue; false for `T: type` and literal generics) and
    whether it stands for a captured local variable: its name then starts with `$`
    (function.cpp:304-345). *)
Record param := Param { pname : string; pstars : nat; pdefault : bool; pvalue : bool; pcapture : bool }.

Inductive error := RepeatedName | ArgsMany | ArgsInvalid | ArgsMissing.
(** [slots]: for every parameter the indices of the arguments it receives *)
Inductive outcome := Bound (slots : list (list nat)) | Rejected (e : error).

(** std::map<std::string, int>: kept sorted by name, assignment overwrites *)
Fixpoint mput (k : string) (v : nat) (m : list (string * nat)) : list (string * nat) :=
  match m with
  | [] => [(k, v)]
  | (k', v') :: m' => if String.eqb k k' then (k, v) :: m'
                      else if String.ltb k k' then (k, v) :: m else (k', v') :: mput k v m'
  end.

Definition upd {A} (f : nat -> A) (i : nat) (v : A) : nat -> A := fun j => if Nat.eqb j i then v else f j.

Section Reorder.
Context (ps : list param).
(** [known i]: parameter [i] was given when the partial was made (PartialFlag::Included) *)
Context (known : nat -> bool).
(** the call ends in `...` *)
Context (partial : bool).

Definition n := List.length ps.
Definition par (i : nat) : param := nth i ps (Param "" 0 false false false).

(** lines 1500-1507: the last parameter with one star and the last with two *)
Fixpoint findStar (k : nat) (l : list param) (i : nat) (acc : option nat) : option nat :=
  match l with
  | [] => acc
  | p :: l => findStar k l (S i) (if Nat.eqb (pstars p) k then Some i else acc)
  end.
Definition starArgIndex := findStar 1 ps 0 None.
Definition kwstarArgIndex := findStar 2 ps 0 None.

(** lines 1518-1520: skip the parameters already given; the vector is indexed below its size *)
Fixpoint skip (fuel si : nat) : nat :=
  match fuel with
  | O => si
  | S fuel => if (si <? n) && known si then skip fuel (S si) else si
  end.
(** line 1521 *)
Definition fits (si : nat) : bool :=
  (si <? n) && match starArgIndex with None => true | Some s => si <? s end.

(** The vector `slots` has a fixed size and is modelled by a function of the index. *)
Record st := St { slots : nat -> list nat; extra : list nat; named : list (string * nat) }.
(** lines 1516-1528 *)
Fixpoint assign (args : list string) (ai si : nat) (s : st) : st :=
  match args with
  | [] => s
  | a :: args =>
      if String.eqb a "" then
        let si := skip (n - si) si in
        if fits si then assign args (S ai) (S si) (St (upd (slots s) si [ai]) (extra s) (named s))
        else assign args (S ai) si (St (slots s) (extra s ++ [ai]) (named s))
      else assign args (S ai) si (St (slots s) (extra s) (mput a ai (named s)))
  end.

(** lines 1531-1536: note that the index of the parameter, not of the argument, is moved *)
Definition spill1 (s : st) (i : nat) : st :=
  match slots s i with
  | [] => s
  | _ => St (upd (slots s) i []) (i :: extra s) (named s)
  end.
Definition starIndices : list nat :=
  match starArgIndex, kwstarArgIndex with
  | Some a, Some b => [Nat.max a b; Nat.min a b]
  | Some a, None | None, Some a => [a]
  | None, None => []
  end.
Definition spill (s : st) : st := fold_left spill1 starIndices s.

(** lines 1540-1545 *)
Fixpoint slotNames (l : list param) (i : nat) (m : list (string * nat)) : list (string * nat) :=
  match l with
  | [] => m
  | p :: l => slotNames l (S i) (if known i then m else mput (pname p) i m)
  end.
Definition mget (k : string) (m : list (string * nat)) : option nat :=
  match find (fun e => String.eqb (fst e) k) m with Some e => Some (snd e) | None => None end.

(** lines 1546-1554 *)
Fixpoint assignNamed (nm : list (string * nat)) (sl : nat -> list nat) (ex : list (string * nat))
  : (nat -> list nat) * list (string * nat) + error :=
  match nm with
  | [] => inl (sl, ex)
  | (name, ai) :: nm =>
      match mget name (slotNames ps 0 []) with
      | None => assignNamed nm sl (mput name ai ex)
      | Some i => match sl i with
                  | [] => assignNamed nm (upd sl i [ai]) ex
                  | _ => inr RepeatedName
                  end
      end
  end.

(** lines 1577-1594 *)
Definition is_index (o : option nat) (i : nat) : bool := match o with Some j => Nat.eqb i j | None => false end.
Definition missing (sl : nat -> list nat) (i : nat) : bool :=
  match sl i with
  | [] => negb (is_index starArgIndex i) && negb (is_index kwstarArgIndex i) &&
          negb ((pvalue (par i) && (pdefault (par i) || known i)) || pcapture (par i)) &&
          negb partial && pvalue (par i)
  | _ => false
  end.

Definition reorder (args : list string) : outcome :=
  let s := spill (assign args 0 0 (St (fun _ => []) [] [])) in
  match assignNamed (named s) (slots s) [] with
  | inr e => Rejected e
  | inl (sl, ex) =>
      (* lines 1558-1564 *)
      if negb (match extra s with [] => true | _ => false end) && match starArgIndex with None => true | _ => false end
      then Rejected ArgsMany
      else
        let sl := match starArgIndex with Some i => upd sl i (extra s) | None => sl end in
        (* lines 1567-1574 *)
        if negb (match ex with [] => true | _ => false end) && match kwstarArgIndex with None => true | _ => false end
        then Rejected ArgsInvalid
        else
          let sl := match kwstarArgIndex with Some i => upd sl i (sl i ++ map snd ex) | None => sl end in
          if existsb (missing sl) (seq 0 n) then Rejected ArgsMissing
          else Bound (map sl (seq 0 n))
  end.

(** call.cpp:470-479, applied to the arguments in the order of the slots. [eff a]: the expression
    of argument [a] is not a name, literal, field access or yield (hasSideEffect,
    typecheck.cpp:1309-1313). The result says whether the arguments can stay in place. *)
Fixpoint inOrder (eff : nat -> bool) (l : list nat) (last : option nat) : bool :=
  match l with
  | [] => true
  | a :: l => if eff a
              then match last with Some b => negb (a <? b) | None => true end && inOrder eff l (Some a)
              else inOrder eff l last
  end.
Fixpoint isort (l : list nat) : list nat :=
  match l with
  | [] => []
  | a :: l => (fix ins (r : list nat) : list nat :=
                 match r with [] => [a] | b :: r' => if a <=? b then a :: r else b :: ins r' end) (isort l)
  end.
(** call.cpp:486-640, 664-677: the order in which the arguments of a bound call are evaluated. All
    parameters take values here. Arguments moved to a temporary are evaluated first, sorted by
    their place in the call; the others are evaluated when the call itself is. *)
Definition evalOrder (eff : nat -> bool) (sl : list (list nat)) : list nat :=
  let l := List.concat sl in
  if inOrder eff l None then l
  else isort (filter eff l) ++ filter (fun a => negb (eff a)) l.
End Reorder.
