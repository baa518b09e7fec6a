(** Model of [Match._split], [Match._unescape] and [Match.expand] (stdlib/re.codon:199-303). The three
    patterns used there, [\\[0-7][0-7][0-7]], [\\[1-9][0-9]?|\\g<\w+>] and [[+-]?\d+], are written out.
    Simplified: [int(group)] of decimal digits is their value, however large. *)
From Coq Require Import List ZArith Bool.
From Verif.Common Require Import Result.
From Verif.Re Require Import TemplateSpec.
Import ListNotations.
Local Open Scope Z_scope.
Local Open Scope res_scope.

(** The parts before and from the first backslash: [find], then the two slices *)
Fixpoint cut_backslash (t : list Z) : list Z * list Z :=
  match t with
  | [] => ([], [])
  | c :: r => if c =? 92 then ([], t) else let (a, b) := cut_backslash r in (c :: a, b)
  end.
(** [OCTAL.match(template)] *)
Definition octal_match (t : list Z) : bool :=
  match t with 92 :: a :: b :: c :: _ => octal a && octal b && octal c | _ => false end.
(** The length of the longest prefix of word bytes *)
Fixpoint word_run (t : list Z) : nat := match t with c :: r => if word c then S (word_run r) else O | [] => O end.
(** [GROUP.match(template).end()] *)
Definition group_match (t : list Z) : option nat :=
  match t with
  | 92 :: c :: r =>
      if (49 <=? c) && (c <=? 57) then Some (if starts digit r then 3%nat else 2%nat)
      else if c =? 103 then
        match r with
        | 60 :: r =>
            let k := word_run r in
            if (0 <? k)%nat && starts (fun x => x =? 62) (skipn k r) then Some (k + 4)%nat else None
        | _ => None
        end
      else None
  | _ => None
  end.
(** [Match._split] (re.codon:199-226): [done] are the pieces but the last, [cur] the last one. *)
Fixpoint split_loop (fuel : nat) (done : list (list Z)) (cur : list Z) (t : list Z) : res (list (list Z)) :=
  match fuel with
  | O => NoFuel
  | S fuel =>
      let (piece, t) := cut_backslash t in
      match t with
      | [] => Ok (done ++ [cur ++ piece])
      | _ =>
          let cur := cur ++ piece in
          match (if octal_match t then None else group_match t) with
          | Some index => split_loop fuel (done ++ [cur; firstn index t]) [] (skipn index t)
          | None => split_loop fuel done (cur ++ firstn 2 t) (skipn 2 t)
          end
      end
  end.
Definition split_template (t : list Z) : res (list (list Z)) := split_loop (S (length t)) [] [] t.

(** [while k < n and k - i <= 4 and '0' <= s[k] <= '7': k += 1] from [k = i + 2]: at most three bytes *)
Fixpoint octal_run (most : nat) (t : list Z) : list Z :=
  match most, t with S most, c :: r => if octal c then c :: octal_run most r else [] | _, _ => [] end.
(** [Match._unescape] (re.codon:228-282); a bad escape raises [error]. *)
Fixpoint unescape (fuel : nat) (s : list Z) : res (list Z) :=
  match fuel with
  | O => NoFuel
  | S fuel =>
      match s with
      | [] => Ok []
      | x :: t =>
          let keep := r <- unescape fuel t ;; Ok (x :: r) in
          if x =? 92 then
            match t with
            | [] => keep
            | c :: t' =>
                let as_ v := r <- unescape fuel t' ;; Ok (v :: r) in
                if c =? 97 then as_ 7
                else if c =? 98 then as_ 8
                else if c =? 102 then as_ 12
                else if c =? 110 then as_ 10
                else if c =? 114 then as_ 13
                else if c =? 116 then as_ 9
                else if c =? 118 then as_ 11
                else if c =? 34 then as_ 34
                else if c =? 39 then as_ 39
                else if c =? 92 then as_ 92
                else if octal c then
                  let ds := octal_run 3 t' in
                  r <- unescape fuel (skipn (length ds) t') ;; Ok (value 8 (c :: ds) mod 256 :: r)
                else if letter c then Raise OtherError
                else keep
            end
          else keep
      end
  end.
(** One piece of [Match.expand] (re.codon:291-302) *)
Definition expand_piece (group : ref -> res (option (list Z))) (odd : bool) (piece : list Z) : res (list Z) :=
  let get_or_empty r := g <- group r ;; Ok (match g with Some x => x | None => [] end) in
  if negb odd then unescape (S (length piece)) piece
  else if (length piece <=? 3)%nat then get_or_empty (Num (value 10 (skipn 1 piece)))
  else
    let name := removelast (skipn 3 piece) in
    if forallb digit name then get_or_empty (Num (value 10 name)) else get_or_empty (Name name).
Fixpoint expand_pieces (group : ref -> res (option (list Z))) (odd : bool) (pieces : list (list Z)) : res (list (list Z)) :=
  match pieces with
  | [] => Ok []
  | p :: pieces => x <- expand_piece group odd p ;; l <- expand_pieces group (negb odd) pieces ;; Ok (x :: l)
  end.
(** [Match.expand] (re.codon:284-303) *)
Definition expand (group : ref -> res (option (list Z))) (t : list Z) : res (list Z) :=
  pieces <- split_template t ;; l <- expand_pieces group false pieces ;; Ok (concat l).
