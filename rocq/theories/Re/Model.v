(** Model of [finditer], [findall], [split], [sub] and [subn] of stdlib/re.codon (lines 362-454) over
    a pattern described by its preferred match at each position. [seq_re_match] (runtime/re.cpp) calls
    RE2, taken to give the leftmost match, and among those at the same place the one the engine
    prefers. Strings are byte lists; a generator is the list of what it yields. *)
From Coq Require Import List ZArith Bool.
From Verif.Common Require Import Result.
From Verif.Re Require Import Spec.
Import ListNotations.
Local Open Scope Z_scope.
Local Open Scope res_scope.

(** [seq_re_match(re, _ANCHOR_NONE, string, pos, endpos)[0]] *)
Fixpoint leftmost (at' : Z -> option Z) (pos : Z) (positions : nat) : option (Z * Z) :=
  match positions with
  | O => None
  | S k => match at' pos with Some e => Some (pos, e) | None => leftmost at' (pos + 1) k end
  end.
Definition re_match (p : pattern) (pos endpos : Z) : option (Z * Z) := leftmost (at_ p) pos (Z.to_nat (endpos - pos + 1)).

(** [Pattern._match] (re.codon:375-398), the loop *)
Fixpoint match_loop (fuel : nat) (p : pattern) (posx endposx : Z) : res (list (Z * Z)) :=
  match fuel with
  | O => NoFuel
  | S fuel =>
      match re_match p posx endposx with
      | None => Ok []
      | Some (s, e) =>
          rest <-
            (if posx =? endposx then Ok []
             else if posx =? e then match_loop fuel p (posx + 1) endposx
             else match_loop fuel p e endposx) ;;
          Ok ((s, e) :: rest)
      end
  end.
Definition clamp (n : Z) (i : option Z) (default : Z) : Z := match i with None => default | Some i => Z.max 0 (Z.min i n) end.
(** [finditer(string, pos, endpos)]; [p] is the pattern on the text up to [endpos]. *)
Definition finditer (fuel : nat) (p : pattern) (n : Z) (pos endpos : option Z) : res (list (Z * Z)) :=
  let posx := clamp n pos 0 in
  let endposx := clamp n endpos n in
  if endposx <? posx then Ok [] else match_loop fuel p posx endposx.

(** [Pattern._split] (re.codon:415-430): the loop over the matches. [wrap] is the conversion to the
    element type. The slices have bounds within the text. *)
Fixpoint split_loop {T} (wrap : list Z -> T) (cb : Z * Z -> list T) (text : list Z) (maxsplit : Z)
    (ms : list (Z * Z)) (pieces : list T) (end_ numsplit : Z) : list T * Z :=
  match ms with
  | [] => (pieces ++ [wrap (part text end_ (Z.of_nat (length text)))], numsplit)
  | m :: ms =>
      if (0 <? maxsplit) && (maxsplit <=? numsplit) then (pieces ++ [wrap (part text end_ (Z.of_nat (length text)))], numsplit)
      else
        split_loop wrap cb text maxsplit ms (pieces ++ [wrap (part text end_ (fst m))] ++ cb m) (snd m) (numsplit + 1)
  end.
Definition split_ {T} (fuel : nat) (p : pattern) (wrap : list Z -> T) (cb : Z * Z -> list T) (text : list Z) (maxsplit : Z) : res (list T * Z) :=
  if maxsplit <? 0 then Ok ([wrap text], 0)
  else
    ms <- finditer fuel p (Z.of_nat (length text)) None None ;;
    Ok (split_loop wrap cb text maxsplit ms [] 0 0).
(** [split] (re.codon:432-435): [groups] are the texts of the groups of a match, [None] for one
    that took no part. *)
Definition split (fuel : nat) (p : pattern) (groups : Z * Z -> list (option (list Z))) (text : list Z) (maxsplit : Z) : res (list (option (list Z))) :=
  r <- split_ fuel p Some groups text maxsplit ;; Ok (fst r).
(** [subn] and [sub] (re.codon:443-451); [repl] is what a match is replaced by. *)
Definition subn (fuel : nat) (p : pattern) (repl : Z * Z -> list Z) (text : list Z) (count : Z) : res (list Z * Z) :=
  r <- split_ fuel p (fun x => x) (fun m => [repl m]) text count ;; Ok (concat (fst r), snd r).
Definition sub (fuel : nat) (p : pattern) (repl : Z * Z -> list Z) (text : list Z) (count : Z) : res (list Z) :=
  r <- subn fuel p repl text count ;; Ok (fst r).
(** [findall] (re.codon:412-413) *)
Definition findall (fuel : nat) (p : pattern) (text : list Z) (pos endpos : option Z) : res (list (list Z)) :=
  ms <- finditer fuel p (Z.of_nat (length text)) pos endpos ;; Ok (map (fun m => part text (fst m) (snd m)) ms).
