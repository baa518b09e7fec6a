(** Method resolution order: codon/parser/cache.cpp:225-268 (mergeC3) and
    codon/parser/visitors/typecheck/class.cpp:401-508 (parseBaseClasses). Classes are numbered by
    name; generic arguments are not modelled (the merge compares names only). *)
From Coq Require Import List Bool Arith.
From Verif.Common Require Import Result.
Import ListNotations.

(** cache.cpp:238-250: does [x] occur after the head of some sequence *)
Definition in_tail (x : nat) (seqs : list (list nat)) : bool :=
  existsb (fun s => match s with [] => false | _ :: t => existsb (Nat.eqb x) t end) seqs.
(** lines 231-255: the first head that is in no tail *)
Fixpoint candidate (seqs all : list (list nat)) : option nat :=
  match seqs with
  | [] => None
  | [] :: rest => candidate rest all
  | (x :: _) :: rest => if in_tail x all then candidate rest all else Some x
  end.
Definition found (seqs : list (list nat)) : bool := existsb (fun s => match s with [] => false | _ => true end) seqs.
(** lines 260-264 *)
Definition erase (c : nat) (seqs : list (list nat)) : list (list nat) :=
  map (fun s => match s with x :: t => if Nat.eqb c x then t else s | [] => [] end) seqs.
(** lines 225-268; the empty list reports that the merge failed *)
Definition total (seqs : list (list nat)) : nat := list_sum (map (@length nat) seqs).
Definition mergeC3 (seqs : list (list nat)) : res (list nat) :=
  loop (S (total seqs))
    (fun '(seqs, result) =>
       if negb (found seqs) then Ok (inr result)
       else match candidate seqs seqs with
            | None => Ok (inr [])
            | Some c => Ok (inl (erase c seqs, result ++ [c]))
            end)
    (seqs, []).

(** class.cpp:408-505: the order of class [c] with the given bases; [None] is the error
    CLASS_BAD_MRO. [mros] gives the orders of the classes defined so far. *)
Definition lookup (mros : list (nat * list nat)) (c : nat) : option (list nat) :=
  match find (fun e => Nat.eqb (fst e) c) mros with Some e => Some (snd e) | None => None end.
Fixpoint base_mros (mros : list (nat * list nat)) (bases : list nat) : option (list (list nat)) :=
  match bases with
  | [] => Some []
  | b :: bases => match lookup mros b, base_mros mros bases with Some m, Some ms => Some (m :: ms) | _, _ => None end
  end.
Inductive outcome := Order (l : list nat) | BadMro | NoBase.
Definition classMro (mros : list (nat * list nat)) (c : nat) (bases : list nat) : res outcome :=
  match base_mros mros bases with
  | None => Ok NoBase
  | Some ms =>
      bind (mergeC3 ([c] :: ms ++ match bases with [] => [] | _ => [bases] end))
        (fun r => Ok (match r with [] => BadMro | _ => Order r end))
  end.

(** A sequence of class definitions, oldest first; the first error stops. A class may not be
    defined twice (every definition gets a name of its own). *)
Fixpoint define (defs : list (nat * list nat)) (mros : list (nat * list nat)) : res (option (list (nat * list nat))) :=
  match defs with
  | [] => Ok (Some mros)
  | (c, bases) :: defs =>
      if existsb (fun e => Nat.eqb (fst e) c) mros then Ok None
      else bind (classMro mros c bases) (fun o => match o with
                                                 | Order l => define defs ((c, l) :: mros)
                                                 | _ => Ok None
                                                 end)
  end.
