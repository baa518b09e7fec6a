(** Model of stdlib/getopt.codon. Texts are lists of bytes; [GetoptError] is [OtherError]. *)
From Coq Require Import List ZArith Bool.
From Verif.Common Require Import Result.
From Verif.Getopt Require Import Spec.
Import ListNotations.
Local Open Scope Z_scope.
Local Open Scope res_scope.

(** [==] and [in] on texts *)
Fixpoint eqt (a b : text) : bool :=
  match a, b with [], [] => true | x :: a, y :: b => (x =? y) && eqt a b | _, _ => false end.
Definition mem (a : text) (l : list text) : bool := existsb (eqt a) l.
(** [str.startswith] (str.codon:663) *)
Fixpoint startswith (s p : text) : bool :=
  match p, s with [], _ => true | x :: p, y :: s => (x =? y) && startswith s p | _ :: _, [] => false end.
(** [opt.index("=")] and the two slices (getopt.codon:77-79) *)
Fixpoint cut_eq (s : text) : option (text * text) :=
  match s with
  | [] => None
  | c :: r => if c =? 61 then Some ([], r) else match cut_eq r with Some (a, b) => Some (c :: a, b) | None => None end
  end.

(** [long_has_args] (getopt.codon:52-71) *)
Definition long_has_args (opt : text) (longopts : list text) : res (bool * text) :=
  let possibilities := filter (fun o => startswith o opt) longopts in
  match possibilities with
  | [] => Raise OtherError
  | unique_match :: others =>
      if mem opt possibilities then Ok (false, opt)
      else if mem (opt ++ [61]) possibilities then Ok (true, opt)
      else match others with
        | _ :: _ => Raise OtherError
        | [] => let has_arg := last unique_match 0 =? 61 in
            Ok (has_arg, if has_arg then removelast unique_match else unique_match)
        end
  end.
(** [do_longs] (getopt.codon:73-92) *)
Definition do_longs (opts : list (text * text)) (opt : text) (longopts : list text) (args : list text)
    : res (list (text * text) * list text) :=
  let (opt, optarg) := match cut_eq opt with Some p => p | None => (opt, []) end in
  '(has_arg, opt) <- long_has_args opt longopts ;;
  if has_arg : bool then
    match optarg with
    | [] => match args with [] => Raise OtherError | a :: args => Ok (opts ++ [(45 :: 45 :: opt, a)], args) end
    | _ => Ok (opts ++ [(45 :: 45 :: opt, optarg)], args)
    end
  else match optarg with [] => Ok (opts ++ [(45 :: 45 :: opt, [])], args) | _ => Raise OtherError end.
(** [short_has_arg] (getopt.codon:94-98) *)
Fixpoint short_has_arg (opt : Z) (shortopts : text) : res bool :=
  match shortopts with
  | [] => Raise OtherError
  | c :: r => if (opt =? c) && negb (c =? 58) then Ok (startswith r [58]) else short_has_arg opt r
  end.
(** [do_shorts] (getopt.codon:100-113) *)
Fixpoint do_shorts (opts : list (text * text)) (optstring : text) (shortopts : text) (args : list text)
    : res (list (text * text) * list text) :=
  match optstring with
  | [] => Ok (opts, args)
  | opt :: optstring =>
      has_arg <- short_has_arg opt shortopts ;;
      if has_arg : bool then
        match optstring with
        | [] => match args with [] => Raise OtherError | a :: args => Ok (opts ++ [([45; opt], a)], args) end
        | _ => Ok (opts ++ [([45; opt], optstring)], args)
        end
      else do_shorts (opts ++ [([45; opt], [])]) optstring shortopts args
  end.
(** The loop of [getopt] (getopt.codon:129-146) *)
Fixpoint getopt_loop (fuel : nat) (all_options_first : bool) (shortopts : text) (longopts : list text)
    (opts : list (text * text)) (prog_args : list text) (args : list text) : res (list (text * text) * list text) :=
  match fuel with
  | O => NoFuel
  | S fuel =>
      match args with
      | [] => Ok (opts, prog_args)
      | a :: args =>
          if eqt a [45; 45] then Ok (opts, prog_args ++ args)
          else if eqt (firstn 2 a) [45; 45] then
            '(opts, args) <- do_longs opts (skipn 2 a) longopts args ;;
            getopt_loop fuel all_options_first shortopts longopts opts prog_args args
          else if eqt (firstn 1 a) [45] && negb (eqt a [45]) then
            '(opts, args) <- do_shorts opts (skipn 1 a) shortopts args ;;
            getopt_loop fuel all_options_first shortopts longopts opts prog_args args
          else if all_options_first then Ok (opts, prog_args ++ a :: args)
          else getopt_loop fuel all_options_first shortopts longopts opts (prog_args ++ [a]) args
      end
  end.
(** [getopt] (getopt.codon:115-146); [posix]: POSIXLY_CORRECT is in the environment *)
Definition getopt (posix : bool) (args : list text) (shortopts : text) (longopts : list text)
    : res (list (text * text) * list text) :=
  if startswith shortopts [43] then getopt_loop (S (length args)) true (skipn 1 shortopts) longopts [] [] args
  else getopt_loop (S (length args)) posix shortopts longopts [] [] args.
