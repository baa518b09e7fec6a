(** Command lines, as Python's [getopt] and [gnu_getopt] read them. Texts are lists of bytes:
    45 is the dash, 61 the equals sign, 58 the colon, 43 the plus sign. *)
From Coq Require Import List ZArith Bool.
Import ListNotations.
Local Open Scope Z_scope.

Notation text := (list Z).
Definition prefix (p s : text) : Prop := exists r, s = p ++ r.

(** [short_option shorts c takes]: the letter [c] is declared; a colon after its first occurrence means
    that it takes an argument. *)
Definition short_option (shorts : text) (c : Z) (takes : bool) : Prop :=
  c <> 58 /\ exists before after, shorts = before ++ c :: after /\ ~ In c before /\
    (takes = true <-> prefix [58] after).

(** [long_option longs name full takes]: [name] stands for the declared option [full]: itself, or the only
    declared one that it begins. A declared option that takes an argument ends with an equals sign. *)
Inductive long_option (longs : list text) (name : text) : text -> bool -> Prop :=
| long_exact : In name longs -> long_option longs name name false
| long_exact_takes : ~ In name longs -> In (name ++ [61]) longs -> long_option longs name name true
| long_unique before o after full (takes : bool) : ~ In name longs -> ~ In (name ++ [61]) longs ->
    longs = before ++ o :: after -> prefix name o -> Forall (fun x => ~ prefix name x) (before ++ after) ->
    (if takes then o = full ++ [61] else o = full /\ ~ exists f, o = f ++ [61]) ->
    long_option longs name full takes.

(** [cluster shorts letters args opts args']: the letters after one dash, and the arguments that remain *)
Inductive cluster (shorts : text) : text -> list text -> list (text * text) -> list text -> Prop :=
| cluster_end args : cluster shorts [] args [] args
| cluster_flag c letters args opts args' : short_option shorts c false -> cluster shorts letters args opts args' ->
    cluster shorts (c :: letters) args (([45; c], []) :: opts) args'
| cluster_attached c value args : short_option shorts c true -> value <> [] ->
    cluster shorts (c :: value) args [([45; c], value)] args
| cluster_next c value args : short_option shorts c true ->
    cluster shorts [c] (value :: args) [([45; c], value)] args.

(** Not an option: a single dash or not beginning with one *)
Definition operand (a : text) : Prop := a = [45] \/ ~ prefix [45] a.

(** [reads strict first shorts longs args opts rest]; with [first], the first operand ends the options. With
    [strict], "--name=" with nothing after the equals sign is left out. *)
Inductive reads (strict first : bool) (shorts : text) (longs : list text) : list text -> list (text * text) -> list text -> Prop :=
| r_end : reads strict first shorts longs [] [] []
| r_dashes args : reads strict first shorts longs ([45; 45] :: args) [] args
| r_stop a args : first = true -> operand a -> reads strict first shorts longs (a :: args) [] (a :: args)
| r_operand a args opts rest : first = false -> operand a -> reads strict first shorts longs args opts rest ->
    reads strict first shorts longs (a :: args) opts (a :: rest)
| r_flag name full args opts rest : name <> [] -> ~ In 61 name -> long_option longs name full false ->
    reads strict first shorts longs args opts rest ->
    reads strict first shorts longs ((45 :: 45 :: name) :: args) ((45 :: 45 :: full, []) :: opts) rest
| r_attached name full value args opts rest : ~ In 61 name -> long_option longs name full true ->
    (strict = true -> value <> []) ->
    reads strict first shorts longs args opts rest ->
    reads strict first shorts longs ((45 :: 45 :: name ++ 61 :: value) :: args) ((45 :: 45 :: full, value) :: opts) rest
| r_next name full value args opts rest : name <> [] -> ~ In 61 name -> long_option longs name full true ->
    reads strict first shorts longs args opts rest ->
    reads strict first shorts longs ((45 :: 45 :: name) :: value :: args) ((45 :: 45 :: full, value) :: opts) rest
| r_cluster letters args args' opts opts' rest : letters <> [] -> ~ prefix [45] letters ->
    cluster shorts letters args opts args' -> reads strict first shorts longs args' opts' rest ->
    reads strict first shorts longs ((45 :: letters) :: args) (opts ++ opts') rest.

(** A leading plus sign among the short options, or the environment, asks for [first]. *)
Definition command_line (strict posix : bool) (shorts : text) (longs : list text) (args : list text)
    (opts : list (text * text)) (rest : list text) : Prop :=
  (exists s, shorts = 43 :: s /\ reads strict true s longs args opts rest) \/
  (~ prefix [43] shorts /\ reads strict posix shorts longs args opts rest).
