(** Integers as texts, independent of the code. *)
From Coq Require Import List ZArith Bool.
From Verif.Common Require Import Int64.
Import ListNotations.
Local Open Scope Z_scope.

(** [c] is the digit of value [d]: 0-9, a-z or A-Z. *)
Definition digit (c d : Z) : Prop :=
  (48 <= c <= 57 /\ d = c - 48) \/ (97 <= c <= 122 /\ d = c - 97 + 10) \/ (65 <= c <= 90 /\ d = c - 65 + 10).
(** [ds] is a numeral of [v] in the base: most significant digit first. *)
Inductive numeral (base : Z) : list Z -> Z -> Prop :=
| num_one c d : digit c d -> d < base -> numeral base [c] d
| num_more ds v c d : numeral base ds v -> digit c d -> d < base -> numeral base (ds ++ [c]) (v * base + d).
(** No zero in front, small letters. *)
Definition canonical (ds : list Z) : Prop :=
  (ds = [48] \/ hd 0 ds <> 48) /\ Forall (fun c => 48 <= c <= 57 \/ 97 <= c <= 122) ds.

Inductive sign : list Z -> Z -> Prop := sg_none : sign [] 1 | sg_plus : sign [43] 1 | sg_minus : sign [45] (-1).
Inductive base_prefix : Z -> list Z -> Prop :=
| bp_2 c : c = 98 \/ c = 66 -> base_prefix 2 [48; c]
| bp_8 c : c = 111 \/ c = 79 -> base_prefix 8 [48; c]
| bp_16 c : c = 120 \/ c = 88 -> base_prefix 16 [48; c].
(** What [int(text, base)] accepts, for a base from 2 to 36 (underscores between digits left out). *)
Definition literal (base : Z) (s : list Z) (v : Z) : Prop :=
  exists sg e pre ds m, s = sg ++ pre ++ ds /\ sign sg e /\ (pre = [] \/ base_prefix base pre) /\ numeral base ds m /\ v = e * m.
