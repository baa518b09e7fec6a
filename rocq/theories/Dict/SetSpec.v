(** What a set is: a list of elements no two of which are equal, of which only membership
    counts. Independent of the hash table. *)
From Coq Require Import List ZArith Bool Permutation.
From Verif.Common Require Import Result.
Import ListNotations.
Local Open Scope Z_scope.

Inductive sop (K B : Type) : Type :=
| SAdd (k : K) | SDiscard (k : K) | SRemove (k : K) | SPop | SIn (k : K) | SLen
| SItems | SClear | SResize (n : Z) | SCopy
| SUpdate (y : B)        (* a.update(y), a |= y *)
| SDifferenceUpdate (y : B) (* a -= y *)
| SIntersectionUpdate (y : B) (* a &= y *)
| SDifferenceUpdateSelf (* a -= a *)
| SIntersectionUpdateSelf (* a &= a *)
| SOr (y : B) | SAnd (y : B) | SSub (y : B) | SXor (y : B)
| SEq (y : B) | SLe (y : B) | SGe (y : B) | SLt (y : B) | SGt (y : B) | SDisjoint (y : B).
Arguments SAdd {K B} _. Arguments SDiscard {K B} _. Arguments SRemove {K B} _.
Arguments SPop {K B}. Arguments SIn {K B} _. Arguments SLen {K B}. Arguments SItems {K B}.
Arguments SClear {K B}. Arguments SResize {K B} _. Arguments SCopy {K B}.
Arguments SUpdate {K B} _. Arguments SDifferenceUpdate {K B} _.
Arguments SIntersectionUpdate {K B} _. Arguments SDifferenceUpdateSelf {K B}.
Arguments SIntersectionUpdateSelf {K B}.
Arguments SOr {K B} _. Arguments SAnd {K B} _. Arguments SSub {K B} _. Arguments SXor {K B} _.
Arguments SEq {K B} _. Arguments SLe {K B} _. Arguments SGe {K B} _. Arguments SLt {K B} _.
Arguments SGt {K B} _. Arguments SDisjoint {K B} _.

Inductive svalue (K B : Type) : Type :=
| SVNone | SVBool (b : bool) | SVInt (n : Z) | SVKey (k : K) | SVItems (l : list K)
| SVSet (y : B) | SVExn (e : exn).
Arguments SVNone {K B}. Arguments SVBool {K B} _. Arguments SVInt {K B} _.
Arguments SVKey {K B} _. Arguments SVItems {K B} _. Arguments SVSet {K B} _.
Arguments SVExn {K B} _.

Section SetSpec.
Context {K : Type} (eqb : K -> K -> bool).

(** Some element of [xs] equals [x]. *)
Definition mem (xs : list K) (x : K) : bool := existsb (fun k => eqb k x) xs.
Definition distinct (xs : list K) : Prop := ForallOrdPairs (fun a b => eqb a b = false) xs.

(** [is_set zs P]: [zs] is a set whose members are the [x] with [P x]. *)
Definition is_set (zs : list K) (P : K -> bool) : Prop :=
  distinct zs /\ forall x, mem zs x = P x.

Definition subset (xs ys : list K) : Prop := forall x, mem xs x = true -> mem ys x = true.
Definition same_set (xs ys : list K) : Prop := forall x, mem xs x = mem ys x.

Definition spec_sop (xs : list K) (o : sop K (list K)) (xs' : list K) (r : svalue K (list K)) : Prop :=
  match o with
  | SAdd k => r = SVNone /\ is_set xs' (fun x => mem xs x || eqb k x)
  | SDiscard k => r = SVNone /\ is_set xs' (fun x => mem xs x && negb (eqb k x))
  | SRemove k =>
      r = (if mem xs k then SVNone else SVExn KeyError) /\
      is_set xs' (fun x => mem xs x && negb (eqb k x))
  | SPop =>
      (xs = [] /\ xs' = [] /\ r = SVExn ValueError) \/
      (exists k, In k xs /\ r = SVKey k /\ is_set xs' (fun x => mem xs x && negb (eqb k x)))
  | SIn k => xs' = xs /\ r = SVBool (mem xs k)
  | SLen => xs' = xs /\ r = SVInt (Z.of_nat (length xs))
  | SItems => xs' = xs /\ exists l, Permutation l xs /\ r = SVItems l
  | SClear => r = SVNone /\ is_set xs' (fun _ => false)
  | SResize _ => xs' = xs /\ r = SVNone
  | SCopy => xs' = xs /\ r = SVSet xs
  | SUpdate ys => r = SVNone /\ is_set xs' (fun x => mem xs x || mem ys x)
  | SDifferenceUpdate ys => r = SVNone /\ is_set xs' (fun x => mem xs x && negb (mem ys x))
  | SIntersectionUpdate ys => r = SVNone /\ is_set xs' (fun x => mem xs x && mem ys x)
  | SDifferenceUpdateSelf => r = SVNone /\ is_set xs' (fun _ => false)
  | SIntersectionUpdateSelf => r = SVNone /\ is_set xs' (mem xs)
  | SOr ys => xs' = xs /\ exists zs, r = SVSet zs /\ is_set zs (fun x => mem xs x || mem ys x)
  | SAnd ys => xs' = xs /\ exists zs, r = SVSet zs /\ is_set zs (fun x => mem xs x && mem ys x)
  | SSub ys => xs' = xs /\ exists zs, r = SVSet zs /\ is_set zs (fun x => mem xs x && negb (mem ys x))
  | SXor ys => xs' = xs /\ exists zs, r = SVSet zs /\ is_set zs (fun x => xorb (mem xs x) (mem ys x))
  | SEq ys => xs' = xs /\ exists b, r = SVBool b /\ (b = true <-> same_set xs ys)
  | SLe ys => xs' = xs /\ exists b, r = SVBool b /\ (b = true <-> subset xs ys)
  | SGe ys => xs' = xs /\ exists b, r = SVBool b /\ (b = true <-> subset ys xs)
  | SLt ys => xs' = xs /\ exists b, r = SVBool b /\ (b = true <-> subset xs ys /\ ~ same_set xs ys)
  | SGt ys => xs' = xs /\ exists b, r = SVBool b /\ (b = true <-> subset ys xs /\ ~ same_set xs ys)
  | SDisjoint ys => xs' = xs /\ exists b, r = SVBool b /\ (b = true <-> forall x, mem xs x && mem ys x = false)
  end.

Inductive spec_srun : list K -> list (sop K (list K)) -> list (svalue K (list K)) -> list K -> Prop :=
| spec_snil xs : spec_srun xs [] [] xs
| spec_scons xs o xs1 r os rs xs2 :
    spec_sop xs o xs1 r -> spec_srun xs1 os rs xs2 -> spec_srun xs (o :: os) (r :: rs) xs2.
End SetSpec.
