(** What a dictionary is: a finite list of (key, value) pairs without equal keys, the
    order of which means nothing. Independent of the hash table. *)
From Coq Require Import List ZArith Bool Permutation.
From Verif.Common Require Import Result.
Import ListNotations.
Local Open Scope Z_scope.

(** Operations and results; [B] is the type of dict operands and dict results. *)
Inductive op (K V B : Type) : Type :=
| OSet (k : K) (v : V)        (* d[k] = v *)
| OGet (k : K)                (* d[k] *)
| ODel (k : K)                (* del d[k] *)
| OIn (k : K)                 (* k in d *)
| OGetOr (k : K) (d : V)      (* d.get(k, d) *)
| OGetOpt (k : K)             (* d.get(k) *)
| OSetDefault (k : K) (v : V) (* d.setdefault(k, v) *)
| OIncr (k : K) (v : V)       (* d.increment(k, v) *)
| OPop (k : K)                (* d.pop(k) *)
| OPopItem                    (* d.popitem() *)
| OItems                      (* list(d.items()) *)
| OLen                        (* len(d) *)
| OClear                      (* d.clear() *)
| OResize (n : Z)             (* d.resize(n) *)
| OUpdate (y : B)             (* d.update(y), d |= y, for another dict y *)
| OUpdateSeq (l : list (K * V)) (* d.update(pairs) *)
| OCopy                       (* d.copy() *)
| OInit                       (* dict(d) *)
| OOr (y : B)                 (* d | y *)
| OEq (y : B).                (* d == y *)
Arguments OSet {K V B} _ _. Arguments OGet {K V B} _. Arguments ODel {K V B} _.
Arguments OIn {K V B} _. Arguments OGetOr {K V B} _ _. Arguments OGetOpt {K V B} _.
Arguments OSetDefault {K V B} _ _. Arguments OIncr {K V B} _ _. Arguments OPop {K V B} _.
Arguments OPopItem {K V B}. Arguments OItems {K V B}. Arguments OLen {K V B}.
Arguments OClear {K V B}. Arguments OResize {K V B} _. Arguments OUpdate {K V B} _.
Arguments OUpdateSeq {K V B} _. Arguments OCopy {K V B}. Arguments OInit {K V B}.
Arguments OOr {K V B} _. Arguments OEq {K V B} _.

Inductive value (K V B : Type) : Type :=
| VNone | VVal (v : V) | VOpt (v : option V) | VBool (b : bool) | VInt (n : Z)
| VItems (l : list (K * V)) | VPair (k : K) (v : V) | VDict (y : B) | VExn (e : exn).
Arguments VNone {K V B}. Arguments VVal {K V B} _. Arguments VOpt {K V B} _.
Arguments VBool {K V B} _. Arguments VInt {K V B} _. Arguments VItems {K V B} _.
Arguments VPair {K V B} _ _. Arguments VDict {K V B} _. Arguments VExn {K V B} _.

Section Spec.
Context {K V : Type} (eqb : K -> K -> bool) (veq : V -> V -> bool) (plus : V -> V -> V).

Definition dict := list (K * V).

(** The value stored under a key equal to [k]. *)
Fixpoint lookup (m : dict) (k : K) : option V :=
  match m with
  | [] => None
  | (k', v) :: m => if eqb k' k then Some v else lookup m k
  end.
(** [m] with [v] under [k]; an equal key already there is kept. *)
Fixpoint store (m : dict) (k : K) (v : V) : dict :=
  match m with
  | [] => [(k, v)]
  | (k', v') :: m => if eqb k' k then (k', v) :: m else (k', v') :: store m k v
  end.
(** [m] without [k]. *)
Definition remove (m : dict) (k : K) : dict := filter (fun e => negb (eqb (fst e) k)) m.
Definition storeall (m : dict) (l : list (K * V)) : dict :=
  fold_left (fun m e => store m (fst e) (snd e)) l m.
(** Two dicts with the same keys and equal values. *)
Definition same_dict (m y : dict) : bool :=
  (Z.of_nat (length m) =? Z.of_nat (length y)) &&
  forallb (fun e => match lookup y (fst e) with Some w => veq w (snd e) | None => false end) m.

(** [spec_op m o m' r]: on dict [m], operation [o] may leave [m'] and give [r]. *)
Definition spec_op (m : dict) (o : op K V dict) (m' : dict) (r : value K V dict) : Prop :=
  match o with
  | OSet k v => m' = store m k v /\ r = VNone
  | OGet k => m' = m /\ r = match lookup m k with Some v => VVal v | None => VExn KeyError end
  | ODel k => m' = remove m k /\ r = match lookup m k with Some _ => VNone | None => VExn KeyError end
  | OIn k => m' = m /\ r = VBool (match lookup m k with Some _ => true | None => false end)
  | OGetOr k d => m' = m /\ r = VVal (match lookup m k with Some v => v | None => d end)
  | OGetOpt k => m' = m /\ r = VOpt (lookup m k)
  | OSetDefault k v =>
      match lookup m k with
      | Some w => m' = m /\ r = VVal w
      | None => m' = store m k v /\ r = VVal v
      end
  | OIncr k v =>
      r = VNone /\
      m' = store m k (match lookup m k with Some w => plus w v | None => v end)
  | OPop k => m' = remove m k /\ r = match lookup m k with Some v => VVal v | None => VExn KeyError end
  | OPopItem =>
      (m = [] /\ m' = [] /\ r = VExn KeyError) \/
      (exists k v, In (k, v) m /\ m' = remove m k /\ r = VPair k v)
  | OItems => m' = m /\ exists l, Permutation l m /\ r = VItems l
  | OLen => m' = m /\ r = VInt (Z.of_nat (length m))
  | OClear => m' = [] /\ r = VNone
  | OResize _ => m' = m /\ r = VNone
  | OUpdate y => r = VNone /\ exists l, Permutation l y /\ m' = storeall m l
  | OUpdateSeq l => r = VNone /\ m' = storeall m l
  | OCopy => m' = m /\ r = VDict m
  | OInit => m' = m /\ r = VDict m
  | OOr y => m' = m /\ exists l, Permutation l y /\ r = VDict (storeall m l)
  | OEq y => m' = m /\ r = VBool (same_dict m y)
  end.

Inductive spec_run : dict -> list (op K V dict) -> list (value K V dict) -> dict -> Prop :=
| spec_nil m : spec_run m [] [] m
| spec_cons m o m1 r os rs m2 :
    spec_op m o m1 r -> spec_run m1 os rs m2 -> spec_run m (o :: os) (r :: rs) m2.
End Spec.
