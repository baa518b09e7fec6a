(** Assignments that unpack a value, as in Python. Values are integers, strings (bytes), tuples, lists (an
    address; lists can be shared and changed) and dictionaries with integer keys. *)
From Coq Require Import List ZArith Bool.
From Verif.Common Require Import Result.
Import ListNotations.
Local Open Scope res_scope.
Local Open Scope Z_scope.

Inductive value : Type :=
| VInt (i : Z) | VStr (s : list Z) | VTuple (l : list value) | VList (a : nat) | VDict (d : list (Z * value)).

(** The variables, and the contents of the lists *)
Record state : Type := State { var : nat -> value; heap : list (list value) }.
Definition set_var (x : nat) (v : value) (st : state) : state :=
  State (fun y => if Nat.eqb y x then v else var st y) (heap st).
Definition new_list (l : list value) (st : state) : value * state :=
  (VList (length (heap st)), State (var st) (heap st ++ [l])).

(** An index in a target: a constant or a variable *)
Inductive index : Type := IConst (i : Z) | IVar (x : nat).
(** Targets: [x], [x[i]], [(t, ..., t)], and [(t, ..., *t, t, ...)] *)
Inductive target : Type :=
| TVar (x : nat)
| TItem (x : nat) (i : index)
| TSeq (before : targets)
| TStar (before : targets) (star : target) (after : targets)
with targets : Type := TNil | TCons (t : target) (ts : targets).

Fixpoint size (ts : targets) : nat := match ts with TNil => O | TCons _ ts => S (size ts) end.
(** The variables that a target names, and whether it stores into a list *)
Fixpoint names (t : target) : list nat :=
  match t with
  | TVar x => [x] | TItem _ _ => [] | TSeq b => names_all b
  | TStar b s a => names_all b ++ names s ++ names_all a
  end
with names_all (ts : targets) : list nat := match ts with TNil => [] | TCons t ts => names t ++ names_all ts end.
Fixpoint stores (t : target) : bool :=
  match t with
  | TVar _ => false | TItem _ _ => true | TSeq b => stores_all b
  | TStar b s a => stores_all b || stores s || stores_all a
  end
with stores_all (ts : targets) : bool := match ts with TNil => false | TCons t ts => stores t || stores_all ts end.

(** [x[i] = v] on a list; negative indices count from the end *)
Fixpoint put {A} (n : nat) (v : A) (l : list A) : list A :=
  match n, l with O, _ :: l => v :: l | S n, x :: l => x :: put n v l | _, [] => [] end.
Definition place (n : nat) (i : Z) : res nat :=
  let j := if i <? 0 then i + Z.of_nat n else i in
  if (0 <=? j) && (j <? Z.of_nat n) then Ok (Z.to_nat j) else Raise IndexError.
Definition store (x : nat) (i : index) (v : value) (st : state) : res state :=
  match var st x, (match i with IConst i => VInt i | IVar y => var st y end) with
  | VList a, VInt i =>
      match nth_error (heap st) a with
      | None => Undef
      | Some l => j <- place (length l) i ;; Ok (State (var st) (put a (put j v l) (heap st)))
      end
  | _, _ => Raise TypeError
  end.

(** The items of a value. With [strict], a dictionary is refused, and so is a list if there are targets
    ([storing]) that store into lists. *)
Definition items (strict storing : bool) (v : value) (h : list (list value)) : res (list value) :=
  match v with
  | VInt _ => Raise TypeError
  | VStr s => Ok (map (fun c => VStr [c]) s)
  | VTuple l => Ok l
  | VList a => if strict && storing then Raise OtherError else match nth_error h a with Some l => Ok l | None => Undef end
  | VDict d => if strict then Raise OtherError else Ok (map (fun p => VInt (fst p)) d)
  end.

(** All items are taken first and counted, then the targets are assigned from left to right. *)
Fixpoint assign (strict : bool) (t : target) (v : value) (st : state) : res state :=
  match t with
  | TVar x => Ok (set_var x v st)
  | TItem x i => store x i v st
  | TSeq b =>
      l <- items strict (stores t) v (heap st) ;;
      if Nat.eqb (length l) (size b) then assign_all strict b l st else Raise ValueError
  | TStar b s a =>
      l <- items strict (stores t) v (heap st) ;;
      if Nat.leb (size b + size a) (length l) then
        let k := (length l - size b - size a)%nat in
        st <- assign_all strict b (firstn (size b) l) st ;;
        let (m, st) := new_list (firstn k (skipn (size b) l)) st in
        st <- assign strict s m st ;;
        assign_all strict a (skipn (size b + k) l) st
      else Raise ValueError
  end
with assign_all (strict : bool) (ts : targets) (l : list value) (st : state) : res state :=
  match ts, l with
  | TCons t ts, v :: l => st <- assign strict t v st ;; assign_all strict ts l st
  | _, _ => Ok st
  end.

(** The right-hand side: a variable, or an expression with this value *)
Inductive source : Type := FromVar (x : nat) | FromValue (v : value).
Definition source_value (r : source) (st : state) : value := match r with FromVar x => var st x | FromValue v => v end.
Definition assignment (strict : bool) (t : target) (r : source) (st : state) : res state := assign strict t (source_value r st) st.
