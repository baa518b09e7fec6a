(** Removal of bounds checks on one-dimensional arrays indexed in counting loops:
    codon/cir/transform/numpy/indexing.cpp, the loop it is applied to
    (codon/cir/llvm/llvisitor.cpp:2658-2700) and the two ways of indexing
    (stdlib/numpy/util.codon:222-228, stdlib/numpy/fusion.codon:807-813).

    Simplifications.  Coefficients are unbounded integers (int64_t in the code,
    whose overflow is undefined in C++).  The reaching-definition queries of
    [isOriginalLoopVar] and [check] (indexing.cpp:290-320, 350-392) are not
    modelled: their purpose is that a variable has one value throughout the
    loop, and the model gives it one.  The recognition of loop-variable aliases
    (indexing.cpp:322-333) is a parameter [alias]. *)
From Coq Require Import ZArith List Bool.
From Verif Require Import Common.Result Common.Int64.
Import ListNotations.
Open Scope Z_scope.
Open Scope bool_scope.

(** The expressions [parse] distinguishes.  [ELen] is len(v), [ESize] is v.size,
    [EOther] is any other expression, with its value. *)
Inductive iexpr : Type :=
| EConst (z : Z)
| EVar (v : nat)
| EAdd (a b : iexpr)
| ESub (a b : iexpr)
| ELen (v : nat)
| ESize (v : nat)
| EOther (z : Z).

(** Values of the integer variables and shapes of the array variables. *)
Record env : Type := mkEnv { ints : nat -> Z; shapes : nat -> list Z }.

Definition set_int (e : env) (v : nat) (z : Z) : env :=
  mkEnv (fun x => if Nat.eqb x v then z else ints e x) (shapes e).

(** ndarray.__len__: stdlib/numpy/ndarray.codon:1072-1075. *)
Definition len_of (sh : list Z) : Z := hd 0 sh.
(** ndarray.size: ndarray.codon:387-388, util.count. *)
Definition size_of (sh : list Z) : Z := fold_right Z.mul 1 sh.

(** Run-time value: int.__add__ and int.__sub__ wrap around
    (stdlib/internal/types/int.codon). *)
Fixpoint eval (e : env) (x : iexpr) : Z :=
  match x with
  | EConst z => z
  | EVar v => ints e v
  | EAdd a b => w64 (eval e a + eval e b)
  | ESub a b => w64 (eval e a - eval e b)
  | ELen v => len_of (shapes e v)
  | ESize v => size_of (shapes e v)
  | EOther z => z
  end.

(** Term: indexing.cpp:18-59.  [kint] is Kind::INT, [kvar] Kind::VAR and [klen]
    Kind::LEN with the id of the variable. *)
Inductive key : Type := kint | kvar (v : nat) | klen (v : nat).
Record term : Type := mkTerm { tk : key; tc : Z }.

Definition key_eqb (a b : key) : bool :=
  match a, b with
  | kint, kint => true
  | kvar v, kvar w | klen v, klen w => Nat.eqb v w
  | _, _ => false
  end.

(** Term::negate, Term::multiply: indexing.cpp:30-32. *)
Definition negate (t : term) : term := mkTerm (tk t) (- tc t).
Definition multiply (n : Z) (t : term) : term := mkTerm (tk t) (tc t * n).

(** Term::combine: indexing.cpp:34-41. *)
Definition combine (a b : term) : option term :=
  if key_eqb (tk a) (tk b) then Some (mkTerm (tk a) (tc a + tc b)) else None.

(** The inner loop of [simplify]: indexing.cpp:74-83. *)
Fixpoint absorb (t : term) (l : list term) : term * list term :=
  match l with
  | [] => (t, [])
  | u :: l' =>
      match combine t u with
      | Some t' => absorb t' l'
      | None => let '(t', r) := absorb t l' in (t', u :: r)
      end
  end.

(** The outer loop of [simplify]: indexing.cpp:73-84; [n] bounds the length. *)
Fixpoint combine_all (n : nat) (l : list term) : list term :=
  match n, l with
  | S n', t :: l' => let '(t', r) := absorb t l' in t' :: combine_all n' r
  | _, _ => l
  end.

(** simplify: indexing.cpp:70-89. *)
Definition simplify (l : list term) : list term :=
  filter (fun t => negb (tc t =? 0)) (combine_all (length l) l).

(** checkTotal: indexing.cpp:91-108; [None] is an early return of false. *)
Fixpoint total (l : list term) : option Z :=
  match l with
  | [] => Some 0
  | t :: l' =>
      match tk t with
      | kint => option_map (Z.add (tc t)) (total l')
      | kvar _ => if negb (tc t =? 0) then None else total l'
      | klen _ => total l'
      end
  end.
Definition checkTotal (l : list term) (strict : bool) : bool :=
  match total l with
  | None => false
  | Some n => if strict then 0 <? n else 0 <=? n
  end.

(** lessCheck: indexing.cpp:110-122. *)
Definition lessCheck (l1 l2 : list term) (strict : bool) : bool :=
  checkTotal (simplify (l2 ++ map negate l1)) strict.
(** lessThan, lessThanOrEqual: indexing.cpp:124-130. *)
Definition lessThan (l1 l2 : list term) : bool := lessCheck l1 l2 true.
Definition lessThanOrEqual (l1 l2 : list term) : bool := lessCheck l1 l2 false.

(** replaceLoopVariable: indexing.cpp:132-147. *)
Definition replaceLoopVariable (l : list term) (lv : nat) (rep : list term)
  : list term :=
  flat_map (fun t => if key_eqb (tk t) (kvar lv)
                     then map (multiply (tc t)) rep else [t]) l.

(** parse: indexing.cpp:167-215. *)
Fixpoint parse (x : iexpr) (neg : bool) : option (list term) :=
  let push t := Some [if neg then negate t else t] in
  match x with
  | EConst z => push (mkTerm kint z)
  | EVar v => push (mkTerm (kvar v) 1)
  | EAdd a b =>
      match parse a neg, parse b neg with
      | Some l, Some m => Some (l ++ m)
      | _, _ => None
      end
  | ESub a b =>
      match parse a neg, parse b (negb neg) with
      | Some l, Some m => Some (l ++ m)
      | _, _ => None
      end
  | ELen v => push (mkTerm (klen v) 1)
  | ESize v => push (mkTerm (klen v) 1)
  | EOther _ => None
  end.

(** indexing.cpp:394-403: aliases of the loop variable become the loop variable. *)
Definition unalias (alias : nat -> bool) (lv : nat) (t : term) : term :=
  match tk t with
  | kvar v => if alias v then mkTerm (kvar lv) (tc t) else t
  | _ => t
  end.

(** A loop [for lv in range(start, stop, step)] with an access [arr[idx]]. *)
Record access : Type := mkAccess {
  lv : nat; start : iexpr; stop : iexpr; step : Z; arr : nat; idx : iexpr }.

(** canElideBoundsCheck: indexing.cpp:335-416, and the parsing of the bounds in
    NumPyBoundsCheckElisionPass::visit (indexing.cpp:420-431). *)
Definition can_elide (alias : nat -> bool) (p : access) : bool :=
  if step p =? 0 then false else
  match parse (start p) false, parse (stop p) false, parse (idx p) false with
  | Some s, Some e, Some i =>
      let i := map (unalias alias (lv p)) i in
      let limit := [mkTerm (klen (arr p)) 1] in
      let terms1 := replaceLoopVariable i (lv p) s in
      let terms2 := replaceLoopVariable i (lv p) e in
      if 0 <? step p then
        lessThanOrEqual [mkTerm kint 0] terms1 && lessThanOrEqual terms2 limit
      else
        lessThan terms1 limit && lessThanOrEqual [mkTerm kint (-1)] terms2
  | _, _, _ => false
  end.

(** The values the loop body is run with (a break may end the loop earlier):
    ImperativeForFlow, llvisitor.cpp:2658-2700.  The bounds are evaluated once;
    the counter is compared before every iteration and wraps around. *)
Definition enters (stop step i : Z) : bool :=
  if 0 <? step then negb (stop <=? i) else negb (i <=? stop).
Inductive visits (start stop step : Z) : Z -> Prop :=
| visits_first : enters stop step start = true -> visits start stop step start
| visits_next i :
    visits start stop step i -> enters stop step (w64 (i + step)) = true ->
    visits start stop step (w64 (i + step)).

(** normalize_index: stdlib/numpy/util.codon:222-228. *)
Definition normalize_index (i n : Z) : res Z :=
  let i1 := if i <? 0 then w64 (i + n) else i in
  if (i1 <? 0) || (n <=? i1) then Raise IndexError else Ok i1.

(** The address read or written by arr[i] before the pass: _getset with one
    integer index, stdlib/numpy/indexing.codon:497-534. *)
Definition checked_address (n data stride i : Z) : res Z :=
  match normalize_index i n with
  | Ok k => Ok (w64 (data + w64 (stride * k)))
  | Raise x => Raise x
  | Undef => Undef
  | NoFuel => NoFuel
  end.

(** The address after it: _array1d_get_nocheck and _array1d_set_nocheck,
    stdlib/numpy/fusion.codon:807-813. *)
Definition unchecked_address (data stride i : Z) : Z :=
  w64 (data + w64 (stride * i)).
