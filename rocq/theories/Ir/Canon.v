(** Canonicalisation: codon/cir/transform/cleanup/canonical.cpp. *)
From Coq Require Import List ZArith Bool Floats.SpecFloat.
From Verif.Common Require Import Result Int64.
From Verif.Ir Require Import Num Sem Fold.
Import ListNotations.

(** lines 63-76 with the attributes in stdlib/internal/types/int.codon:80-103, 121-135, 203-223,
    float.codon:69-85, 417-433 and bool.codon:83-103 *)
Definition commutative (m : magic) (ts : list ty) : bool :=
  match m, ts with
  | Add, [TInt; (TInt | TFloat | TBool)] | Add, [TFloat; (TInt | TFloat | TBool)] => true
  | Mul, [TInt; (TInt | TFloat)] | Mul, [TFloat; (TInt | TFloat)] => true
  | (And | Or | Xor), [TInt; TInt] | (And | Or | Xor), [TBool; TBool] => true
  | _, _ => false
  end.
Definition associative (m : magic) (ts : list ty) : bool :=
  match m, ts with
  | Add, [TInt; (TInt | TBool)] | Mul, [TInt; TInt] => true
  | (And | Or | Xor), [TInt; TInt] | (And | Or | Xor), [TBool; TBool] => true
  | _, _ => false
  end.
Definition distributive (m : magic) (ts : list ty) : bool :=
  match m, ts with Mul, [TInt; TInt] => true | _, _ => false end.

Section Canon.
Context (ret : nat -> ty).
Notation ty_of := (ty_of ret).
(** lines 99-110 [orderOperands]: sorts by rank, hash and address; some permutation *)
Context (order : list node -> list node).
(** line 161: whether the left operand ranks above the right one *)
Context (gt : node -> node -> bool).
(** codon/cir/util/matching.cpp: whether the result is what is already there *)
Context (matches : node -> node -> bool).

(** codon/cir/value.cpp:13-91, 131-141 [doBinaryOp]: a call of the method of the first operand's
    type for the operands' types, if there is one *)
Definition mk (m : magic) (a b : node) : option node :=
  match bin_ty m (ty_of a) (ty_of b) with
  | Some _ => Some (Call (Magic m [ty_of a; ty_of b]) [a; b])
  | None => None
  end.
Definition result (e : node) (n : option node) : res (option node) :=
  match n with
  | Some e' => Ok (if ty_eqb (ty_of e') (ty_of e) && negb (matches e e') then Some e' else None)
  | None => Ok None
  end.

(** lines 87-97 *)
Fixpoint extract (m : magic) (t : ty) (e : node) : list node :=
  match e with
  | Call _ [a; b] => if isCallOf ret e m [t; t] t then extract m t a ++ extract m t b else [e]
  | _ => [e]
  end.
(** lines 112-143 *)
Definition CanonOpChain : rule := fun e =>
  match e with
  | Call (Magic m ts) args =>
      let t := ty_of e in
      match isCallOf ret e m [t; t] t, args with
      | Some _, [a; b] =>
          let l := if associative m ts then extract m t e else [a; b] in
          let l := if commutative m ts then order l else l in
          match l with
          | x :: y :: l =>
              let new := fold_left (fun c z => Call (Magic m ts) [c; z]) l (Call (Magic m ts) [x; y]) in
              Ok (if matches e new then None else Some new)
          | _ => Undef
          end
      | _, _ => Ok None
      end
  | _ => Ok None
  end.

(** lines 163-177 *)
Definition flip_op (m : magic) : option magic :=
  match m with Eq => Some Eq | Ne => Some Ne | Lt => Some Gt | Le => Some Ge | Gt => Some Lt | Ge => Some Le | _ => None end.
(** lines 148-184 *)
Definition CanonInequality : rule := fun e =>
  match e with
  | Call (Magic m ts) [lhs; rhs] =>
      match flip_op m with
      | Some m' => if gt lhs rhs then result e (mk m' rhs lhs) else Ok None
      | None => Ok None
      end
  | _ => Ok None
  end.

(** lines 189-193 *)
Definition varMatch (a b : node) : bool :=
  match a, b with
  | VarV x, VarV y => Bool.eqb (vglobal x) (vglobal y) && Nat.eqb (vid x) (vid y)
  | _, _ => false
  end.
Definition commutative_op (e : node) : bool := match e with Call (Magic m ts) _ => commutative m ts | _ => false end.
Definition distributive_op (e : node) : bool := match e with Call (Magic m ts) _ => distributive m ts | _ => false end.
(** the sum or product either way round, lines 204-217 *)
Definition mk_either (m : magic) (a b : node) : option node :=
  match mk m a b with
  | Some y => Some y
  | None => match mk m b a with Some y => if commutative_op y then Some y else None | None => None end
  end.
(** lines 200-223 *)
Definition addMul (a b x : node) : option node :=
  match mk_either Add a b with Some y => mk_either Mul y x | None => None end.
(** lines 238-256 *)
Definition factors (e : node) : node * node :=
  match isCallOf2 ret e Mul with Some (a, b) => (a, b) | None => (e, Const (VInt 1)) end.
(** lines 225-273 *)
Definition CanonAddMul : rule := fun e =>
  match isCallOf2 ret e Add with
  | Some (lhs, rhs) =>
      if commutative_op e then
        let '(lhs1, lhs2) := factors lhs in
        let '(rhs1, rhs2) := factors rhs in
        let new := if varMatch lhs1 rhs1 then addMul lhs2 rhs2 lhs1
                   else if varMatch lhs1 rhs2 then addMul lhs2 rhs1 lhs1
                   else if varMatch lhs2 rhs1 then addMul lhs1 rhs2 lhs2
                   else if varMatch lhs2 rhs2 then addMul lhs1 rhs1 lhs2
                   else None in
        match new with
        | Some e' => if distributive_op e' then result e new else Ok None
        | None => Ok None
        end
      else Ok None
  | None => Ok None
  end.

(** lines 278-305 *)
Definition CanonConstSub : rule := fun e =>
  match isCallOf2 ret e Sub with
  | Some (lhs, rhs) =>
      if ty_eqb (ty_of lhs) (ty_of rhs) then
        match rhs with
        | Const (VInt c) => if Z.eqb c min64 then Ok None else result e (mk Add lhs (Const (VInt (- c)%Z)))
        | Const (VFloat c) => result e (mk Add lhs (Const (VFloat (fneg c))))
        | _ => Ok None
        end
      else Ok None
  | None => Ok None
  end.

(** lines 344-349; the rules run in the order of an unordered map *)
Definition canon_rules : list rule := [CanonOpChain; CanonInequality; CanonAddMul; CanonConstSub].

(** lines 323-342: the elements that replace one element of a series *)
Fixpoint flat (e : node) : list node :=
  match e with
  | Series l => l
  | FlowI f v => flat f ++ flat v
  | _ => [e]
  end.

(** lines 317-342; [se] is [hasSideEffect] *)
Context (se : node -> bool).
Definition canon_handle (rules : list rule) (e0 e : node) : res node :=
  match e with
  | Call _ _ => if se e0 then Ok e else rewrite rules e
  | Series l => Ok (Series (flat_map flat l))
  | _ => Ok e
  end.
Definition canon_pass (rules : list rule) : node -> res node := bottom_up (canon_handle rules).
End Canon.
