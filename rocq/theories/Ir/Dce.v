(** Dead code elimination: codon/cir/transform/cleanup/dead_code.cpp. *)
From Coq Require Import List ZArith Bool Floats.SpecFloat.
From Verif.Common Require Import Result Int64.
From Verif.Ir Require Import Num Sem.
Import ListNotations.
Local Open Scope Z_scope.

(** codon/cir/value.h getUsedValues: rebuild a node from its processed children *)
Definition map_kids (f : node -> node) (e : node) : node :=
  match e with
  | Const _ | VarV _ | Break | Continue => e
  | Call g args => Call g (map f args)
  | Ternary c a b => Ternary (f c) (f a) (f b)
  | Assign x e => Assign x (f e)
  | Series l => Series (map f l)
  | If c a b => If (f c) (f a) (f b)
  | While c b => While (f c) (f b)
  | ImpFor x a st b body => ImpFor x (f a) st (f b) (f body)
  | Return e => Return (f e)
  | Throw e => Throw (f e)
  | FlowI a v => FlowI (f a) (f v)
  | Try b x h fin => Try (f b) x (f h) (f fin)
  end.

Section Dce.
(** [hasSideEffect] of the nodes of the original program *)
Context (se : node -> bool).

(** codon/cir/util/operator.h:10-20 with childrenFirst = false, dead_code.cpp:25-101: each node is
    handled before the children of what replaces it.  [known] is false in copies made by the pass
    itself, which have no analysis results (side_effect.cpp:359: they count as having effects).
    An if without else is an if with an empty series. *)
Fixpoint dce (known : bool) (e : node) {struct e} : node :=
  match e with
  | Series l => Series ((fix go (l : list node) : list node :=
                  match l with
                  | [] => []
                  | a :: l => if known && negb (se a) then go l else dce known a :: go l
                  end) l)
  | If (Const (VBool c)) a b => if c then map_kids (dce false) a else map_kids (dce false) b
  | While (Const (VBool false)) _ => Series []
  | ImpFor x (Const (VInt i)) st (Const (VInt j)) body =>
      if ((st <? 0) && (i <=? j)) || ((0 <? st) && (j <=? i)) then Series []
      else ImpFor x (Const (VInt i)) st (Const (VInt j)) (dce known body)
  | Ternary (Const (VBool c)) a b => if c then map_kids (dce false) a else map_kids (dce false) b
  | _ => map_kids (dce known) e
  end.
End Dce.
