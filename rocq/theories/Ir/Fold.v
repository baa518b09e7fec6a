(** Constant folding: codon/cir/transform/folding/{rule.h, const_fold.cpp}, with the rewriter
    of codon/cir/transform/rewrite.h and the traversal of codon/cir/transform/pass.h.

    Arithmetic done by the compiler is C++ arithmetic.  Signed overflow is undefined there;
    [wrap = false] makes it [Undef], [wrap = true] is what the usual compilers emit. *)
From Coq Require Import List ZArith Bool Floats.SpecFloat.
From Verif.Common Require Import Result Int64.
From Verif.Ir Require Import Num Sem.
Import ListNotations.
Local Open Scope Z_scope.
Local Open Scope res_scope.

Definition magic_eqb (a b : magic) : bool :=
  match a, b with
  | Add, Add | Sub, Sub | Mul, Mul | FloorDiv, FloorDiv | TrueDiv, TrueDiv | Mod, Mod
  | LShift, LShift | RShift, RShift | Pow, Pow | Xor, Xor | Or, Or | And, And
  | Eq, Eq | Ne, Ne | Lt, Lt | Le, Le | Gt, Gt | Ge, Ge
  | Pos, Pos | Neg, Neg | Invert, Invert | ToInt, ToInt | ToFloat, ToFloat | ToBool, ToBool => true
  | _, _ => false
  end.
Definition ty_eqb (a b : ty) : bool :=
  match a, b with
  | TInt, TInt | TFloat, TFloat | TBool, TBool | TNone, TNone => true
  | TObj n, TObj m => Nat.eqb n m
  | _, _ => false
  end.
Fixpoint tys_eqb (a b : list ty) : bool :=
  match a, b with
  | [], [] => true
  | x :: a, y :: b => ty_eqb x y && tys_eqb a b
  | _, _ => false
  end.

Section Cpp.
Context (wrap : bool).
(** int64_t arithmetic of the compiler (C++20: shifts wrap, out-of-range amounts undefined) *)
Definition cpp (z : Z) : res Z := if in64b z then Ok z else if wrap then Ok (w64 z) else Undef.
Definition cpp_div (a b : Z) : res Z := if (b =? 0) || ((a =? min64) && (b =? -1)) then Undef else Ok (Z.quot a b).
Definition cpp_mod (a b : Z) : res Z := if (b =? 0) || ((a =? min64) && (b =? -1)) then Undef else Ok (Z.rem a b).
Definition cpp_shl (a b : Z) : res Z := if (0 <=? b) && (b <? 64) then Ok (w64 (Z.shiftl a b)) else Undef.
Definition cpp_shr (a b : Z) : res Z := if (0 <=? b) && (b <? 64) then Ok (Z.shiftr a b) else Undef.

(** const_fold.cpp:19-27 [pyDivmod] *)
Definition pyDivmod (self other : Z) : res (Z * Z) :=
  d <- cpp_div self other ;;
  t <- cpp (d * other) ;;
  m <- cpp (self - t) ;;
  if negb (m =? 0) && (Z.lxor other m <? 0) then
    m <- cpp (m + other) ;; d <- cpp (d - 1) ;; Ok (d, m)
  else Ok (d, m).

(** const_fold.cpp:100-115 [int_pow] *)
Fixpoint int_pow_loop (fuel : nat) (base exp result : Z) : res Z :=
  match fuel with
  | O => NoFuel
  | S fuel =>
      result <- (if negb (Z.land exp 1 =? 0) then cpp (result * base) else Ok result) ;;
      let exp := Z.shiftr exp 1 in
      if exp =? 0 then Ok result else base <- cpp (base * base) ;; int_pow_loop fuel base exp result
  end.
Definition int_pow (base exp : Z) : res Z := if exp <? 0 then Ok 0 else int_pow_loop 64 base exp 1.
End Cpp.

(** A rewrite rule: a replacement, nothing, or a compiler with undefined behaviour *)
Definition rule := node -> res (option node).

Section Rules.
Context (ret : nat -> ty).

(** codon/cir/util/irtools.cpp:31-61 [isCallOf] with argument types and method = true: the
    callee is method [m] of the first argument's type *)
Definition isCallOf (e : node) (m : magic) (inputs : list ty) (output : ty) : option (list node) :=
  match e with
  | Call (Magic m' ts) args =>
      if magic_eqb m' m && tys_eqb (map (ty_of ret) args) inputs && ty_eqb (ty_of ret e) output
         && match ts, inputs with t :: _, i :: _ => ty_eqb t i | _, _ => false end
      then Some args else None
  | _ => None
  end.
(** irtools.cpp:63-82, with two arguments and any output type *)
Definition isCallOf2 (e : node) (m : magic) : option (node * node) :=
  match e with
  | Call (Magic m' (t :: _)) [a; b] => if magic_eqb m' m && ty_eqb (ty_of ret a) t then Some (a, b) else None
  | _ => None
  end.

(** TemplatedConst<int64_t>, <double>, <bool> *)
Definition int_const (e : node) : option Z := match e with Const (VInt z) => Some z | _ => None end.
Definition flt_const (e : node) : option spec_float := match e with Const (VFloat f) => Some f | _ => None end.
Definition bool_const (e : node) : option bool := match e with Const (VBool b) => Some b | _ => None end.
Definition is_const (e : node) (z : Z) : bool := match int_const e with Some v => v =? z | None => false end.

(** rule.h:18-80 [SingleConstantCommutativeRule] on ints *)
Inductive kind := LEFT | RIGHT | COMMUTATIVE.
Definition left_kind (k : kind) : bool := match k with RIGHT => false | _ => true end.
Definition right_kind (k : kind) : bool := match k with LEFT => false | _ => true end.
Definition intSingleRule (val : Z) (calc : node -> node) (m : magic) (k : kind) : rule := fun e =>
  match isCallOf e m [TInt; TInt] TInt with
  | Some [a; b] =>
      if left_kind k && is_const a val then Ok (Some (calc b))
      else if right_kind k && is_const b val then Ok (Some (calc a))
      else Ok None
  | _ => Ok None
  end.
(** rule.h:46-51: the constant built is [val], not [newVal] *)
Definition to_val (val newVal : Z) (_ : node) : node := Const (VInt val).
Definition id_val (e : node) : node := e.

(** rule.h:82-131 [DoubleConstantBinaryRule]; const_fold.cpp:72-91 skips a zero on the right *)
Definition dbl {A} (get : node -> option A) (t : ty) (skip : A -> bool) (f : A -> A -> res val) (m : magic) (out : ty) : rule := fun e =>
  match isCallOf e m [t; t] out with
  | Some [a; b] =>
      match get a, get b with
      | Some x, Some y => if skip y then Ok None else v <- f x y ;; Ok (Some (Const v))
      | _, _ => Ok None
      end
  | _ => Ok None
  end.
Definition no_skip {A} (_ : A) : bool := false.
Definition ri (r : res Z) : res val := z <- r ;; Ok (VInt z).
Definition intToIntBinary f m := dbl int_const TInt no_skip (fun x y => ri (f x y)) m TInt.
Definition intToIntBinaryNoZeroRHS f m := dbl int_const TInt (fun y => y =? 0) (fun x y => ri (f x y)) m TInt.
Definition intToBoolBinary f m := dbl int_const TInt no_skip (fun x y => Ok (VBool (f x y))) m TBool.
Definition boolToBoolBinary f m := dbl bool_const TBool no_skip (fun x y => Ok (VBool (f x y))) m TBool.
Definition floatToFloatBinary f m := dbl flt_const TFloat no_skip (fun x y => Ok (VFloat (f x y))) m TFloat.
Definition floatToFloatBinaryNoZeroRHS f m := dbl flt_const TFloat (fun y => foeq y fzero) (fun x y => Ok (VFloat (f x y))) m TFloat.
Definition floatToBoolBinary f m := dbl flt_const TFloat no_skip (fun x y => Ok (VBool (f x y))) m TBool.

(** const_fold.cpp:29-70 [IntFloatBinaryRule] *)
Definition intFloat (f : spec_float -> spec_float -> val) (m : magic) (exclude : bool) : rule := fun e =>
  match isCallOf2 e m with
  | Some (a, b) =>
      match flt_const a, int_const b with
      | Some l, Some r => if exclude && (r =? 0) then Ok None else Ok (Some (Const (f l (i2f r))))
      | _, _ =>
          match int_const a, flt_const b with
          | Some l, Some r => if exclude && foeq r fzero then Ok None else Ok (Some (Const (f (i2f l) r)))
          | _, _ => Ok None
          end
      end
  | None => Ok None
  end.
Definition intFloatToFloatBinary f := intFloat (fun a b => VFloat (f a b)).
Definition intFloatToBoolBinary f m := intFloat (fun a b => VBool (f a b)) m false.

(** rule.h:133-175 [SingleConstantUnaryRule] *)
Definition unary {A} (get : node -> option A) (t : ty) (f : A -> res val) (m : magic) (out : ty) : rule := fun e =>
  match isCallOf e m [t] out with
  | Some [a] => match get a with Some x => v <- f x ;; Ok (Some (Const v)) | None => Ok None end
  | _ => Ok None
  end.
(** rule.h:177-234 [UnaryRule] with [id_val], and [NoOpRule] *)
Definition noOp (m : magic) (t : ty) : rule := fun e =>
  match isCallOf e m [t] t with Some [a] => Ok (Some a) | _ => Ok None end.
(** rule.h:236-267 [DoubleApplicationNoOpRule] *)
Definition doubleNoOp (m : magic) (t : ty) : rule := fun e =>
  match isCallOf e m [t] t with
  | Some [a] => match isCallOf a m [t] t with Some [b] => Ok (Some b) | _ => Ok None end
  | _ => Ok None
  end.

Context (wrap pyNumerics : bool) (fopq : magic -> spec_float -> spec_float -> spec_float).

(** const_fold.cpp:221-404 [registerStandardRules], in groups *)

(** Rules for one constant operand which keep the other one *)
Definition identity_rules : list rule := [
  intSingleRule 1 id_val Mul COMMUTATIVE;
  intSingleRule 0 id_val Sub RIGHT;
  intSingleRule 0 id_val Add COMMUTATIVE;
  intSingleRule 1 id_val FloorDiv RIGHT;
  noOp Pos TInt;
  doubleNoOp Neg TInt;
  doubleNoOp Invert TInt;
  noOp ToInt TInt; noOp ToFloat TFloat; noOp ToBool TBool ].
(** Rules which drop the other operand *)
Definition mul_zero : rule := intSingleRule 0 (to_val 0 0) Mul COMMUTATIVE.
Definition zero_floordiv : rule := intSingleRule 0 (to_val 0 0) FloorDiv LEFT.
(** Rules for constant operands *)
Definition int_rules : list rule := [
  intToIntBinary (fun x y => cpp wrap (x + y)) Add;
  intToIntBinary (fun x y => cpp wrap (x - y)) Sub;
  (if pyNumerics then intToIntBinaryNoZeroRHS (fun x y => '(d, _) <- pyDivmod wrap x y ;; Ok d) FloorDiv
   else intToIntBinaryNoZeroRHS cpp_div FloorDiv);
  intToIntBinary (fun x y => cpp wrap (x * y)) Mul;
  intToIntBinary cpp_shl LShift;
  intToIntBinary cpp_shr RShift;
  intToIntBinary (int_pow wrap) Pow;
  intToIntBinary (fun x y => Ok (Z.lxor x y)) Xor;
  intToIntBinary (fun x y => Ok (Z.lor x y)) Or;
  intToIntBinary (fun x y => Ok (Z.land x y)) And;
  (if pyNumerics then intToIntBinaryNoZeroRHS (fun x y => '(_, m) <- pyDivmod wrap x y ;; Ok m) Mod
   else intToIntBinaryNoZeroRHS cpp_mod Mod);
  intToBoolBinary (fun x y => x =? y) Eq;
  intToBoolBinary (fun x y => negb (x =? y)) Ne;
  intToBoolBinary (fun x y => y <? x) Gt;
  intToBoolBinary (fun x y => y <=? x) Ge;
  intToBoolBinary (fun x y => x <? y) Lt;
  intToBoolBinary (fun x y => x <=? y) Le;
  unary int_const TInt (fun x => Ok (VInt x)) Pos TInt;
  unary int_const TInt (fun x => ri (cpp wrap (- x))) Neg TInt;
  unary int_const TInt (fun x => Ok (VInt (Z.lnot x))) Invert TInt ].
Definition bool_rules : list rule := [
  boolToBoolBinary xorb Xor;
  boolToBoolBinary orb Or;
  boolToBoolBinary andb And;
  unary bool_const TBool (fun x => Ok (VBool (negb x))) Invert TBool ].
Definition float_rules : list rule := [
  unary flt_const TFloat (fun x => Ok (VFloat x)) Pos TFloat;
  unary flt_const TFloat (fun x => Ok (VFloat (fneg x))) Neg TFloat;
  floatToFloatBinary fadd Add;
  floatToFloatBinary fsub Sub;
  (if pyNumerics then floatToFloatBinaryNoZeroRHS fdiv TrueDiv else floatToFloatBinary fdiv TrueDiv);
  floatToFloatBinary fmul Mul;
  floatToFloatBinary (fopq Pow) Pow;
  floatToBoolBinary foeq Eq;
  floatToBoolBinary fune Ne;
  floatToBoolBinary (fun x y => folt y x) Gt;
  floatToBoolBinary (fun x y => fole y x) Ge;
  floatToBoolBinary folt Lt;
  floatToBoolBinary fole Le ].
Definition int_float_ne : rule := intFloatToBoolBinary fune Ne.
Definition int_float_rules : list rule := [
  intFloatToFloatBinary fadd Add false;
  intFloatToFloatBinary fsub Sub false;
  intFloatToFloatBinary fdiv TrueDiv pyNumerics;
  intFloatToFloatBinary fmul Mul false;
  intFloatToBoolBinary foeq Eq;
  intFloatToBoolBinary (fun x y => folt y x) Gt;
  intFloatToBoolBinary (fun x y => fole y x) Ge;
  intFloatToBoolBinary folt Lt;
  intFloatToBoolBinary fole Le ].
Definition convert_rules : list rule := [
  unary flt_const TFloat (fun x => ri (f2i x)) ToInt TInt;
  unary bool_const TBool (fun x => Ok (VInt (b2z x))) ToInt TInt;
  unary int_const TInt (fun x => Ok (VFloat (i2f x))) ToFloat TFloat;
  unary bool_const TBool (fun x => Ok (VFloat (i2f (b2z x)))) ToFloat TFloat;
  unary int_const TInt (fun x => Ok (VBool (negb (x =? 0)))) ToBool TBool;
  unary flt_const TFloat (fun x => Ok (VBool (fune x fzero))) ToBool TBool ].
Definition const_rules : list rule := int_rules ++ bool_rules ++ float_rules ++ int_float_rules ++ convert_rules.
(** All rules, and all but the three shown not to preserve behaviour *)
Definition safe_rules : list rule := identity_rules ++ const_rules.
Definition standard_rules : list rule := mul_zero :: zero_floordiv :: int_float_ne :: safe_rules.
End Rules.

(** rewrite.h:52-62 [Rewriter::rewrite]: every rule once, on the running result.  The rules
    are kept in a hash table: their order is unspecified. *)
Fixpoint rewrite (rules : list rule) (e : node) : res node :=
  match rules with
  | [] => Ok e
  | r :: rules => o <- r e ;; rewrite rules (match o with Some e' => e' | None => e end)
  end.

Section Pass.
Context (handle : node -> node -> res node).
Section Lists.
Context (f : node -> res node).
Fixpoint map_res (l : list node) : res (list node) :=
  match l with [] => Ok [] | e :: l => e <- f e ;; l <- map_res l ;; Ok (e :: l) end.
End Lists.
(** codon/cir/util/operator.h:10-20, 78-88, 183-205 with childrenFirst = true: [handle] on each
    node after its children; it is given the node as it was and with its new children *)
Fixpoint bottom_up (e : node) : res node :=
  e1 <- match e with
       | Const _ | VarV _ | Break | Continue => Ok e
       | Call f args => args <- map_res bottom_up args ;; Ok (Call f args)
       | Ternary c a b => c <- bottom_up c ;; a <- bottom_up a ;; b <- bottom_up b ;; Ok (Ternary c a b)
       | Assign x e => e <- bottom_up e ;; Ok (Assign x e)
       | Series l => l <- map_res bottom_up l ;; Ok (Series l)
       | If c a b => c <- bottom_up c ;; a <- bottom_up a ;; b <- bottom_up b ;; Ok (If c a b)
       | While c b => c <- bottom_up c ;; b <- bottom_up b ;; Ok (While c b)
       | ImpFor x a st b body => a <- bottom_up a ;; b <- bottom_up b ;; body <- bottom_up body ;; Ok (ImpFor x a st b body)
       | Return e => e <- bottom_up e ;; Ok (Return e)
       | Throw e => e <- bottom_up e ;; Ok (Throw e)
       | FlowI f v => f <- bottom_up f ;; v <- bottom_up v ;; Ok (FlowI f v)
       | Try b x h f => b <- bottom_up b ;; h <- bottom_up h ;; f <- bottom_up f ;; Ok (Try b x h f)
       end ;;
  handle e e1.
End Pass.

(** const_fold.cpp:219 [FoldingPass::handle]: calls only *)
Definition fold_handle (rules : list rule) (_ e : node) : res node :=
  match e with Call _ _ => rewrite rules e | _ => Ok e end.
Definition fold_pass (rules : list rule) : node -> res node := bottom_up (fold_handle rules).
