(** Run-time arithmetic of int, float and bool: the bodies of the magic methods in
    stdlib/internal/types/{int,float,bool}.codon and stdlib/internal/pynumerics.codon.

    [py] selects pynumerics.codon (Codon's -numerics=py mode).  Floats are IEEE binary64
    values of Coq's [SpecFloat] (round to nearest even, one NaN: payloads are not modelled).
    LLVM poison (a shift by 64 or more, an out-of-range float to int conversion) and
    immediate undefined behaviour ([sdiv] by zero or with overflow) are both [Undef]. *)
From Coq Require Import List ZArith Bool Floats.SpecFloat.
From Verif.Common Require Import Result Int64.
Import ListNotations.
Local Open Scope Z_scope.
Local Open Scope res_scope.

(** Types and values (one opaque constructor stands for all other types). *)
Inductive ty := TInt | TFloat | TBool | TNone | TObj (n : nat).
Inductive val := VInt (z : Z) | VFloat (f : spec_float) | VBool (b : bool) | VNone | VObj (t n : nat).

(** The magic methods the optimiser knows about. *)
Inductive magic :=
| Add | Sub | Mul | FloorDiv | TrueDiv | Mod | LShift | RShift | Pow | Xor | Or | And
| Eq | Ne | Lt | Le | Gt | Ge
| Pos | Neg | Invert | ToInt | ToFloat | ToBool.

Definition prec := 53.
Definition emax := 1024.
Definition fadd := SFadd prec emax.
Definition fsub := SFsub prec emax.
Definition fmul := SFmul prec emax.
Definition fdiv := SFdiv prec emax.
Definition fneg := SFopp.
(** int.codon:30-34 (sitofp) *)
Definition i2f (z : Z) : spec_float := binary_normalize prec emax z 0 false.
Definition fzero : spec_float := S754_zero false.
(** float.codon:44-48 (fptosi): truncation; out of range is poison *)
Definition ftrunc (f : spec_float) : option Z :=
  match f with
  | S754_zero _ => Some 0
  | S754_finite s m e => Some (cond_Zopp s (if 0 <=? e then Z.pos m * 2 ^ e else Z.pos m / 2 ^ (- e)))
  | _ => None
  end.
Definition in64b (z : Z) : bool := (min64 <=? z) && (z <=? max64).
Definition f2i (f : spec_float) : res Z :=
  match ftrunc f with Some z => if in64b z then Ok z else Undef | None => Undef end.

(** fcmp oeq/une/olt/ole/one *)
Definition foeq := SFeqb.
Definition fune a b := negb (SFeqb a b).
Definition folt := SFltb.
Definition fole := SFleb.
Definition fone a b := match SFcompare a b with Some Datatypes.Lt | Some Datatypes.Gt => true | _ => false end.

(** int.codon:153-158 and 190-195 (sdiv, srem) *)
Definition sdiv (a b : Z) : res Z :=
  if (b =? 0) || ((a =? min64) && (b =? -1)) then Undef else Ok (Z.quot a b).
Definition srem (a b : Z) : res Z :=
  if (b =? 0) || ((a =? min64) && (b =? -1)) then Undef else Ok (Z.rem a b).

(** pynumerics.codon:55-61 [_divmod_int_int] (the same as int.codon:172-179) *)
Definition divmod_int_int (a b : Z) : res (Z * Z) :=
  d <- sdiv a b ;;
  let m := w64 (a - w64 (d * b)) in
  if negb (m =? 0) && (Z.lxor b m <? 0) then Ok (w64 (d - 1), w64 (m + b)) else Ok (d, m).

(** int.codon:358-369 [_ipow]; 63 halvings take any exponent to 0 *)
Fixpoint ipow_loop (fuel : nat) (self exp result : Z) : res Z :=
  match fuel with
  | O => NoFuel
  | S fuel =>
      let result := if negb (Z.land exp 1 =? 0) then w64 (result * self) else result in
      let exp := Z.shiftr exp 1 in
      if exp =? 0 then Ok result else ipow_loop fuel (w64 (self * self)) exp result
  end.
Definition ipow (self exp : Z) : res Z := if exp <? 0 then Ok 0 else ipow_loop 64 self exp 1.

Section Ops.
(** Float operations with no executable model: floor division, modulo and power. *)
Context (fopq : magic -> spec_float -> spec_float -> spec_float) (fpowi : spec_float -> Z -> spec_float).
Context (py : bool).

Definition cmp_int (m : magic) (a b : Z) : option bool :=
  match m with
  | Eq => Some (a =? b) | Ne => Some (negb (a =? b)) | Lt => Some (a <? b) | Le => Some (a <=? b)
  | Gt => Some (b <? a) | Ge => Some (b <=? a) | _ => None
  end.
(** int.codon:64-75, 97-195, 207-229, 262-345, 371-373 and pynumerics.codon:87-123 *)
Definition int_int (m : magic) (a b : Z) : res val :=
  match m with
  | Add => Ok (VInt (w64 (a + b)))
  | Sub => Ok (VInt (w64 (a - b)))
  | Mul => Ok (VInt (w64 (a * b)))
  | FloorDiv => if py then (if b =? 0 then Raise ZeroDivisionError
                            else '(d, _) <- divmod_int_int a b ;; Ok (VInt d))
                else d <- sdiv a b ;; Ok (VInt d)
  | Mod => if py then (if b =? 0 then Raise ZeroDivisionError
                       else '(_, r) <- divmod_int_int a b ;; Ok (VInt r))
           else r <- srem a b ;; Ok (VInt r)
  | TrueDiv => if py && (b =? 0) then Raise ZeroDivisionError else Ok (VFloat (fdiv (i2f a) (i2f b)))
  | LShift => if (0 <=? b) && (b <? 64) then Ok (VInt (w64 (Z.shiftl a b))) else Undef
  | RShift => if (0 <=? b) && (b <? 64) then Ok (VInt (Z.shiftr a b)) else Undef
  | Pow => r <- ipow a b ;; Ok (VInt r)
  | Xor => Ok (VInt (Z.lxor a b))
  | Or => Ok (VInt (Z.lor a b))
  | And => Ok (VInt (Z.land a b))
  | _ => match cmp_int m a b with Some r => Ok (VBool r) | None => Undef end
  end.

(** float.codon:70-165, 271-276 and pynumerics.codon:126-163; [ne] is the comparison used
    for [!=] (float.codon:133-137 une, int.codon:276-281 one) *)
Definition flt_flt (ne : spec_float -> spec_float -> bool) (m : magic) (a b : spec_float) : res val :=
  match m with
  | Add => Ok (VFloat (fadd a b))
  | Sub => Ok (VFloat (fsub a b))
  | Mul => Ok (VFloat (fmul a b))
  | TrueDiv => if py && foeq b fzero then Raise ZeroDivisionError else Ok (VFloat (fdiv a b))
  | FloorDiv | Mod => if py && foeq b fzero then Raise ZeroDivisionError else Ok (VFloat (fopq m a b))
  | Pow => Ok (VFloat (fopq Pow a b))
  | Eq => Ok (VBool (foeq a b))
  | Ne => Ok (VBool (ne a b))
  | Lt => Ok (VBool (folt a b))
  | Le => Ok (VBool (fole a b))
  | Gt => Ok (VBool (folt b a))
  | Ge => Ok (VBool (fole b a))
  | _ => Undef
  end.

(** bool.codon:43-103 *)
Definition bool_bool (m : magic) (a b : bool) : res val :=
  match m with
  | Eq => Ok (VBool (eqb a b))
  | Ne => Ok (VBool (negb (eqb a b)))
  | Lt => Ok (VBool (negb a && b))
  | Le => Ok (VBool (negb a || b))
  | Gt => Ok (VBool (a && negb b))
  | Ge => Ok (VBool (a || negb b))
  | Xor => Ok (VBool (xorb a b))
  | Or => Ok (VBool (a || b))
  | And => Ok (VBool (a && b))
  | _ => Undef
  end.

Definition b2z (b : bool) : Z := if b then 1 else 0.

(** Binary magic methods by the types of the operands; int with float and float with int
    convert the int (int.codon:87-95, 105-110, ...; float.codon:417-479) *)
Definition bin_sem (m : magic) (a b : val) : res val :=
  match a, b with
  | VInt a, VInt b => int_int m a b
  | VInt a, VFloat b => flt_flt fone m (i2f a) b
  | VFloat a, VInt b => match m with Pow => Ok (VFloat (fpowi a b)) | _ => flt_flt fune m a (i2f b) end
  | VFloat a, VFloat b => flt_flt fune m a b
  | VBool a, VBool b => bool_bool m a b
  | VInt a, VBool b => match m with Add => Ok (VInt (w64 (a + b2z b))) | _ => Undef end
  | VFloat a, VBool b => match m with Add => Ok (VFloat (fadd a (i2f (b2z b)))) | _ => Undef end
  | _, _ => Undef
  end.

(** Unary magic methods: int.codon:27-60, 181-185; float.codon:44-68; bool.codon:25-33, 105-115 *)
Definition un_sem (m : magic) (a : val) : res val :=
  match m, a with
  | Pos, VInt z => Ok (VInt z)
  | Neg, VInt z => Ok (VInt (w64 (0 - z)))
  | Invert, VInt z => Ok (VInt (Z.lnot z))
  | Pos, VFloat f => Ok (VFloat f)
  | Neg, VFloat f => Ok (VFloat (fneg f))
  | Invert, VBool b => Ok (VBool (negb b))
  | ToInt, VInt z => Ok (VInt z)
  | ToInt, VFloat f => z <- f2i f ;; Ok (VInt z)
  | ToInt, VBool b => Ok (VInt (b2z b))
  | ToFloat, VInt z => Ok (VFloat (i2f z))
  | ToFloat, VFloat f => Ok (VFloat f)
  | ToFloat, VBool b => Ok (VFloat (i2f (b2z b)))
  | ToBool, VInt z => Ok (VBool (negb (z =? 0)))
  | ToBool, VFloat f => Ok (VBool (fune f fzero))
  | ToBool, VBool b => Ok (VBool b)
  | _, _ => Undef
  end.

Definition magic_sem (m : magic) (vs : list val) : res val :=
  match vs with
  | [a] => un_sem m a
  | [a; b] => bin_sem m a b
  | _ => Undef
  end.
End Ops.

(** Result types. *)
Definition is_cmp (m : magic) : bool := match m with Eq | Ne | Lt | Le | Gt | Ge => true | _ => false end.
Definition is_arith (m : magic) : bool :=
  match m with Add | Sub | Mul | FloorDiv | TrueDiv | Mod | Pow => true | _ => false end.
Definition is_bit (m : magic) : bool := match m with Xor | Or | And => true | _ => false end.
Definition bin_ty (m : magic) (a b : ty) : option ty :=
  match a, b with
  | TInt, TInt => if is_cmp m then Some TBool
                  else match m with
                       | TrueDiv => Some TFloat
                       | LShift | RShift => Some TInt
                       | _ => if is_arith m || is_bit m then Some TInt else None
                       end
  | TInt, TFloat | TFloat, TInt | TFloat, TFloat =>
      if is_cmp m then Some TBool else if is_arith m then Some TFloat else None
  | TInt, TBool => match m with Add => Some TInt | _ => None end
  | TFloat, TBool => match m with Add => Some TFloat | _ => None end
  | TBool, TBool => if is_cmp m || is_bit m then Some TBool else None
  | _, _ => None
  end.
Definition un_ty (m : magic) (a : ty) : option ty :=
  match m, a with
  | (Pos | Neg), (TInt | TFloat) => Some a
  | Invert, (TInt | TBool) => Some a
  | ToInt, (TInt | TFloat | TBool) => Some TInt
  | ToFloat, (TInt | TFloat | TBool) => Some TFloat
  | ToBool, (TInt | TFloat | TBool) => Some TBool
  | _, _ => None
  end.
Definition magic_ty (m : magic) (ts : list ty) : option ty :=
  match ts with [a] => un_ty m a | [a; b] => bin_ty m a b | _ => None end.

(** A value inhabits a type; ints are 64-bit. *)
Definition has_ty (v : val) (t : ty) : Prop :=
  match v, t with
  | VInt z, TInt => in64 z
  | VFloat _, TFloat | VBool _, TBool | VNone, TNone => True
  | VObj t _, TObj t' => t = t'
  | _, _ => False
  end.
