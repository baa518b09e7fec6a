(** Codon IR (codon/cir): the nodes the optimiser works on, and what they do.

    Every node is an expression that may also transfer control.  The meaning of each node is
    that of the code LLVMVisitor emits for it (codon/cir/llvm/llvisitor.cpp, lines cited).
    User functions, LLVM functions without model, allocation and I/O are [User] functions
    whose behaviour is a parameter; they may change global variables and the rest of the
    world but not the caller's locals (address-taken locals are not modelled).

    Simplifications: a try has one handler that catches everything (a handler can test the
    exception and throw it again) and no else; generators, pipelines and parallel loops are
    not modelled. *)
From Coq Require Import List ZArith Bool Floats.SpecFloat.
From Verif.Common Require Import Result Int64.
From Verif.Ir Require Import Num.
Import ListNotations.
Local Open Scope Z_scope.

(** codon/cir/var.h: a variable with its type *)
Record var := Var { vid : nat; vty : ty; vglobal : bool }.

(** A callee: a magic method resolved by the types of its arguments, or another function *)
Inductive fn := Magic (m : magic) (ts : list ty) | User (f : nat).

(** codon/cir/{const,value,instr,flow}.h *)
Inductive node :=
| Const (v : val)
| VarV (x : var)
| Call (f : fn) (args : list node)
| Ternary (c a b : node)
| Assign (x : var) (e : node)
| Series (l : list node)
| If (c a b : node)
| While (c body : node)
| ImpFor (x : var) (start : node) (step : Z) (stop : node) (body : node)
| Break
| Continue
| Return (e : node)
| Throw (e : node)
| FlowI (flow value : node)
| Try (body : node) (x : var) (handler : node) (fin : node).

(** How a node can end. *)
Inductive out := Val (v : val) | Brk | Cnt | Ret (v : val) | Exn (v : val) | UB.

Section Sem.
Context {W : Type}.
Context (fopq : magic -> spec_float -> spec_float -> spec_float) (fpowi : spec_float -> Z -> spec_float).
Context (py : bool).

Record state := St { loc : nat -> val; glo : nat -> val; wld : W }.
Definition get (s : state) (x : var) : val := if vglobal x then glo s (vid x) else loc s (vid x).
Definition put (f : nat -> val) (n : nat) (v : val) : nat -> val := fun k => if Nat.eqb k n then v else f k.
Definition set (s : state) (x : var) (v : val) : state :=
  if vglobal x then St (loc s) (put (glo s) (vid x) v) (wld s) else St (put (loc s) (vid x) v) (glo s) (wld s).

(** A user function: from arguments, globals and world to a value or an exception (or UB),
    with new globals and world; [None] is no result within the given fuel. *)
Definition ufun := nat -> list val -> (nat -> val) -> W -> option (out * (nat -> val) * W).
Context (uc : ufun).

Definition step_t := option (out * state).
Definition vbind (r : step_t) (k : val -> state -> step_t) : step_t :=
  match r with
  | Some (Val v, s) => k v s
  | r => r
  end.
Definition cond_b (v : val) (s : state) (k : bool -> step_t) : step_t :=
  match v with VBool b => k b | _ => Some (UB, s) end.

Definition exn_val (e : exn) : val := VObj 0 (match e with ZeroDivisionError => 1 | _ => 0 end).
Definition of_res (r : res val) (s : state) : step_t :=
  match r with
  | Ok v => Some (Val v, s)
  | Raise e => Some (Exn (exn_val e), s)
  | Undef => Some (UB, s)
  | NoFuel => None
  end.
Definition of_user (s : state) (r : option (out * (nat -> val) * W)) : step_t :=
  match r with
  | None => None
  | Some (o, g, w) =>
      match o with
      | Val _ | Exn _ | UB => Some (o, St (loc s) g w)
      | _ => Some (UB, St (loc s) g w)
      end
  end.

(** llvisitor.cpp:2574-2598: the condition is evaluated outside the loop's break scope *)
Fixpoint while_loop (n : nat) (c b : state -> step_t) (s : state) : step_t :=
  match n with
  | O => None
  | S n =>
      vbind (c s) (fun v s => cond_b v s (fun t =>
        if t then
          match b s with
          | Some (Val _, s) | Some (Cnt, s) => while_loop n c b s
          | Some (Brk, s) => Some (Val VNone, s)
          | r => r
          end
        else Some (Val VNone, s)))
  end.

(** llvisitor.cpp:2679-2699: the counter is a phi; the variable is stored at the body's start *)
Fixpoint for_loop (n : nat) (x : var) (i step stop : Z) (b : state -> step_t) (s : state) : step_t :=
  match n with
  | O => None
  | S n =>
      if (if 0 <? step then stop <=? i else i <=? stop) then Some (Val VNone, s)
      else
        match b (set s x (VInt i)) with
        | Some (Val _, s) | Some (Cnt, s) => for_loop n x (w64 (i + step)) step stop b s
        | Some (Brk, s) => Some (Val VNone, s)
        | r => r
        end
  end.

(** Flows have no value. *)
Definition no_val (r : step_t) : step_t := vbind r (fun _ s => Some (Val VNone, s)).

Definition fin_after (o : out) (r : step_t) : step_t :=
  match r with
  | Some (Val _, s) => Some (o, s)
  | r => r
  end.

(** [n] bounds the iterations of each loop. *)
Section Ev.
Context (n : nat).
Section Lists.
Context (ev : node -> state -> step_t).
(** llvisitor.cpp:3248-3262: arguments from left to right *)
Fixpoint evs (l : list node) (s : state) (acc : list val) (k : list val -> state -> step_t) : step_t :=
  match l with
  | [] => k (rev acc) s
  | e :: l => vbind (ev e s) (fun v s => evs l s (v :: acc) k)
  end.
Fixpoint ev_seq (l : list node) (s : state) : step_t :=
  match l with
  | [] => Some (Val VNone, s)
  | e :: l => vbind (ev e s) (fun _ s => ev_seq l s)
  end.
End Lists.

Definition call_fn (f : fn) (vs : list val) (s : state) : step_t :=
  match f with
  | Magic m _ => of_res (magic_sem fopq fpowi py m vs) s
  | User f => of_user s (uc f vs (glo s) (wld s))
  end.

Fixpoint ev (e : node) (s : state) {struct e} : step_t :=
  match e with
  | Const v => Some (Val v, s)
  | VarV x => Some (Val (get s x), s)
  | Call f args => evs ev args s [] (call_fn f)
  | Ternary c a b => vbind (ev c s) (fun v s => cond_b v s (fun t => if t then ev a s else ev b s))
  | Assign x e => vbind (ev e s) (fun v s => Some (Val VNone, set s x v))
  | Series l => ev_seq ev l s
  | If c a b => vbind (ev c s) (fun v s => cond_b v s (fun t => no_val (if t then ev a s else ev b s)))
  | While c b => while_loop n (ev c) (ev b) s
  | ImpFor x start step stop body =>
      vbind (ev start s) (fun i s => vbind (ev stop s) (fun j s =>
        match i, j with
        | VInt i, VInt j => for_loop n x i step j (ev body) s
        | _, _ => Some (UB, s)
        end))
  | Break => Some (Brk, s)
  | Continue => Some (Cnt, s)
  | Return e => vbind (ev e s) (fun v s => Some (Ret v, s))
  | Throw e => vbind (ev e s) (fun v s => Some (Exn v, s))
  | FlowI f v => vbind (ev f s) (fun _ s => ev v s)
  | Try body x handler fin =>
      let r := no_val match ev body s with
                      | Some (Exn v, s) => ev handler (set s x v)
                      | r => r
                      end in
      match r with
      | Some (UB, s) => Some (UB, s)
      | Some (o, s) => fin_after o (ev fin s)
      | None => None
      end
  end.
End Ev.
End Sem.
Arguments state : clear implicits.

(** The type of a node (codon/cir/value.h getType); [ret f] is the result type of function [f]. *)
Section Ty.
(** and [tenv] the type of each local ([false]) and global ([true]) variable *)
Context (ret : nat -> ty) (tenv : bool -> nat -> ty).
Definition wtv (x : var) : Prop := vty x = tenv (vglobal x) (vid x).
Definition ty_val (v : val) : ty :=
  match v with VInt _ => TInt | VFloat _ => TFloat | VBool _ => TBool | VNone => TNone | VObj t _ => TObj t end.
Fixpoint ty_of (e : node) : ty :=
  match e with
  | Const v => ty_val v
  | VarV x => vty x
  | Call (Magic m ts) _ => match magic_ty m ts with Some t => t | None => TNone end
  | Call (User f) _ => ret f
  | Ternary _ a _ => ty_of a
  | FlowI _ v => ty_of v
  | _ => TNone
  end.

(** Well-formed IR: magic methods get arguments of their types, and so on. *)
Fixpoint wt (e : node) : Prop :=
  match e with
  | Const v => has_ty v (ty_val v)
  | VarV x => wtv x
  | Break | Continue => True
  | Call f args =>
      fold_right (fun a P => wt a /\ P) True args /\
      match f with
      | Magic m ts => map ty_of args = ts /\ exists t, magic_ty m ts = Some t
      | User _ => True
      end
  | Ternary c a b => wt c /\ wt a /\ wt b /\ ty_of c = TBool /\ ty_of a = ty_of b
  | Assign x e => wtv x /\ wt e /\ ty_of e = vty x
  | Series l => fold_right (fun a P => wt a /\ P) True l
  | If c a b => wt c /\ wt a /\ wt b /\ ty_of c = TBool /\ ty_of a = TNone /\ ty_of b = TNone
  | While c b => wt c /\ wt b /\ ty_of c = TBool
  | ImpFor x a step b body => wtv x /\ wt a /\ wt b /\ wt body /\ ty_of a = TInt /\ ty_of b = TInt /\ vty x = TInt
  | Return e => wt e
  | Throw e => wt e /\ ty_of e = TObj 0
  | FlowI f v => wt f /\ wt v
  | Try body x h f => wtv x /\ wt body /\ wt h /\ wt f /\ vty x = TObj 0
  end.

Context {W : Type}.
Definition wt_state (s : state W) : Prop :=
  (forall i, has_ty (loc s i) (tenv false i)) /\ (forall i, has_ty (glo s i) (tenv true i)).
(** User functions keep global variables typed and return values of their type. *)
Definition wt_ufun (uc : ufun (W := W)) : Prop :=
  forall f vs g w o g' w', uc f vs g w = Some (o, g', w') -> (forall i, has_ty (g i) (tenv true i)) ->
  (forall i, has_ty (g' i) (tenv true i)) /\
  match o with Val v => has_ty v (ret f) | Exn v => has_ty v (TObj 0) | _ => True end.
End Ty.
