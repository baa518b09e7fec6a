(** Model of for loops over ranges and lists: the loop over a generator
    (/repo/codon/cir/llvm/llvisitor.cpp:2600-2656), the counting loop (2658-2702) and the
    rewriting of one into the other (/repo/codon/cir/transform/lowering/imperative.cpp).

    Not modelled: parallel loops (see [Par]) and [coro.destroy], which has no effect here. *)
From Coq Require Import List ZArith Bool.
From Verif.Common Require Import Int64.
Import ListNotations.
Local Open Scope Z_scope.

Section For.
(** Program states, elements, references to lists, addresses, and what a statement that
    returns or raises leaves with. *)
Context {st V ref addr X : Type}.

(** How a statement ends.  Statements and expressions are relations: they may have any
    effect, be nondeterministic or run forever. *)
Inductive out := Norm | Brk | Cont | Exit (x : X).
Definition stmt := st -> st -> out -> Prop.
Inductive val (A : Type) := Val (a : A) | Fail (x : X).
Arguments Val {A}. Arguments Fail {A}.
Definition expr (A : Type) := st -> st -> val A -> Prop.

(** [self.len], [self.arr.ptr] and [p\[i\]] (collections/list.codon:193-199); a store to
    the loop variable; the exception of range.codon:24-25 *)
Context (len_of : ref -> st -> Z) (ptr_of : ref -> st -> addr) (load : addr -> Z -> st -> V).
Context (setz : Z -> st -> st) (setv : V -> st -> st) (value_error : X).

(** llvisitor.cpp:2600-2656.  [resume] is the generator: [None] if it is done, else the
    yielded value and its new state. *)
Inductive for_flow {A G} (resume : G -> st -> option (A * G)) (set : A -> st -> st) (body : stmt) : G -> stmt :=
| ff_done g s : resume g s = None -> for_flow resume set body g s s Norm
| ff_next g s a g' s1 o s2 o2 : resume g s = Some (a, g') -> body (set a s) s1 o -> (o = Norm \/ o = Cont) ->
    for_flow resume set body g' s1 s2 o2 -> for_flow resume set body g s s2 o2
| ff_break g s a g' s1 : resume g s = Some (a, g') -> body (set a s) s1 Brk -> for_flow resume set body g s s1 Norm
| ff_exit g s a g' s1 x : resume g s = Some (a, g') -> body (set a s) s1 (Exit x) -> for_flow resume set body g s s1 (Exit x).

(** llvisitor.cpp:2678-2702: [i] is the phi node *)
Definition imp_done (step stop i : Z) : bool := if 0 <? step then stop <=? i else i <=? stop.
Inductive imp_for (set : Z -> st -> st) (body : stmt) (step stop : Z) : Z -> stmt :=
| if_done i s : imp_done step stop i = true -> imp_for set body step stop i s s Norm
| if_next i s s1 o s2 o2 : imp_done step stop i = false -> body (set i s) s1 o -> (o = Norm \/ o = Cont) ->
    imp_for set body step stop (w64 (i + step)) s1 s2 o2 -> imp_for set body step stop i s s2 o2
| if_break i s s1 : imp_done step stop i = false -> body (set i s) s1 Brk -> imp_for set body step stop i s s1 Norm
| if_exit i s s1 x : imp_done step stop i = false -> body (set i s) s1 (Exit x) -> imp_for set body step stop i s s1 (Exit x).

(** range.codon:70-81 [range.__iter__]: suspended before the first value, or at [yield i] *)
Inductive rgen := RStart | RAt (i : Z).
Definition resume_range (start stop step : Z) (g : rgen) (_ : st) : option (Z * rgen) :=
  let i := match g with RStart => start | RAt i => w64 (i + step) end in
  if 0 <? step then (if i <? stop then Some (i, RAt i) else None)
  else (if stop <? i then Some (i, RAt i) else None).

(** collections/list.codon:193-199 [List.__iter__] *)
Inductive lgen := LStart (r : ref) | LAt (i n : Z) (p : addr).
Definition resume_list (g : lgen) (s : st) : option (V * lgen) :=
  let '(i, n, p) := match g with LStart r => (0, len_of r s, ptr_of r s) | LAt i n p => (w64 (i + 1), n, p) end in
  if i <? n then Some (load p i s, LAt i n p) else None.

(** Arguments of [range]: constants are [IntConst] nodes. *)
Inductive arg := AConst (z : Z) | AExpr (e : expr Z).
Definition eval_arg (a : arg) : expr Z :=
  match a with AConst z => fun s s' v => s' = s /\ v = Val z | AExpr e => e end.
(** Arguments are evaluated from left to right. *)
Inductive eval_args : list arg -> expr (list Z) :=
| ea_nil s : eval_args [] s s (Val [])
| ea_cons a l s s1 s2 z zs : eval_arg a s s1 (Val z) -> eval_args l s1 s2 (Val zs) -> eval_args (a :: l) s s2 (Val (z :: zs))
| ea_fail a l s s1 x : eval_arg a s s1 (Fail x) -> eval_args (a :: l) s s1 (Fail x)
| ea_fail2 a l s s1 s2 z x : eval_arg a s s1 (Val z) -> eval_args l s1 s2 (Fail x) -> eval_args (a :: l) s s2 (Fail x).

(** range.codon:11-26 [range.__new__] *)
Definition range_new (zs : list Z) : option (val (Z * Z * Z)) :=
  match zs with
  | [b] => Some (Val (0, b, 1))
  | [a; b] => Some (Val (a, b, 1))
  | [a; b; k] => Some (if k =? 0 then Fail value_error else Val (a, b, k))
  | _ => None (* no such constructor *)
  end.

(** The loops: over a range, over a list, and the two results of the rewriting. *)
Inductive flow :=
| ForRange (args : list arg) (body : stmt)
| ForList (e : expr ref) (body : stmt)
| ImpFor (start : arg) (step : Z) (stop : arg) (body : stmt)
| ImpList (e : expr ref) (body : stmt).

Inductive exec : flow -> stmt :=
| x_range args body s s1 zs a b k s2 o : eval_args args s s1 (Val zs) -> range_new zs = Some (Val (a, b, k)) ->
    for_flow (resume_range a b k) setz body RStart s1 s2 o -> exec (ForRange args body) s s2 o
| x_range_err args body s s1 zs x : eval_args args s s1 (Val zs) -> range_new zs = Some (Fail x) -> exec (ForRange args body) s s1 (Exit x)
| x_range_fail args body s s1 x : eval_args args s s1 (Fail x) -> exec (ForRange args body) s s1 (Exit x)
| x_list (e : expr ref) body s s1 r s2 o : e s s1 (Val r) -> for_flow resume_list setv body (LStart r) s1 s2 o -> exec (ForList e body) s s2 o
| x_list_fail (e : expr ref) body s s1 x : e s s1 (Fail x) -> exec (ForList e body) s s1 (Exit x)
(** llvisitor.cpp:2669-2673: start, then end *)
| x_imp a k b body s s1 i s2 n s3 o : eval_arg a s s1 (Val i) -> eval_arg b s1 s2 (Val n) -> imp_for setz body k n i s2 s3 o ->
    exec (ImpFor a k b body) s s3 o
| x_imp_fail a k b body s s1 x : eval_arg a s s1 (Fail x) -> exec (ImpFor a k b body) s s1 (Exit x)
| x_imp_fail2 a k b body s s1 i s2 x : eval_arg a s s1 (Val i) -> eval_arg b s1 s2 (Fail x) -> exec (ImpFor a k b body) s s2 (Exit x)
(** imperative.cpp:108-139: the list, its length and its pointer are kept in new variables,
    which are not part of the state; so is the new loop variable *)
| x_implist (e : expr ref) body s s1 r s2 o : e s s1 (Val r) ->
    imp_for (fun i s => setv (load (ptr_of r s1) i s) s) body 1 (len_of r s1) 0 s1 s2 o -> exec (ImpList e body) s s2 o
| x_implist_fail (e : expr ref) body s s1 x : e s s1 (Fail x) -> exec (ImpList e body) s s1 (Exit x).

(** imperative.cpp:63-143 [ImperativeForFlowLowering::handle] *)
Definition lower (f : flow) : flow :=
  match f with
  | ForRange [e] body => ImpFor (AConst 0) 1 e body
  | ForRange [a; e] body => ImpFor a 1 e body
  | ForRange [a; e; AConst k] body => if k =? 0 then f else ImpFor a k e body
  | ForList e body => ImpList e body
  | _ => f
  end.
End For.
Arguments Val {X A}. Arguments Fail {X A}. Arguments out : clear implicits. Arguments val : clear implicits.
