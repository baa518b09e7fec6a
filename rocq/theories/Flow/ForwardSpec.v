(** What forwarding must preserve: the value of each array expression it evaluates in one go. *)
From Coq Require Import List Bool Arith.
From Verif.Flow Require Import Graph Reach ReachProperties Forward.
Import ListNotations.

Section Sem.
(** Contents of arrays, the operations on them, and the leaves that are no variables. *)
Context {C : Type} (un : nat -> C -> C) (bin : nat -> C -> C -> C).
(** Variables refer to arrays; those below [top] are allocated. *)
Record state := State { env : nat -> nat; heap : nat -> C; top : nat }.
Context (val : nat -> state -> C).

(** The value of an expression when its leaves are evaluated in state [s]. *)
Fixpoint eval (e : nexpr) (s : state) : C :=
  match e with
  | NLeaf _ (VarLeaf x) => heap s (env s x)
  | NLeaf i (ValLeaf _) => val i s
  | NUn _ op l => un op (eval l s)
  | NBin _ op l r => bin op (eval l s) (eval r s)
  end.
Definition allocated (s : state) : Prop := forall x, env s x < top s.
(** Allocated arrays keep their contents. *)
Definition kept (s s' : state) : Prop := top s <= top s' /\ forall l, l < top s -> heap s' l = heap s l.
(** A leaf's value depends on its variables and on the allocated arrays only. *)
Definition local (i : nat) (vs : list nat) : Prop := forall s s', allocated s -> kept s s' ->
  (forall x, In x vs -> env s' x = env s x) -> val i s' = val i s.

Context (g : graph) (items : nat -> list item) (effect : nat -> bool) (units : list nunit).
(** Assigning an array expression stores a new array with its value; any other assignment stores some array.  A value
    without side effects may allocate; one with side effects may do anything to arrays, and to variables whose address is taken. *)
Inductive step : item -> state -> state -> Prop :=
| s_unit v x u s s' : ikind v = KDef x (Some (root (uexpr u))) -> In u units ->
    env s' x = top s -> (forall y, y <> x -> env s' y = env s y) ->
    kept s s' -> top s' = S (top s) -> heap s' (top s) = eval (uexpr u) s -> step v s s'
| s_def v x a s s' : ikind v = KDef x a -> (forall u, In u units -> a <> Some (root (uexpr u))) ->
    env s' x < top s' -> (forall y, y <> x -> env s' y = env s y) -> kept s s' -> step v s s'
| s_pure v s s' : (forall x, ~ assigns x v) -> effect (iid v) = false -> (forall y, env s' y = env s y) -> kept s s' -> step v s s'
| s_effect v s s' : (forall x, ~ assigns x v) -> effect (iid v) = true -> allocated s' -> top s <= top s' ->
    (forall y, ~ address_taken g items y -> env s' y = env s y) -> step v s s'.
Inductive steps : list item -> state -> state -> Prop :=
| steps_nil s : steps [] s s
| steps_cons v l s s' s'' : step v s s' -> steps l s' s'' -> steps (v :: l) s s''.
(** The same run of the function without the assignments [deleted]: [f] is what its variables hold.  Arrays are the same, each
    remaining assignment stores the same array. *)
Context (deleted : list nat).
Definition follow (v : item) (s' : state) (f : nat -> nat) : nat -> nat :=
  fun y => if memb (iid v) deleted then f y else if kills y v || memb y (invalid g items) then env s' y else f y.
Inductive both : list item -> state -> (nat -> nat) -> state -> (nat -> nat) -> Prop :=
| both_nil s f : both [] s f s f
| both_cons v l s f s' s'' f'' : step v s s' -> both l s' (follow v s' f) s'' f'' -> both (v :: l) s f s'' f''.
End Sem.
Arguments state C : clear implicits.
Arguments State {C} env heap top.

(** Neither an assignment of one of the variables, nor a side effect. *)
Definition quiet (effect : nat -> bool) (vs : list nat) (v : item) : Prop :=
  (forall x, assigns x v -> ~ In x vs) /\ ((forall x, ~ assigns x v) -> effect (iid v) = false).
