(** What a function does, as far as assignments and reads of its variables go: a nondeterministic
    semantics of the trees of Cfg.v that does not mention the graph, and the shape of trees for which
    the graph is right. *)
From Coq Require Import List Bool Arith.
From Verif.Flow Require Import Graph Reach Cfg.
Import ListNotations.

(** How a run of a node ends: normally, by a jump, by a return, with an exception; or it is
    observed in the middle. *)
Inductive outcome := Norm | Brk (l : option nat) | Cnt (l : option nat) | End | Exc | Part.
(** An instruction may raise, other than reading a variable or a constant. *)
Definition ends (o : outcome) : Prop := o = Norm \/ o = Exc.
(** A jump without a target goes to the innermost loop. *)
Definition hits (lid : nat) (t : option nat) : Prop := t = None \/ t = Some lid.
Definition again (lid : nat) (o : outcome) : Prop := o = Norm \/ exists t, hits lid t /\ o = Cnt t.
Definition leaves (lid : nat) (o : outcome) : Prop :=
  match o with Norm => False | Brk t | Cnt t => ~ hits lid t | _ => True end.

(** [exec e l o]: a run of [e] performs [l], in this order, and ends with [o].  Conditions go
    either way and loops run any number of times. *)
Inductive exec : node -> list item -> outcome -> Prop :=
| x_part e : exec e [] Part
| x_leaf i k : exec (Leaf i k) [Item i (leaf_kind k)] Norm
| x_op i args l o : execs args l Norm -> ends o -> exec (Op i args) (l ++ [Item i KOther]) o
| x_op_stop i args l o : execs args l o -> o <> Norm -> exec (Op i args) l o
| x_assign i x rhs l o : exec rhs l Norm -> ends o -> exec (Assign i x rhs) (l ++ [Item i (KDef x (Some (nid rhs)))]) o
| x_assign_stop i x rhs l o : exec rhs l o -> o <> Norm -> exec (Assign i x rhs) l o
| x_series es l o : execs es l o -> exec (Series es) l o
| x_if_stop c a b l o : exec c l o -> o <> Norm -> exec (If c a b) l o
| x_if_true c a b l m o : exec c l Norm -> exec a m o -> exec (If c a b) (l ++ m) o
| x_if_false c a b l m o : exec c l Norm -> exec b m o -> exec (If c a (Some b)) (l ++ m) o
| x_if_none c a l : exec c l Norm -> exec (If c a None) l Norm
| x_ternary_stop i c a b l o : exec c l o -> o <> Norm -> exec (Ternary i c a b) l o
| x_ternary_true i c a b l m : exec c l Norm -> exec a m Norm -> exec (Ternary i c a b) (l ++ m ++ [Item i KOther]) Norm
| x_ternary_true_stop i c a b l m o : exec c l Norm -> exec a m o -> o <> Norm -> exec (Ternary i c a b) (l ++ m) o
| x_ternary_false i c a b l m : exec c l Norm -> exec b m Norm -> exec (Ternary i c a b) (l ++ m ++ [Item i KOther]) Norm
| x_ternary_false_stop i c a b l m o : exec c l Norm -> exec b m o -> o <> Norm -> exec (Ternary i c a b) (l ++ m) o
| x_while lid c b l o : whiles lid c b l o -> exec (While lid c b) l o
| x_for_stop lid i x r it b l o : exec it l o -> o <> Norm -> exec (For lid i x r it b) l o
(** each turn of a for loop assigns the next element to the variable *)
| x_for lid i x r it b l m o : exec it l Norm -> turns lid [Item i (KDef x None)] r b m o -> exec (For lid i x r it b) (l ++ m) o
| x_imp_stop1 lid i j x a z b l o : exec a l o -> o <> Norm -> exec (ImpFor lid i j x a z b) l o
| x_imp_stop2 lid i j x a z b l m o : exec a l Norm -> exec z m o -> o <> Norm -> exec (ImpFor lid i j x a z b) (l ++ m) o
(** llvisitor.cpp:2679-2699: the bounds are computed first, each turn stores the counter in the variable *)
| x_imp lid i j x a z b l m k o : exec a l Norm -> exec z m Norm -> turns lid [Item j (KDef x None)] false b k o ->
    exec (ImpFor lid i j x a z b) (l ++ m ++ k) o
| x_try b cs el l o : tries b cs el l o -> exec (Try b cs el None) l o
| x_try_part b cs el f l : tries b cs el l Part -> exec (Try b cs el (Some f)) l Part
| x_finally b cs el f l o m : tries b cs el l o -> o <> Part -> exec f m Norm -> exec (Try b cs el (Some f)) (l ++ m) o
| x_finally_stop b cs el f l o m o' : tries b cs el l o -> o <> Part -> exec f m o' -> o' <> Norm -> exec (Try b cs el (Some f)) (l ++ m) o'
| x_break i t : exec (Break i t) [] (Brk t)
| x_continue i t : exec (Continue i t) [] (Cnt t)
| x_return i : exec (Return i None) [Item i KOther] End
| x_return_value i v l : exec v l Norm -> exec (Return i (Some v)) (l ++ [Item i KOther]) End
| x_return_stop i v l o : exec v l o -> o <> Norm -> exec (Return i (Some v)) l o
| x_throw i : exec (Throw i None) [Item i KOther] Exc
| x_throw_value i v l : exec v l Norm -> exec (Throw i (Some v)) (l ++ [Item i KOther]) Exc
| x_throw_stop i v l o : exec v l o -> o <> Norm -> exec (Throw i (Some v)) l o
with execs : list node -> list item -> outcome -> Prop :=
| xs_nil : execs [] [] Norm
| xs_cons e es l m o : exec e l Norm -> execs es m o -> execs (e :: es) (l ++ m) o
| xs_stop e es l o : exec e l o -> o <> Norm -> execs (e :: es) l o
with whiles : nat -> node -> node -> list item -> outcome -> Prop :=
| w_stop lid c b l o : exec c l o -> o <> Norm -> whiles lid c b l o
| w_exit lid c b l : exec c l Norm -> whiles lid c b l Norm
| w_leave lid c b l m o : exec c l Norm -> exec b m o -> leaves lid o -> whiles lid c b (l ++ m) o
| w_break lid c b l m t : exec c l Norm -> exec b m (Brk t) -> hits lid t -> whiles lid c b (l ++ m) Norm
| w_next lid c b l m o k o' : exec c l Norm -> exec b m o -> again lid o -> whiles lid c b k o' -> whiles lid c b (l ++ m ++ k) o'
with turns : nat -> list item -> bool -> node -> list item -> outcome -> Prop :=
| t_exit lid pre r b : turns lid pre r b [] Norm
| t_raise lid pre b : turns lid pre true b [] Exc
| t_leave lid pre r b m o : exec b m o -> leaves lid o -> turns lid pre r b (pre ++ m) o
| t_break lid pre r b m t : exec b m (Brk t) -> hits lid t -> turns lid pre r b (pre ++ m) Norm
| t_next lid pre r b m o k o' : exec b m o -> again lid o -> turns lid pre r b k o' -> turns lid pre r b (pre ++ m ++ k) o'
(** the body, handlers and else part of a try *)
with tries : node -> list (option (nat * nat) * node) -> option node -> list item -> outcome -> Prop :=
| y_stop b cs el l o : exec b l o -> o <> Norm -> tries b cs el l o
| y_norm b cs l : exec b l Norm -> tries b cs None l Norm
| y_else b cs e l m o : exec b l Norm -> exec e m o -> tries b cs (Some e) (l ++ m) o
| y_catch b cs el l k v h m o : exec b l Exc -> nth_error cs k = Some (v, h) -> exec h m o ->
    tries b cs el (l ++ catch_items v ++ m) o.

(** All the instructions of a tree. *)
Definition opt {A B} (f : A -> list B) (a : option A) : list B := match a with Some a => f a | None => [] end.
Fixpoint own (e : node) : list item :=
  match e with
  | Leaf i k => [Item i (leaf_kind k)]
  | Op i args => flat_map own args ++ [Item i KOther]
  | Assign i x rhs => own rhs ++ [assign_item i x rhs]
  | Series l => flat_map own l
  | If c a b => own c ++ own a ++ opt own b
  | While _ c b => own c ++ own b
  | For _ i x _ it b => own it ++ [Item i (KDef x None)] ++ own b
  | ImpFor _ i j x a z b => [assign_item i x a] ++ own a ++ own z ++ [Item j (KDef x None)] ++ own b
  | Try b cs el fin => own b ++ flat_map (fun '(v, h) => catch_items v ++ own h) cs ++ opt own el ++ opt own fin
  | Ternary i c a b => own c ++ own a ++ own b ++ [Item i KOther]
  | Break i _ | Continue i _ => [Item i KOther]
  | Return i v | Throw i v => opt own v ++ [Item i KOther]
  end.

(** ** The trees for which the graph is right *)
(** Ends with a jump to a loop. *)
Fixpoint jumps (e : node) : bool :=
  match e with Break _ _ | Continue _ _ => true | Series l => existsb jumps l | _ => false end.
(** Nothing follows such an end. *)
Fixpoint jumps_last (l : list node) : bool :=
  match l with [] => true | [_] => true | e :: l => negb (jumps e) && jumps_last l end.
Definition ob (f : node -> bool) (a : option node) : bool := match a with Some a => f a | None => true end.
Fixpoint nodefs (e : node) : bool :=
  match e with
  | Leaf _ _ | Break _ _ | Continue _ _ => true
  | Op _ l | Series l => forallb nodefs l
  | If c a b => nodefs c && nodefs a && ob nodefs b
  | While _ c b => nodefs c && nodefs b
  | Ternary _ c a b => nodefs c && nodefs a && nodefs b
  | Return _ v | Throw _ v => ob nodefs v
  | _ => false
  end.
(** No branches. *)
Fixpoint straight (e : node) : bool :=
  match e with
  | Leaf _ _ => true
  | Op _ l | Series l => forallb straight l
  | Assign _ _ e => straight e
  | Return _ v | Throw _ v => ob straight v
  | _ => false
  end.
Definition leafb (e : node) : bool := match e with Leaf _ _ => true | _ => false end.
(** No jumps. *)
Fixpoint calm (e : node) : bool :=
  match e with
  | Leaf _ _ => true
  | Op _ l | Series l => forallb calm l
  | Assign _ _ e => calm e
  | If c a b => calm c && calm a && ob calm b
  | Ternary _ c a b => calm c && calm a && calm b
  | Return _ v | Throw _ v => ob calm v
  | _ => false
  end.
(** [ok lids intry X e]: inside the loops [lids] and possibly a try, where the variables [X] must not be read.
    - jumps go to an enclosing loop and end their block;
    - the condition of a while assigns no variable, or it has no branches and is not in a try;
    - advancing the iterator of a for loop in a try does not raise;
    - the bounds of a counted loop do not read its variable and have no jumps; in a try they are variables or constants;
    - a finally has no branches and is not in another try. *)
Fixpoint ok (lids : list nat) (intry : bool) (X : list nat) (e : node) : bool :=
  match e with
  | Leaf _ (LRead x) => negb (memb x X)
  | Leaf _ _ => true
  | Op _ l => forallb (ok lids intry X) l && negb (existsb jumps l)
  | Assign _ _ e => ok lids intry X e && negb (jumps e)
  | Series l => forallb (ok lids intry X) l && jumps_last l
  | If c a b => ok lids intry X c && negb (jumps c) && ok lids intry X a && ob (ok lids intry X) b
  | While lid c b => negb (memb lid lids) && ok lids intry X c && negb (jumps c) && (nodefs c || negb intry && straight c) && ok (lid :: lids) intry X b
  | For lid _ _ r it b => negb (memb lid lids) && ok lids intry X it && negb (jumps it) && (negb intry || negb r) && ok (lid :: lids) intry X b
  | ImpFor lid _ _ x a z b =>
      negb (memb lid lids) && ok lids intry (x :: X) a && negb (jumps a) && ok lids intry (x :: X) z && negb (jumps z) && calm a && calm z &&
      (negb intry || leafb a && leafb z) && ok (lid :: lids) intry X b
  | Try b cs el fin =>
      ok lids true X b && forallb (fun '(_, h) => ok lids true X h) cs && ob (ok lids true X) el &&
      ob (fun f => negb intry && straight f && ok lids false X f) fin
  | Ternary _ c a b => ok lids intry X c && negb (jumps c) && ok lids intry X a && ok lids intry X b
  | Break _ None | Continue _ None => match lids with [] => false | _ => true end
  | Break _ (Some l) | Continue _ (Some l) => memb l lids
  | Return _ v | Throw _ v => ob (fun v => ok lids intry X v && negb (jumps v)) v
  end.
