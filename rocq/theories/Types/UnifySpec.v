(** What unification should achieve, stated without the algorithm. *)
From Coq Require Import List Bool Arith ZArith.
From Verif.Types Require Import Unify.
Import ListNotations.
Open Scope nat_scope.

(** [den r t]: the type [t] when every variable v stands for [r v]. *)
Fixpoint den (r : nat -> ty) (t : ty) : ty :=
  match t with
  | Var v => r v
  | Gen _ _ | Lit _ => t
  | Cls n gs hs => Cls n (map (den r) gs) (map (den r) hs)
  end.
(** [r] respects the links of a store: a linked variable stands for what it is linked to. *)
Definition sat (r : nat -> ty) (s : store) : Prop :=
  forall v t, link (s v) = Some t -> r v = den r t.

(** Two types that the compiler treats as one: the same type, except that a literal may stand for its
    class, that Int[64] is int and that the list of hidden generics may be longer on one side. *)
Inductive compat : ty -> ty -> Prop :=
  | c_refl t : compat t t
  | c_sym a b : compat a b -> compat b a
  | c_gen g k k' : compat (Gen g k) (Gen g k')
  | c_lit l hs : compat (Lit l) (Cls (lit_name l) [] hs)
  | c_int g gs hs b : compat g (Lit (LInt 64)) -> is_int b -> compat (Cls nInt (g :: gs) hs) b
  | c_cls n gs gs' hs hs' rest : compats gs gs' -> compats hs hs' -> compat (Cls n gs hs) (Cls n gs' (hs' ++ rest))
with compats : list ty -> list ty -> Prop :=
  | cs_nil : compats [] []
  | cs_cons a b l m : compat a b -> compats l m -> compats (a :: l) (b :: m)
with is_int : ty -> Prop :=
  | ii_cls gs hs : is_int (Cls nint gs hs)
  | ii_lit z : is_int (Lit (LInt z)).

(** The unbound variables reached from a type when links are followed; hidden generics are left out. *)
Inductive reach (s : store) : ty -> nat -> Prop :=
  | r_var v : link (s v) = None -> reach s (Var v) v
  | r_link v t u : link (s v) = Some t -> reach s t u -> reach s (Var v) u
  | r_cls n gs hs g u : In g gs -> reach s g u -> reach s (Cls n gs hs) u.

(** [nodes s t n]: following all links from [t] ends, after [n] nodes. *)
Inductive nodes (s : store) : ty -> nat -> Prop :=
  | n_var v : link (s v) = None -> nodes s (Var v) 1
  | n_link v t n : link (s v) = Some t -> nodes s t n -> nodes s (Var v) (S n)
  | n_gen g k : nodes s (Gen g k) 1
  | n_lit l : nodes s (Lit l) 1
  | n_cls c gs hs n m : nodess s gs n -> nodess s hs m -> nodes s (Cls c gs hs) (S (n + m))
with nodess (s : store) : list ty -> nat -> Prop :=
  | n_nil : nodess s [] 0
  | n_cons t l n m : nodes s t n -> nodess s l m -> nodess s (t :: l) (n + m).
(** No type is part of itself. *)
Definition acyclic (s : store) : Prop := forall v, exists n, nodes s (Var v) n.

(** No hidden generics, and Int has its width. *)
Inductive plain : ty -> Prop :=
  | p_var v : plain (Var v)
  | p_gen g k : plain (Gen g k)
  | p_lit l : plain (Lit l)
  | p_cls n gs : (n = nInt -> gs <> []) -> Forall plain gs -> plain (Cls n gs []).
(** Runtime types only: no literal, generic or hidden generic. *)
Inductive simple : ty -> Prop :=
  | s_var v : simple (Var v)
  | s_cls n gs : Forall simple gs -> simple (Cls n gs []).
Definition everywhere (P : ty -> Prop) (s : store) : Prop := forall v t, link (s v) = Some t -> P t.

(** Only the variables below [N] are in use. *)
Inductive below (N : nat) : ty -> Prop :=
  | b_var v : v < N -> below N (Var v)
  | b_gen g k : below N (Gen g k)
  | b_lit l : below N (Lit l)
  | b_cls n gs hs : Forall (below N) gs -> Forall (below N) hs -> below N (Cls n gs hs).

(** Variables of an outer scope mention only variables of that scope. *)
Definition scoped (s : store) : Prop := forall v u, reach s (Var v) u -> level (s u) <= level (s v).
(** A variable for a static value is only ever linked to static values of its kind, and to variables for them. *)
Definition kindOf (s : store) (t : ty) : kind :=
  match t with Var v => sk (s v) | Gen _ k => k | Lit l => lit_kind l | Cls _ _ _ => Runtime end.
Definition kinded (s : store) : Prop :=
  forall v t, link (s v) = Some t -> sk (s v) <> Runtime -> kindOf s t = sk (s v).

(** * Realised types, generalisation and instantiation *)
Section Slots.
Context (slot hslot : nat -> nat -> kind).

Definition asClass (t : ty) : ty := match t with Lit l => Cls (lit_name l) [] [] | _ => t end.
Definition inKind (k : kind) (t : ty) : ty := match k with Runtime => asClass t | _ => t end.

(** The type that is compiled: literals count only in static slots, and Int[64] is int. *)
Fixpoint real (t : ty) : ty :=
  match t with
  | Cls n gs _ =>
      let fix go (i : nat) (l : list ty) : list ty :=
        match l with [] => [] | t :: l => inKind (slot n i) (real t) :: go (S i) l end in
      if Nat.eqb n nInt && match gs with [Lit (LInt z)] => Z.eqb z 64 | _ => false end
      then Cls nint [] [] else Cls n (go 0 gs) []
  | _ => t
  end.
(** Fully known types: static slots hold literals of their kind; int, str and bool have no parameters. *)
Inductive proper : ty -> Prop :=
  | pr_lit l : proper (Lit l)
  | pr_cls n gs :
      (forall i g, nth_error gs i = Some g ->
         proper g /\ (slot n i <> Runtime -> exists l, g = Lit l /\ lit_kind l = slot n i)) ->
      (n = nInt -> exists z, gs = [Lit (LInt z)]) ->
      (n = nint \/ n = nstr \/ n = nbool -> gs = []) ->
      proper (Cls n gs []).

(** [resolves s t t0]: t0 is [t] written out: links followed, and literals in runtime slots read as their class. *)
Inductive resolves (s : store) : ty -> ty -> Prop :=
  | rs_var v : link (s v) = None -> resolves s (Var v) (Var v)
  | rs_link v t t0 : link (s v) = Some t -> resolves s t t0 -> resolves s (Var v) t0
  | rs_gen g k : resolves s (Gen g k) (Gen g k)
  | rs_lit l : resolves s (Lit l) (Lit l)
  | rs_cls n gs hs gs0 hs0 : resolvess s (slot n) 0 gs gs0 -> resolvess s (hslot n) 0 hs hs0 ->
      resolves s (Cls n gs hs) (Cls n gs0 hs0)
with resolvess (s : store) : (nat -> kind) -> nat -> list ty -> list ty -> Prop :=
  | rs_nil k i : resolvess s k i [] []
  | rs_cons k i t t0 l l0 : resolves s t t0 -> resolvess s k (i + 1) l l0 ->
      resolvess s k i (t :: l) (inKind (k i) t0 :: l0).
End Slots.

(** [gsub f t]: every generic g replaced by [f g]. *)
Fixpoint gsub (f : nat -> ty) (t : ty) : ty :=
  match t with
  | Gen g _ => f g
  | Var _ | Lit _ => t
  | Cls n gs hs => Cls n (map (gsub f) gs) (map (gsub f) hs)
  end.
(** [uses N K t]: the variables of [t] are below [N] and its generics g have kind [K g]. *)
Inductive uses (N : nat) (K : nat -> kind) : ty -> Prop :=
  | us_var v : v < N -> uses N K (Var v)
  | us_gen g : uses N K (Gen g (K g))
  | us_lit l : uses N K (Lit l)
  | us_cls n gs hs : Forall (uses N K) gs -> Forall (uses N K) hs -> uses N K (Cls n gs hs).
(** the variables that occur in a term *)
Inductive mentions : ty -> nat -> Prop :=
  | m_var v : mentions (Var v) v
  | m_cls n gs hs t v : In t gs \/ In t hs -> mentions t v -> mentions (Cls n gs hs) v.
(** the generics that occur in a term *)
Inductive generic : ty -> nat -> Prop :=
  | g_gen g k : generic (Gen g k) g
  | g_cls n gs hs t g : In t gs \/ In t hs -> generic t g -> generic (Cls n gs hs) g.
