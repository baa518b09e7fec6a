(** Model of how the variables of a function are resolved
    (codon/parser/visitors/scoping/scoping.cpp, ScopingVisitor, and the parts of
    codon/parser/visitors/typecheck/ that act on its annotations), and of the
    run of the resolved function.

    Simplifications.  The visitor keeps, for every name, a list of its bindings
    ([ctx->map]); visiting an occurrence of one name changes neither the list nor
    the annotations of another one, so the visitor is modelled for one name [x]
    at a time ([scan x]) and run for all of them.  Vectors of blocks whose last
    element is the innermost one are lists whose first element is the innermost
    one where they are used as stacks ([stack]) and lists in the same order
    where they are indexed ([scope], [ids]).  Only functions without parameters,
    nested functions, captured names, classes, try, with, match, del, global and
    comprehensions. *)
From Coq Require Import List Bool Arith.
From Verif.Scope Require Import Spec.
Import ListNotations.

(** scoping.h:52-110: how an assignment is annotated - not at all, with
    [ExprDominated], with [ExprDominatedUsed]. *)
Inductive kind : Type := KNew | KUpd | KUsed.

(** [Item::binding]: the assigned occurrence, or the suite a declaration is put
    in front of. *)
Inductive binding : Type := BNode (b : nat) | BSuite (k : nat).

(** [ScopingVisitor::Context::Item] (scoping.h:73-88). *)
Record item : Type := Item {
  scope : list nat;
  at_ : binding;
  ignore : bool;
  checked : list (list nat)    (* accessChecked *)
}.

(** [ScopeBlock] (scoping.h:54-64): [suite] says whether there is one, [noted]
    whether the name is in [seenVars], [None] when the block is no loop. *)
Record blk : Type := Blk { id : nat; suite : bool; noted : option bool }.

(** The annotations left on the tree for one name: assignments, suites
    ([BindingsAttribute::bindings], with the count), occurrences
    ([ExprDominatedUndefCheck]). *)
Record ann : Type := Ann {
  kinds : nat -> kind;
  decls : nat -> option nat;
  checks : nat -> bool
}.

Record st : Type := St { stack : list blk; items : list item; an : ann }.

Definition upd {A} (f : nat -> A) (k : nat) (a : A) : nat -> A :=
  fun j => if Nat.eqb j k then a else f j.

Definition set_kind (b : nat) (d : kind) (a : ann) : ann :=
  Ann (upd (kinds a) b d) (decls a) (checks a).
Definition set_decl (k : nat) (d : option nat) (a : ann) : ann :=
  Ann (kinds a) (upd (decls a) k d) (checks a).
Definition set_check (r : nat) (a : ann) : ann :=
  Ann (kinds a) (decls a) (upd (checks a) r true).

(** [ctx->getScope()] (scoping.h:67-73): outermost first. *)
Definition ids (stk : list blk) : list nat := rev (map id stk).

(** [a.size() <= ctx->scope.size() && a.back() == ctx->scope[a.size()-1].id]
    (scoping.cpp:881-882 and 843-844). *)
Definition dominates (a s : list nat) : bool :=
  (length a <=? length s) &&
  Nat.eqb (nth (length a - 1) a 0) (nth (length a - 1) s 0).

(** scoping.cpp:891-894: the loop that lowers [commonScope]. *)
Fixpoint lower (a s : list nat) (c : nat) : nat :=
  match c with
  | 0 => 0
  | S c' => if Nat.eqb (nth c' a 0) (nth c' s 0) then c else lower a s c'
  end.

(** scoping.cpp:876-900: the position of [lastGood] and [commonScope].  [n] is
    the position of the head of [l], [g] the one found so far. *)
Fixpoint walk (s : list nat) (l : list item) (n c g : nat) : nat * nat :=
  match l with
  | [] => (g, c)
  | i :: l' =>
      if ignore i then walk s l' (S n) c g
      else if dominates (scope i) s then (n, length (scope i))
      else walk s l' (S n) (lower (scope i) s (Nat.min c (length (scope i)))) n
  end.

(** scoping.cpp:918-920, the loop over [si] that goes down two at a time: the
    first suite met. *)
Fixpoint first_suite (l : list blk) : option nat :=
  match l with
  | [] => None
  | b :: l' =>
      if suite b then Some (id b)
      else match l' with
           | [] => None
           | _ :: l'' => first_suite l''
           end
  end.

(** [switchToUpdate] (scoping.cpp:767-781). *)
Definition switch1 (used : bool) (i : item) (a : ann) : ann :=
  match at_ i with
  | BNode b => set_kind b (if used then KUsed else KUpd) a
  | BSuite k => set_decl k None a
  end.

(** scoping.cpp:938-946: all bindings before the dominating one in the list. *)
Fixpoint switch (used : bool) (l : list item) (a : ann) : ann :=
  match l with
  | [] => a
  | i :: l => switch used l (switch1 used i a)
  end.
Definition retire (sc : list nat) (i : item) : item :=
  Item sc (at_ i) true (checked i).

Definition item0 : item := Item [] (BSuite 0) true [].

(** [findDominatingBinding] (scoping.cpp:864-955) with [allowShadow]: the
    binding found and the new state, or nothing if the name has no binding. *)
Definition find (s : st) : option (item * st) :=
  match items s with
  | [] => None
  | _ =>
      let path := ids (stack s) in
      let '(g, c) := walk path (items s) 0 (length path) 0 in
      let lg := nth g (items s) item0 in
      let '(l, g', a, used) :=
        if Nat.eqb (length (scope lg)) c then
          (items s, g, an s,
           match at_ lg with
           | BSuite k => match decls (an s) k with Some (S _) => true | _ => false end
           | BNode _ => false
           end)
        else
          match first_suite (skipn (length path - c) (stack s)) with
          | Some k =>
              (firstn (S g) (items s) ++
                 Item (firstn c path) (BSuite k) false [scope lg] ::
                 skipn (S g) (items s),
               S g, set_decl k (Some 1) (an s), true)
          | None => (items s, g, an s, false)
          end in
      let lg' := nth g' l item0 in
      let a1 := switch used (firstn g' l) a in
      let a2 :=
        match at_ lg' with
        | BSuite k => if used then a1 else set_decl k (Some 0) a1
        | BNode _ => a1
        end in
      Some (lg', St (stack s) (map (retire (scope lg')) (firstn g' l) ++ skipn g' l) a2)
  end.

(** scoping.cpp:826-838: loops in which an outer binding of the name is used. *)
Fixpoint mark (sc : list nat) (stk : list blk) : list blk :=
  match stk with
  | [] => []
  | b :: r =>
      match noted b with
      | Some _ =>
          if (length r <? length sc) && Nat.eqb (nth (length r) sc 0) (id b) then stk
          else Blk (id b) (suite b) (Some true) :: mark sc r
      | None => b :: mark sc r
      end
  end.

(** [visitName] (scoping.cpp:783-860) on an occurrence that is read.  A name
    with no binding so far is a captured one (line 815): not modelled, [None].
    Line 850-853 (a declaration's check is done once) never applies: the items
    with a non-empty [accessChecked] are the ones whose binding is a suite. *)
Definition visit_read (r : nat) (s : st) : option st :=
  match find s with
  | None => None
  | Some (i, s1) =>
      let s2 := St (mark (scope i) (stack s1)) (items s1) (an s1) in
      match checked i with
      | [] => Some s2
      | l =>
          if existsb (fun a => dominates a (ids (stack s))) l then Some s2
          else Some (St (stack s2) (items s2) (set_check r (an s2)))
      end
  end.

(** [visitName] on an assigned occurrence. *)
Definition visit_add (b : nat) (s : st) : option st :=
  match find (St (stack s) (Item (ids (stack s)) (BNode b) false [] :: items s) (an s)) with
  | None => None
  | Some (i, s1) => Some (St (mark (scope i) (stack s1)) (items s1) (an s1))
  end.

(** [ConditionalBlock] (scoping.h:112-124). *)
Definition push (k : nat) (su : bool) (lp : bool) (s : st) : st :=
  St (Blk k su (if lp then Some false else None) :: stack s) (items s) (an s).
Definition pop (s : st) : st := St (tl (stack s)) (items s) (an s).

(** scoping.cpp:325-328 and 349-354: at the end of a loop. *)
Definition pop_loop (s : st) : st :=
  match stack s with
  | b :: _ =>
      match noted b with
      | Some true => match find (pop s) with Some (_, s') => s' | None => pop s end
      | _ => pop s
      end
  | [] => s
  end.
(** scoping.cpp:348: [seenVars] is emptied after the loop variable's visit.
    ([seenDef], what was in it, is empty: the loop variable has just been
    bound in the loop's own block.) *)
Definition forget (s : st) : st :=
  match stack s with
  | b :: r => St (Blk (id b) (suite b) (Some false) :: r) (items s) (an s)
  | [] => s
  end.

Definition andthen {A B} (o : option A) (f : A -> option B) : option B :=
  match o with Some a => f a | None => None end.
Definition fmap {A B} (f : A -> B) (o : option A) : option B :=
  match o with Some a => Some (f a) | None => None end.

Section Visit.
  Context {V : Type} (x : nat).

  (** The visits of the expressions (scoping.cpp:133-143 and 237-259, with
      [transformScope], 94-100). *)
  Fixpoint scan_e (e : expr V) (s : st) : option st :=
    match e with
    | EConst _ => Some s
    | EVar r y => if Nat.eqb y x then visit_read r s else Some s
    | EOp _ a b => andthen (scan_e a s) (scan_e b)
    | EWalrus b y a =>
        andthen (scan_e a s) (fun s => if Nat.eqb y x then visit_add b s else Some s)
    | EAnd a k b | EOr a k b =>
        andthen (scan_e a s) (fun s => fmap pop (scan_e b (push k false false s)))
    | EIf c k1 a k2 b =>
        andthen (scan_e c s) (fun s =>
        andthen (fmap pop (scan_e a (push k1 false false s))) (fun s =>
        fmap pop (scan_e b (push k2 false false s))))
    end.

  (** The visits of the statements (scoping.cpp:297-357, 102-108). *)
  Fixpoint scan (p : stmt V) (s : st) : option st :=
    match p with
    | SSkip | SBreak | SContinue => Some s
    | SPrint e | SReturn e => scan_e e s
    | SAssign b y e =>
        andthen (scan_e e s) (fun s => if Nat.eqb y x then visit_add b s else Some s)
    | SSeq a b => andthen (scan a s) (scan b)
    | SIf c k1 a k2 b =>
        andthen (scan_e c s) (fun s =>
        andthen (fmap pop (scan a (push k1 true false s))) (fun s =>
        fmap pop (scan b (push k2 true false s))))
    | SWhile c k a =>
        andthen (scan_e c (push k true true s)) (fun s => fmap pop_loop (scan a s))
    | SFor b y e k a =>
        andthen (scan_e e s) (fun s =>
        andthen (if Nat.eqb y x then visit_add b (push k true true s)
                 else Some (push k true true s)) (fun s =>
        fmap pop_loop (scan a (forget s))))
    end.

  Definition ann0 : ann := Ann (fun _ => KNew) (fun _ => None) (fun _ => false).

  (** The visit of a function (scoping.cpp:555-559): block 0 is its body. *)
  Definition resolve (p : stmt V) : option ann :=
    fmap an (scan p (St [Blk 0 true None] [] ann0)).
End Visit.

(** ** The function after type checking *)

(** A variable of the compiled function: one per assignment that makes a new one
    and one per declaration. *)
Inductive node : Type := NBind (b : nat) | NSuite (k : nat).

Inductive texpr (V : Type) : Type :=
| TConst (v : V)
| TVar (x : nat) (n : node) (chk : option nat)
| TOp (f : V -> V -> V) (e1 e2 : texpr V)
| TWalrus (x : nat) (n : node) (fl : option nat) (e : texpr V)
| TAnd (e1 e2 : texpr V)
| TOr (e1 e2 : texpr V)
| TIf (c e1 e2 : texpr V).
Arguments TConst {V}. Arguments TVar {V}. Arguments TOp {V}. Arguments TWalrus {V}.
Arguments TAnd {V}. Arguments TOr {V}. Arguments TIf {V}.

(** [TDecl k d s]: the suite [k] with the declarations of the names [d] and of
    their flags in front of it. *)
Inductive tstmt (V : Type) : Type :=
| TSkip
| TPrint (e : texpr V)
| TAssign (x : nat) (n : node) (fl : option nat) (e : texpr V)
| TSeq (s1 s2 : tstmt V)
| TIfS (c : texpr V) (s1 s2 : tstmt V)
| TWhile (c : texpr V) (s : tstmt V)
| TFor (x : nat) (n : node) (fl : option nat) (e : texpr V) (s : tstmt V)
| TBreak
| TContinue
| TReturn (e : texpr V)
| TDecl (k : nat) (d : nat -> bool) (s : tstmt V).
Arguments TSkip {V}. Arguments TPrint {V}. Arguments TAssign {V}. Arguments TSeq {V}.
Arguments TIfS {V}. Arguments TWhile {V}. Arguments TFor {V}. Arguments TBreak {V}.
Arguments TContinue {V}. Arguments TReturn {V}. Arguments TDecl {V}.

Section Elab.
  Context {V : Type} (A : nat -> option ann).

  (** [TypeContext::find] (ctx.cpp:105-124): the latest variable added under a
      name, in the order of the text, and the latest flag. *)
  Record tenv : Type := Tenv { cur : nat -> option node; flag : nat -> option nat }.

  (** transformAssignment (assign.cpp:237-253) and transformUpdate (338-347):
      the variable of an assignment that is an update is looked up before the
      right-hand side is looked at.  [None]: ASSIGN_LOCAL_REFERENCE. *)
  Definition target (b x : nat) (g : tenv) : option (option node) :=
    andthen (A x) (fun a =>
      match kinds a b with
      | KNew => Some None
      | _ => andthen (cur g x) (fun n => Some (Some n))
      end).
  (** assign.cpp:253-287 (a new variable) or none; 48-60 (the flag). *)
  Definition assigned (b x : nat) (t : option node) (g : tenv)
    : option (node * option nat * tenv) :=
    andthen (A x) (fun a =>
      match t with
      | None => Some (NBind b, None, Tenv (upd (cur g) x (Some (NBind b))) (flag g))
      | Some n =>
          match kinds a b with
          | KUsed => andthen (flag g x) (fun k => Some (n, Some k, g))
          | _ => Some (n, None, g)
          end
      end).

  (** SuiteStmt (typecheck.cpp:342-356). *)
  Definition declared (k x : nat) : option nat :=
    match A x with Some a => decls a k | None => None end.
  Definition enter (k : nat) (g : tenv) : tenv :=
    Tenv (fun x => match declared k x with Some _ => Some (NSuite k) | None => cur g x end)
         (fun x => match declared k x with Some (S _) => Some k | _ => flag g x end).
  Definition resets (k x : nat) : bool :=
    match declared k x with Some (S _) => true | _ => false end.

  Fixpoint elab_e (e : expr V) (g : tenv) : option (texpr V * tenv) :=
    match e with
    | EConst v => Some (TConst v, g)
    | EVar r x =>                                            (* access.cpp:25-82 *)
        andthen (A x) (fun a => andthen (cur g x) (fun n =>
          Some (TVar x n (if checks a r then flag g x else None), g)))
    | EOp f a b =>
        andthen (elab_e a g) (fun '(ta, g) => andthen (elab_e b g) (fun '(tb, g) =>
          Some (TOp f ta tb, g)))
    | EWalrus b x a =>                                       (* assign.cpp:18-28 *)
        andthen (target b x g) (fun t => andthen (elab_e a g) (fun '(ta, g) =>
        andthen (assigned b x t g) (fun '(n, fl, g) => Some (TWalrus x n fl ta, g))))
    | EAnd a _ b =>
        andthen (elab_e a g) (fun '(ta, g) => andthen (elab_e b g) (fun '(tb, g) =>
          Some (TAnd ta tb, g)))
    | EOr a _ b =>
        andthen (elab_e a g) (fun '(ta, g) => andthen (elab_e b g) (fun '(tb, g) =>
          Some (TOr ta tb, g)))
    | EIf c _ a _ b =>
        andthen (elab_e c g) (fun '(tc, g) => andthen (elab_e a g) (fun '(ta, g) =>
        andthen (elab_e b g) (fun '(tb, g) => Some (TIf tc ta tb, g))))
    end.

  Fixpoint elab (s : stmt V) (g : tenv) : option (tstmt V * tenv) :=
    match s with
    | SSkip => Some (TSkip, g)
    | SPrint e => andthen (elab_e e g) (fun '(te, g) => Some (TPrint te, g))
    | SAssign b x e =>                                       (* assign.cpp:35-61 *)
        andthen (target b x g) (fun t => andthen (elab_e e g) (fun '(te, g) =>
        andthen (assigned b x t g) (fun '(n, fl, g) => Some (TAssign x n fl te, g))))
    | SSeq a b =>
        andthen (elab a g) (fun '(ta, g) => andthen (elab b g) (fun '(tb, g) =>
          Some (TSeq ta tb, g)))
    | SIf c k1 a k2 b =>                                     (* cond.cpp:86-109 *)
        andthen (elab_e c g) (fun '(tc, g) =>
        andthen (elab a (enter k1 g)) (fun '(ta, g) =>
        andthen (elab b (enter k2 g)) (fun '(tb, g) =>
          Some (TIfS tc (TDecl k1 (resets k1) ta) (TDecl k2 (resets k2) tb), g))))
    | SWhile c k a =>                                        (* loops.cpp:64-85 *)
        andthen (elab_e c g) (fun '(tc, g) => andthen (elab a (enter k g)) (fun '(ta, g) =>
          Some (TWhile tc (TDecl k (resets k) ta), g)))
    | SFor b x e k a =>                                      (* loops.cpp:132-185 *)
        andthen (elab_e e g) (fun '(te, g) =>
        andthen (target b x g) (fun t =>
        andthen (assigned b x t g) (fun '(n, fl, g) =>
        andthen (elab a (enter k g)) (fun '(ta, g) =>
          Some (TFor x n fl te (TDecl k (resets k) ta), g)))))
    | SBreak => Some (TBreak, g)
    | SContinue => Some (TContinue, g)
    | SReturn e => andthen (elab_e e g) (fun '(te, g) => Some (TReturn te, g))
    end.
End Elab.
Arguments tenv : clear implicits.

Section Compile.
  Context {V : Type}.
  Definition compile (p : stmt V) : option (tstmt V) :=
    let A := fun x => resolve x p in
    fmap (fun r => TDecl 0 (resets A 0) (fst r))
         (elab A p (enter A 0 (Tenv (fun _ => None) (fun _ => None)))).
End Compile.

(** ** Its run *)

Section Run.
  Context {V : Type} (truth : V -> bool) (elems : V -> list V).

  Definition same (n m : node) : bool :=
    match n, m with
    | NBind a, NBind b | NSuite a, NSuite b => Nat.eqb a b
    | _, _ => false
    end.

  (** Storage of the variables of every name, and the flags. *)
  Record store : Type := Store { mem : nat -> node -> option V; flags : nat -> nat -> bool }.
  Definition store0 : store := Store (fun _ _ => None) (fun _ _ => false).

  Definition write (x : nat) (n : node) (fl : option nat) (v : V) (m : store) : store :=
    Store (fun y j => if Nat.eqb y x && same j n then Some v else mem m y j)
          (match fl with
           | Some k => fun y j => if Nat.eqb y x && Nat.eqb j k then true else flags m y j
           | None => flags m
           end).
  (** [x__used__ = False]; declaring [x] stores nothing. *)
  Definition reset (k : nat) (d : nat -> bool) (m : store) : store :=
    Store (mem m) (fun y j => if Nat.eqb j k && d y then false else flags m y j).

  (** [__internal__.undef] raises NameError when the flag is not set. *)
  Fixpoint teval (e : texpr V) (m : store) : res (V * store) :=
    match e with
    | TConst v => Val (v, m)
    | TVar x n chk =>
        let read := match mem m x n with Some v => Val (v, m) | None => Garbage end in
        match chk with
        | Some k => if flags m x k then read else Undef x
        | None => read
        end
    | TOp f a b =>
        bind (teval a m) (fun '(va, m1) =>
        bind (teval b m1) (fun '(vb, m2) => Val (f va vb, m2)))
    | TWalrus x n fl a =>
        bind (teval a m) (fun '(v, m1) => Val (v, write x n fl v m1))
    | TAnd a b =>
        bind (teval a m) (fun '(v, m1) => if truth v then teval b m1 else Val (v, m1))
    | TOr a b =>
        bind (teval a m) (fun '(v, m1) => if truth v then Val (v, m1) else teval b m1)
    | TIf c a b =>
        bind (teval c m) (fun '(v, m1) => if truth v then teval a m1 else teval b m1)
    end.

  (** The steps allowed are counted as in [pexec]; a declaration takes none. *)
  Fixpoint texec (n : nat) (s : tstmt V) (m : store) : list V * ending store :=
    match n with
    | 0 => ([], Out)
    | S n =>
        let body s m := match s with
                         | TDecl k d s => texec n s (reset k d m)
                         | s => texec n s m
                         end in
        match s with
        | TSkip => ([], Fin m)
        | TPrint e => with_val (teval e m) (fun '(v, m1) => ([v], Fin m1))
        | TAssign x j fl e =>
            with_val (teval e m) (fun '(v, m1) => ([], Fin (write x j fl v m1)))
        | TSeq a b =>
            match texec n a m with
            | (o, Fin m1) => after o (texec n b m1)
            | r => r
            end
        | TIfS c a b =>
            with_val (teval c m) (fun '(v, m1) => if truth v then body a m1 else body b m1)
        | TWhile c a =>
            with_val (teval c m) (fun '(v, m1) =>
              if truth v then next (body a m1) (texec n (TWhile c a))
              else ([], Fin m1))
        | TFor x j fl e a =>
            with_val (teval e m) (fun '(v, m1) =>
              each (fun v m => body a (write x j fl v m)) (elems v) m1)
        | TBreak => ([], Brk m)
        | TContinue => ([], Cnt m)
        | TReturn e => with_val (teval e m) (fun '(v, _) => ([], Ret v))
        | TDecl k d s => texec n s (reset k d m)
        end
    end.

  Definition run (n : nat) (q : tstmt V) : list V * ending unit := seen (texec (S n) q store0).
End Run.
