(** Model of [TypecheckVisitor::unpackAssignment] (codon/parser/visitors/typecheck/assign.cpp:92-172) and of the
    simple assignments that it makes. A second starred target is a compile-time error and cannot be written here;
    so is an index that is too large for a tuple, here [IndexError]. *)
From Coq Require Import List ZArith Bool.
From Verif.Common Require Import Result.
From Verif.Unpack Require Import Spec.
Import ListNotations.
Local Open Scope res_scope.
Local Open Scope Z_scope.

(** Right-hand sides of the generated assignments: a variable, a temporary, the original expression, [e[i]],
    and [List.as_list(e[a:b])] *)
Inductive expr : Type :=
| EVar (x : nat) | ETmp (k : nat) | EVal (v : value) | EIndex (e : expr) (i : Z) | ESlice (e : expr) (a : Z) (b : option Z).
Inductive stmt : Type := SVar (x : nat) (e : expr) | SItem (x : nat) (i : index) (e : expr) | STmp (k : nat) (e : expr).

(** [cast<IdExpr>(rhs)] (assign.cpp:121) *)
Definition is_name (e : expr) : bool := match e with EVar _ | ETmp _ => true | _ => false end.
(** [unpackAssignment]; [k] is the next unused temporary. [p - n] are the negative indices after a star
    (assign.cpp:163). *)
Fixpoint unpack (t : target) (rhs : expr) (k : nat) : list stmt * nat :=
  match t with
  | TVar x => ([SVar x rhs], k)
  | TItem x i => ([SItem x i rhs], k)
  | TSeq b =>
      let '(pre, rhs, k) := if is_name rhs then (@nil stmt, rhs, k) else ([STmp k rhs], ETmp k, S k) in
      let (ss, k) := unpack_all b rhs 0 k in (pre ++ ss, k)
  | TStar b s a =>
      let '(pre, rhs, k) := if is_name rhs then (@nil stmt, rhs, k) else ([STmp k rhs], ETmp k, S k) in
      let n := Z.of_nat (size b + 1 + size a) in
      let st := Z.of_nat (size b) in
      let (ss, k) := unpack_all b rhs 0 k in
      let (ss', k) := unpack s (ESlice rhs st (if n =? st + 1 then None else Some (- n + st + 1))) k in
      let (ss'', k) := unpack_all a rhs (st + 1 - n) k in
      (pre ++ ss ++ ss' ++ ss'', k)
  end
with unpack_all (ts : targets) (rhs : expr) (p : Z) (k : nat) : list stmt * nat :=
  match ts with
  | TNil => ([], k)
  | TCons t ts =>
      let (ss, k) := unpack t (EIndex rhs p) k in
      let (ss', k) := unpack_all ts rhs (p + 1) k in
      (ss ++ ss', k)
  end.
(** [visit(AssignStmt)] (assign.cpp:34-38) *)
Definition rewritten (t : target) (r : source) : list stmt :=
  fst (unpack t (match r with FromVar x => EVar x | FromValue v => EVal v end) 0).

(** [__getitem__] with an integer: of lists (stdlib/internal/types/collections/list.codon), tuples, strings; of
    dictionaries by key *)
Definition sequence (v : value) (h : list (list value)) : res (list value) :=
  match v with
  | VStr s => Ok (map (fun c => VStr [c]) s)
  | VTuple l => Ok l
  | VList a => match nth_error h a with Some l => Ok l | None => Undef end
  | _ => Raise TypeError
  end.
Definition getitem (v : value) (i : Z) (h : list (list value)) : res value :=
  match v with
  | VDict d => match find (fun p => fst p =? i) d with Some p => Ok (snd p) | None => Raise KeyError end
  | _ => l <- sequence v h ;; j <- place (length l) i ;; match nth_error l j with Some x => Ok x | None => Undef end
  end.
(** [l[a:b]] for [a >= 0] and [b] missing or negative *)
Definition slice (l : list value) (a : Z) (b : option Z) : list value :=
  let n := Z.of_nat (length l) in
  let lo := Z.min a n in
  let hi := match b with None => n | Some b => Z.max 0 (b + n) end in
  firstn (Z.to_nat (hi - lo)) (skipn (Z.to_nat lo) l).
Fixpoint eval (tmp : nat -> value) (e : expr) (st : state) : res (value * state) :=
  match e with
  | EVar x => Ok (var st x, st)
  | ETmp k => Ok (tmp k, st)
  | EVal v => Ok (v, st)
  | EIndex e i => '(v, st) <- eval tmp e st ;; x <- getitem v i (heap st) ;; Ok (x, st)
  | ESlice e a b => '(v, st) <- eval tmp e st ;; l <- sequence v (heap st) ;; Ok (new_list (slice l a b) st)
  end.
Definition exec (s : stmt) (tmp : nat -> value) (st : state) : res ((nat -> value) * state) :=
  match s with
  | SVar x e => '(v, st) <- eval tmp e st ;; Ok (tmp, set_var x v st)
  | SItem x i e => '(v, st) <- eval tmp e st ;; st <- store x i v st ;; Ok (tmp, st)
  | STmp k e => '(v, st) <- eval tmp e st ;; Ok (fun j => if Nat.eqb j k then v else tmp j, st)
  end.
Fixpoint exec_all (ss : list stmt) (tmp : nat -> value) (st : state) : res ((nat -> value) * state) :=
  match ss with
  | [] => Ok (tmp, st)
  | s :: ss => '(tmp, st) <- exec s tmp st ;; exec_all ss tmp st
  end.
(** The assignment as compiled; the temporaries are gone afterwards. *)
Definition compiled (t : target) (r : source) (st : state) : res state :=
  '(_, st) <- exec_all (rewritten t r) (fun _ => VInt 0) st ;; Ok st.
