(** Model of the desugaring of match statements, loop else clauses and loops over tuples of
    various types: /repo/codon/parser/visitors/typecheck/{cond,loops}.cpp.

    Simplifications: expressions are functions of the user's variables without effects;
    [isinstance] is evaluated on values rather than types; every statement of a loop body
    is visited in the first pass of type checking; where the code clones a case body for
    alternatives and transforms each clone, the model transforms once and duplicates. *)
From Coq Require Import ZArith List Bool String.
From Verif.Desugar Require Import DesugarSpec.
Import ListNotations.
Local Open Scope Z_scope.
Local Open Scope list_scope.

(** The target: while and for loops without else.  Temporaries are numbered; a path is a
    temporary with indices, [t[i][j]]. *)
Inductive tag := KInt | KBool | KStr | KTuple | KList.

Inductive cond :=
| CUser (c : env -> bool)
| CTemp (t : nat)
| CTrue.

Inductive test :=
| TUser (c : env -> bool)
| TTemp (t : nat)
| TIs (t : nat) (path : list Z) (k : tag)         (* isinstance *)
| TEq (t : nat) (path : list Z) (v : val)         (* == *)
| TGe (t : nat) (path : list Z) (z : Z)           (* >= *)
| TLe (t : nat) (path : list Z) (z : Z)           (* <= *)
| TLen (t : nat) (path : list Z) (ge : bool) (n : Z) (* len(..) == n, or >= n *).

Inductive tgt :=
| TSkip
| TAssign (x : string) (e : env -> val)
| TAssignPath (x : string) (t : nat) (path : list Z)
| TFlag (t : nat) (b : bool)
| TSave (t : nat) (e : env -> val)
| TSeq (a b : tgt)
| TIf (c : test) (a : tgt)
| TIfElse (c : env -> bool) (a b : tgt)
| TBreak
| TContinue
| TReturn (e : env -> val)
| TWhile (c : cond) (body : tgt)
| TFor (x : string) (e : env -> val) (body : tgt).

(** ** Meaning of the target *)

Definition tenv : Type := env * (nat -> val).
Definition tset (t : nat) (v : val) (s : tenv) : tenv :=
  (fst s, fun u => if Nat.eqb u t then v else snd s u).
Definition tupd (x : string) (v : val) (s : tenv) : tenv := (upd x v (fst s), snd s).

Definition truth (v : val) : bool := match v with VBool b => b | _ => false end.

(** list.codon:54-58, and static indices into tuples *)
Definition index (v : val) (i : Z) : option val :=
  match v with
  | VTuple vs => if i <? 0 then None else nth_error vs (Z.to_nat i)
  | VList vs =>
      let j := if i <? 0 then i + Z.of_nat (List.length vs) else i in
      if j <? 0 then None else nth_error vs (Z.to_nat j)
  | _ => None
  end.

Fixpoint follow (v : val) (path : list Z) : option val :=
  match path with
  | [] => Some v
  | i :: path' => match index v i with Some w => follow w path' | None => None end
  end.

Definition has_tag (v : val) (k : tag) : bool :=
  match v, k with
  | VInt _, KInt | VBool _, KBool | VStr _, KStr | VTuple _, KTuple | VList _, KList => true
  | _, _ => false
  end.

Definition eq_test (v w : val) : option bool :=
  match v, w with
  | VInt a, VInt b => Some (a =? b)
  | VBool a, VBool b => Some (Bool.eqb a b)
  | VStr a, VStr b => Some (String.eqb a b)
  | _, _ => None
  end.

Definition on_path (s : tenv) (t : nat) (path : list Z) (f : val -> option bool) : option bool :=
  match follow (snd s t) path with Some v => f v | None => None end.

(** [None] is an error. *)
Definition eval_test (c : test) (s : tenv) : option bool :=
  match c with
  | TUser c => Some (c (fst s))
  | TTemp t => Some (truth (snd s t))
  | TIs t path k => on_path s t path (fun v => Some (has_tag v k))
  | TEq t path w => on_path s t path (fun v => eq_test v w)
  | TGe t path z => on_path s t path (fun v => match v with VInt y => Some (z <=? y) | _ => None end)
  | TLe t path z => on_path s t path (fun v => match v with VInt y => Some (y <=? z) | _ => None end)
  | TLen t path ge n =>
      on_path s t path (fun v =>
        match items v with
        | Some vs => let l := Z.of_nat (List.length vs) in Some (if ge then n <=? l else l =? n)
        | None => None
        end)
  end.

Definition eval_cond (c : cond) (s : tenv) : bool :=
  match c with CUser c => c (fst s) | CTemp t => truth (snd s t) | CTrue => true end.

Fixpoint texec (k : nat) (p : tgt) (s : tenv) : result tenv :=
  match p with
  | TSkip => Some (Normal, s)
  | TAssign x e => Some (Normal, tupd x (e (fst s)) s)
  | TAssignPath x t path =>
      match follow (snd s t) path with
      | Some v => Some (Normal, tupd x v s)
      | None => Some (Wrong, s)
      end
  | TFlag t b => Some (Normal, tset t (VBool b) s)
  | TSave t e => Some (Normal, tset t (e (fst s)) s)
  | TSeq a b => match texec k a s with Some (Normal, s') => texec k b s' | r => r end
  | TIf c a =>
      match eval_test c s with
      | Some true => texec k a s
      | Some false => Some (Normal, s)
      | None => Some (Wrong, s)
      end
  | TIfElse c a b => if c (fst s) then texec k a s else texec k b s
  | TBreak => Some (Break, s)
  | TContinue => Some (Continue, s)
  | TReturn e => Some (Return (e (fst s)), s)
  | TWhile c body =>
      after (fun s => Some (Normal, s)) (while_ k (eval_cond c) (texec k body) s)
  | TFor x e body =>
      match items (e (fst s)) with
      | Some vs =>
          after (fun s => Some (Normal, s)) (for_ vs (fun v s => texec k body (tupd x v s)) s)
      | None => Some (Wrong, s)
      end
  end.

(** ** The desugaring *)

(** cond.cpp:164-260 [transformPattern] *)
Fixpoint tr_pat (t : nat) (path : list Z) (p : pat) (suite : tgt) {struct p} : tgt :=
  let tuple :=
    (* cond.cpp:192-196: from the last item inwards *)
    fix tuple (i : Z) (ps : list pat) {struct ps} : tgt :=
      match ps with
      | [] => suite
      | q :: ps' => tr_pat t (path ++ [i]) q (tuple (i + 1) ps')
      end in
  let lst :=
    (* cond.cpp:205-222: items after the ellipsis are indexed from the end *)
    fix lst (size i : Z) (seen : bool) (ps : list pat) {struct ps} : tgt :=
      match ps with
      | [] => suite
      | q :: ps' =>
          if is_ellipsis q then lst size (i + 1) true ps'
          else tr_pat t (path ++ [if seen then i - size else i]) q (lst size (i + 1) seen ps')
      end in
  match p with
  | PInt z => TIf (TIs t path KInt) (TIf (TEq t path (VInt z)) suite)
  | PBool b => TIf (TIs t path KBool) (TIf (TEq t path (VBool b)) suite)
  | PRange a b => TIf (TIs t path KInt) (TIf (TGe t path a) (TIf (TLe t path b) suite))
  | PTuple ps =>
      TIf (TIs t path KTuple)
        (TIf (TLen t path false (Z.of_nat (List.length ps))) (tuple 0 ps))
  | PList ps =>
      let size := Z.of_nat (List.length ps) in
      let ell := existsb is_ellipsis ps in
      TIf (TIs t path KList)
        (TIf (TLen t path ell (if ell then size - 1 else size)) (lst size 0 false ps))
  | POr p q => TSeq (tr_pat t path p suite) (tr_pat t path q suite)
  | PWild => suite
  | PVar x => TSeq (TAssignPath x t path) suite
  | PBind x p => TSeq (TAssignPath x t path) (tr_pat t path p suite)
  (* cond.cpp:249-259: strings have __match__, which is equality (str.codon:108-109) *)
  | PStr s => TIf (TIs t path KStr) (TIf (TEq t path (VStr s)) suite)
  (* no value of the model is an ellipsis *)
  | PEllipsis => TSkip
  end.

(** loops.cpp: [brk] is the variable of the innermost loop with an else
    ([getLoop()->breakVar]), [st] that of the innermost loop if it is over a tuple
    ([staticLoops.back()]). *)
Record ctx := Ctx { brk : option nat; st : option nat }.

Definition clear (o : option nat) (p : tgt) : tgt :=
  match o with Some t => TSeq (TFlag t false) p | None => p end.

Definition head_cond (h : head) (body : tgt) : tgt :=
  match h with
  | HWhile c => TWhile (CUser c) body
  | HFor x e => TFor x e body
  | HStatic _ _ _ => TSkip
  end.

(** [tr c n p]: [n] is the next unused temporary. *)
Fixpoint tr (c : ctx) (n : nat) (p : src) {struct p} : tgt * nat :=
  match p with
  | Skip => (TSkip, n)
  | Assign x e => (TAssign x e, n)
  | Seq a b =>
      let (a', n1) := tr c n a in
      let (b', n2) := tr c n1 b in (TSeq a' b', n2)
  | If k a b =>
      let (a', n1) := tr c n a in
      let (b', n2) := tr c n1 b in (TIfElse k a' b', n2)
  (* loops.cpp:24-41.  When both variables are set (an else clause inside a loop over a
     tuple), the first visit clears [brk] and the second [st]. *)
  | SBreak => (clear (brk c) (clear (st c) TBreak), n)
  (* loops.cpp:45-55 *)
  | SContinue => (match st c with Some _ => TBreak | None => TContinue end, n)
  | SReturn e => (TReturn e, n)
  | Loop h body =>
      match h with
      | HStatic x e cnt =>
          (* loops.cpp:266-310 *)
          let l := n in
          let t := S n in
          let go :=
            fix go (k : nat) (i : Z) (n : nat) : tgt * nat :=
              match k with
              | O => (TSkip, n)
              | S k' =>
                  let (b, n1) := tr (Ctx None (Some l)) n body in
                  let (r, n2) := go k' (i + 1) n1 in
                  (TSeq (TWhile (CTemp l) (TSeq (TAssignPath x t [i]) (TSeq b TBreak))) r, n2)
              end in
          let (b, n1) := go cnt 0 (S (S n)) in
          (TSeq (TFlag l true) (TWhile (CTemp l) (TSeq (TSave t e) (TSeq b (TFlag l false)))), n1)
      | _ =>
          let (b, n1) := tr (Ctx None None) n body in (head_cond h b, n1)
      end
  | LoopElse h body els =>
      match h with
      | HStatic x e cnt =>
          (* loops.cpp:139-144: returns before the else clause is completed *)
          let l := n in
          let t := S n in
          let go :=
            fix go (k : nat) (i : Z) (n : nat) : tgt * nat :=
              match k with
              | O => (TSkip, n)
              | S k' =>
                  let (b, n1) := tr (Ctx None (Some l)) n body in
                  let (r, n2) := go k' (i + 1) n1 in
                  (TSeq (TWhile (CTemp l) (TSeq (TAssignPath x t [i]) (TSeq b TBreak))) r, n2)
              end in
          let (b, n1) := go cnt 0 (S (S n)) in
          (TSeq (TFlag l true) (TWhile (CTemp l) (TSeq (TSave t e) (TSeq b (TFlag l false)))), n1)
      | _ =>
          (* loops.cpp:64-98, 126-131, 202-209: the else clause is transformed while the
             loop is still the innermost one on the stack *)
          let (b, n1) := tr (Ctx (Some n) None) (S n) body in
          let (e, n2) := tr (Ctx (Some n) (st c)) n1 els in
          (TSeq (TFlag n true) (TSeq (head_cond h b) (TIf (TTemp n) e)), n2)
      end
  (* cond.cpp:131-145 *)
  | Match e cs =>
      let (b, n1) := tr_cases n (S n) cs in
      (TWhile CTrue (TSeq (TSave n e) b), n1)
  end
with tr_cases (t n : nat) (cs : cases) {struct cs} : tgt * nat :=
  match cs with
  | CNil => (TBreak, n)
  | CCons p g body rest =>
      let (b, n1) := tr (Ctx None None) n body in
      let suite := TSeq b TBreak in
      let guarded := match g with Some c => TIf (TUser c) suite | None => suite end in
      let (r, n2) := tr_cases t n1 rest in
      (TSeq (tr_pat t [] p guarded) r, n2)
  end.

(** The program of a function body: no enclosing loop. *)
Definition desugar (p : src) : tgt := fst (tr (Ctx None None) 0 p).
