(** Specification: what match statements, loops with else and loops over tuples do in
    Python.  A small language of statements with these constructs and its meaning. *)
From Coq Require Import ZArith List Bool String.
Import ListNotations.
Local Open Scope Z_scope.
Local Open Scope list_scope.

Inductive val :=
| VInt (z : Z)
| VBool (b : bool)
| VStr (s : string)
| VTuple (vs : list val)
| VList (vs : list val).

(** Variables of the user's program. *)
Definition env := string -> val.
Definition upd (x : string) (v : val) (s : env) : env :=
  fun y => if String.eqb y x then v else s y.
Definition upds (bs : list (string * val)) (s : env) : env :=
  fold_left (fun s b => upd (fst b) (snd b) s) bs s.

(** ** Patterns *)

Inductive pat :=
| PInt (z : Z)                 (* 1 *)
| PBool (b : bool)             (* True *)
| PRange (a b : Z)             (* 1 ... 3 *)
| PStr (s : string)            (* 'x' *)
| PTuple (ps : list pat)       (* (p, q) *)
| PList (ps : list pat)        (* [p, ..., q] *)
| PEllipsis                    (* only inside a list pattern *)
| POr (p q : pat)              (* p | q *)
| PWild                        (* _ *)
| PVar (x : string)            (* x *)
| PBind (x : string) (p : pat) (* (x := p) *).

(** [pmatch p v]: the variables bound, or [None] if the pattern does not match.  In a list
    pattern the ellipsis skips as many items as the rest leaves over.  Of two alternatives
    the first that matches counts. *)
Fixpoint pmatch (p : pat) (v : val) {struct p} : option (list (string * val)) :=
  let items :=
    fix items (ell : bool) (ps : list pat) (vs : list val) {struct ps} :=
      match ps with
      | [] => match vs with [] => Some [] | _ => None end
      | q :: ps' =>
          match q, ell with
          | PEllipsis, true =>
              if (List.length ps' <=? List.length vs)%nat
              then items ell ps' (skipn (List.length vs - List.length ps') vs)
              else None
          | _, _ =>
              match vs with
              | [] => None
              | w :: vs' =>
                  match pmatch q w, items ell ps' vs' with
                  | Some b, Some bs => Some (b ++ bs)
                  | _, _ => None
                  end
              end
          end
      end in
  match p, v with
  | PInt z, VInt y => if y =? z then Some [] else None
  | PBool b, VBool c => if Bool.eqb c b then Some [] else None
  | PRange a b, VInt y => if (a <=? y) && (y <=? b) then Some [] else None
  | PStr s, VStr t => if String.eqb t s then Some [] else None
  | PTuple ps, VTuple vs => items false ps vs
  | PList ps, VList vs => items true ps vs
  | POr p q, v => match pmatch p v with Some bs => Some bs | None => pmatch q v end
  | PWild, _ => Some []
  | PVar x, v => Some [(x, v)]
  | PBind x p, v => match pmatch p v with Some bs => Some ((x, v) :: bs) | None => None end
  | _, _ => None
  end.

(** ** Statements *)

Inductive head :=
| HWhile (c : env -> bool)
| HFor (x : string) (e : env -> val)
| HStatic (x : string) (e : env -> val) (n : nat) (* over a tuple of [n] items of various types *).

Inductive src :=
| Skip
| Assign (x : string) (e : env -> val)
| Seq (a b : src)
| If (c : env -> bool) (a b : src)
| SBreak
| SContinue
| SReturn (e : env -> val)
| Loop (h : head) (body : src)
| LoopElse (h : head) (body els : src)
| Match (e : env -> val) (cs : cases)
with cases :=
| CNil
| CCons (p : pat) (g : option (env -> bool)) (body : src) (rest : cases).

(** How a statement ends; [Wrong] is a run-time error. *)
Inductive outcome := Normal | Break | Continue | Return (v : val) | Wrong.

(** Running statements: [None] if some loop takes more than the given number of rounds. *)
Definition result (S : Type) := option (outcome * S).

Section Loops.
  Context {S : Type}.

  (** Ends with [Break] if the loop is left by break. *)
  Fixpoint while_ (k : nat) (c : S -> bool) (f : S -> result S) (s : S) : result S :=
    if c s then
      match k with
      | O => None
      | Datatypes.S k' =>
          match f s with
          | Some (Normal, s') | Some (Continue, s') => while_ k' c f s'
          | r => r
          end
      end
    else Some (Normal, s).

  Fixpoint for_ (vs : list val) (f : val -> S -> result S) (s : S) : result S :=
    match vs with
    | [] => Some (Normal, s)
    | v :: vs' =>
        match f v s with
        | Some (Normal, s') | Some (Continue, s') => for_ vs' f s'
        | r => r
        end
    end.

  (** The else clause runs unless the loop was left by break. *)
  Definition after (els : S -> result S) (r : result S) : result S :=
    match r with
    | Some (Normal, s) => els s
    | Some (Break, s) => Some (Normal, s)
    | r => r
    end.
End Loops.

Definition items (v : val) : option (list val) :=
  match v with VTuple vs | VList vs => Some vs | _ => None end.

Definition run_head (k : nat) (h : head) (f : env -> result env) (s : env) : result env :=
  match h with
  | HWhile c => while_ k c f s
  | HFor x e | HStatic x e _ =>
      match items (e s) with
      | Some vs => for_ vs (fun v s => f (upd x v s)) s
      | None => Some (Wrong, s)
      end
  end.

Fixpoint sexec (k : nat) (p : src) (s : env) : result env :=
  match p with
  | Skip => Some (Normal, s)
  | Assign x e => Some (Normal, upd x (e s) s)
  | Seq a b => match sexec k a s with Some (Normal, s') => sexec k b s' | r => r end
  | If c a b => if c s then sexec k a s else sexec k b s
  | SBreak => Some (Break, s)
  | SContinue => Some (Continue, s)
  | SReturn e => Some (Return (e s), s)
  | Loop h body => after (fun s => Some (Normal, s)) (run_head k h (sexec k body) s)
  | LoopElse h body els => after (sexec k els) (run_head k h (sexec k body) s)
  | Match e cs => scases k (e s) cs s
  end
(** The first case whose pattern matches and whose guard holds runs. *)
with scases (k : nat) (v : val) (cs : cases) (s : env) : result env :=
  match cs with
  | CNil => Some (Normal, s)
  | CCons p g body rest =>
      match pmatch p v with
      | None => scases k v rest s
      | Some bs =>
          if match g with Some c => c (upds bs s) | None => true end
          then sexec k body (upds bs s)
          else scases k v rest (upds bs s)
      end
  end.

(** ** Programs considered *)

(** A break, or continue, in [p] that leaves [p]. *)
Fixpoint brks (p : src) : bool :=
  match p with
  | SBreak => true
  | Seq a b | If _ a b => brks a || brks b
  | LoopElse _ _ els => brks els
  | Match _ cs => brks_cases cs
  | _ => false
  end
with brks_cases (cs : cases) : bool :=
  match cs with CNil => false | CCons _ _ b r => brks b || brks_cases r end.

Fixpoint conts (p : src) : bool :=
  match p with
  | SContinue => true
  | Seq a b | If _ a b => conts a || conts b
  | LoopElse _ _ els => conts els
  | Match _ cs => conts_cases cs
  | _ => false
  end
with conts_cases (cs : cases) : bool :=
  match cs with CNil => false | CCons _ _ b r => conts b || conts_cases r end.

Fixpoint pvars (p : pat) : list string :=
  match p with
  | PTuple ps | PList ps => flat_map pvars ps
  | POr p q => pvars p ++ pvars q
  | PVar x => [x]
  | PBind x p => x :: pvars p
  | _ => []
  end.

Fixpoint no_or (p : pat) : bool :=
  match p with
  | PTuple ps | PList ps => forallb no_or ps
  | POr _ _ => false
  | PBind _ p => no_or p
  | _ => true
  end.

Definition is_ellipsis (p : pat) : bool := match p with PEllipsis => true | _ => false end.

(** Python's rules for patterns: alternatives bind the same variables, a list pattern has
    at most one ellipsis. *)
Fixpoint pat_ok (p : pat) : Prop :=
  match p with
  | PTuple ps => fold_right (fun q P => pat_ok q /\ P) True ps
  | PList ps =>
      (List.length (filter is_ellipsis ps) <= 1)%nat /\ fold_right (fun q P => pat_ok q /\ P) True ps
  | POr p q => pat_ok p /\ pat_ok q /\ forall x, In x (pvars p) <-> In x (pvars q)
  | PBind _ p => pat_ok p
  | _ => True
  end.

(** [e] reads only variables in [A]. *)
Definition reads {T} (A : string -> Prop) (e : env -> T) : Prop :=
  forall s s', (forall x, A x -> s x = s' x) -> e s = e s'.

Definition head_ok (A : string -> Prop) (h : head) : Prop :=
  match h with
  | HWhile c => reads A c
  | HFor x e => reads A e
  | HStatic x e n => reads A e /\ forall s, exists vs, e s = VTuple vs /\ List.length vs = n
  end.

(** [A] are the variables that are not captured by a pattern around or inside the
    statement or are captured around it; [els] says that the loop around it has an else.

    - expressions do not read captured variables outside the case that binds them;
    - cases do not contain break or continue for a loop outside the match;
    - a guard of a case with alternatives does not read the captured variables;
    - an else clause contains no break if the loop around also has an else;
    - loops over tuples of various types have no else. *)
Fixpoint ok (A : string -> Prop) (els : bool) (p : src) : Prop :=
  match p with
  | Skip | SBreak | SContinue => True
  | Assign _ e | SReturn e => reads A e
  | Seq a b => ok A els a /\ ok A els b
  | If c a b => reads A c /\ ok A els a /\ ok A els b
  | Loop h body => head_ok A h /\ ok A false body
  | LoopElse h body e =>
      head_ok A h /\ (match h with HStatic _ _ _ => False | _ => True end) /\
      ok A true body /\ ok A els e /\ (els = true -> brks e = false)
  | Match e cs => reads A e /\ ok_cases A cs
  end
with ok_cases (A : string -> Prop) (cs : cases) : Prop :=
  match cs with
  | CNil => True
  | CCons p g body rest =>
      let A' := fun x => A x \/ In x (pvars p) in
      pat_ok p /\ (forall x, In x (pvars p) -> ~ A x) /\
      match g with Some c => reads A' c /\ (no_or p = true \/ reads A c) | None => True end /\
      ok A' false body /\ brks body = false /\ conts body = false /\
      ok_cases A rest
  end.
