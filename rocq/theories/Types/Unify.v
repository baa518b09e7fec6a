(** Type unification: codon/parser/ast/types/link.cpp, class.cpp, static.cpp and type.cpp.

    Unbound types (LinkType objects) are numbered by their ids and live in a store; all other types
    are immutable terms. Names of classes are numbers. Not modelled: traits (every unbound type has
    none), functions, unions, `unrealized_type` and `__NTuple__`. *)
From Coq Require Import List Bool Arith ZArith String.
From Verif.Common Require Import Result.
Import ListNotations.
Open Scope res_scope.
Open Scope nat_scope.

(** type.h:30 LiteralKind *)
Inductive kind := Runtime | KInt | KStr | KBool.
Definition kind_eqb (a b : kind) : bool :=
  match a, b with Runtime, Runtime | KInt, KInt | KStr, KStr | KBool, KBool => true | _, _ => false end.
(** the value of a static type, static.h *)
Inductive lit := LInt (z : Z) | LStr (s : string) | LBool (b : bool).
Definition lit_kind (l : lit) : kind := match l with LInt _ => KInt | LStr _ => KStr | LBool _ => KBool end.

(** [Var]: an unbound or linked LinkType. [Gen]: a generic one, which is never changed here: the code
    may set its static kind (link.cpp:37-47), but then unification fails and the change is undone.
    [Cls]: a ClassType with its generics and hidden generics. *)
Inductive ty :=
  | Var (id : nat)
  | Gen (id : nat) (k : kind)
  | Lit (l : lit)
  | Cls (name : nat) (gs hs : list ty).

Definition nint := 0. Definition nInt := 1. Definition nstr := 2. Definition nbool := 3.
(** static.cpp:27, 64, 100: a static type is a class of this name *)
Definition lit_name (l : lit) : nat := match l with LInt _ => nint | LStr _ => nstr | LBool _ => nbool end.
Definition lit_eqb (a b : lit) : bool :=
  match a, b with
  | LInt x, LInt y => Z.eqb x y | LStr x, LStr y => String.eqb x y | LBool x, LBool y => Bool.eqb x y
  | _, _ => false
  end.

(** link.h: type (None: still unbound), level, staticKind *)
Record cell := Cell { link : option ty; level : nat; sk : kind }.
Definition store := nat -> cell.
(** type.h:44-53 Unification; newest entry first *)
Record log := Log { linked : list nat; leveled : list (nat * nat); statics : list nat }.
Definition state := (store * log)%type.

Definition upd (s : store) (v : nat) (c : cell) : store := fun w => if Nat.eqb w v then c else s w.
Definition setLink (v : nat) (t : ty) (st : state) : state :=
  let '(s, l) := st in
  (upd s v (Cell (Some t) (level (s v)) (sk (s v))), Log (v :: linked l) (leveled l) (statics l)).
Definition setLevel (v : nat) (n : nat) (st : state) : state :=
  let '(s, l) := st in
  (upd s v (Cell (link (s v)) n (sk (s v))), Log (linked l) ((v, level (s v)) :: leveled l) (statics l)).
Definition setStatic (v : nat) (k : kind) (st : state) : state :=
  let '(s, l) := st in
  (upd s v (Cell (link (s v)) (level (s v)) k), Log (linked l) (leveled l) (v :: statics l)).

(** link.cpp:146-151 *)
Fixpoint follow (fuel : nat) (s : store) (t : ty) : res ty :=
  match fuel with
  | O => NoFuel
  | S fuel => match t with
              | Var v => match link (s v) with Some t => follow fuel s t | None => Ok t end
              | _ => Ok t
              end
  end.
(** type.cpp:48-54 *)
Definition staticKind (fuel : nat) (s : store) (t : ty) : res kind :=
  t <- follow fuel s t ;;
  Ok (match t with Var v => sk (s v) | Gen _ k => k | Lit l => lit_kind l | Cls _ _ _ => Runtime end).

(** link.cpp:261-263 *)
Fixpoint anyOf (O : ty -> state -> res (bool * state)) (gs : list ty) (st : state) : res (bool * state) :=
  match gs with
  | [] => Ok (false, st)
  | g :: gs => '(b, st) <- O g st ;;
               if b then Ok (true, st) else anyOf O gs st
  end.

(** link.cpp:240-267. [d]: an undo log is present. Hidden generics are not visited. *)
Fixpoint occurs (fuel : nat) (d : bool) (v : nat) (t : ty) (st : state) : res (bool * state) :=
  match fuel with
  | O => NoFuel
  | S fuel =>
      match t with
      | Var w =>
          match link (fst st w) with
          | Some t => occurs fuel d v t st
          | None =>
              if Nat.eqb w v then Ok (true, st)
              else Ok (false, if d && (level (fst st v) <? level (fst st w)) then setLevel w (level (fst st v)) st else st)
          end
      | Gen _ _ | Lit _ => Ok (false, st)
      | Cls _ gs _ => anyOf (occurs fuel d v) gs st
      end
  end.

(** class.cpp:139-151: one list of generics after the other; reading past the end of the second
    list of hidden generics is undefined *)
Fixpoint unifyList (U : ty -> ty -> state -> res (option nat * state)) (l1 l2 : list ty) (acc : nat) (st : state)
  : res (option nat * state) :=
  match l1, l2 with
  | [], _ => Ok (Some acc, st)
  | _ :: _, [] => Undef
  | x :: l1, y :: l2 =>
      '(r, st) <- U x y st ;;
      match r with Some n => unifyList U l1 l2 (acc + n) st | None => Ok (None, st) end
  end.

(** class.cpp:53-60, 132-152, for two classes (or static types, as classes) [a] and [b] *)
Definition classUnify (U : ty -> ty -> state -> res (option nat * state)) (a b : ty)
    (n1 : nat) (gs1 hs1 : list ty) (n2 : nat) (gs2 hs2 : list ty) (st : state) : res (option nat * state) :=
  if Nat.eqb n1 nint && Nat.eqb n2 nInt then U b a st
  else if Nat.eqb n2 nint && Nat.eqb n1 nInt then
    match gs1 with g :: _ => U g (Lit (LInt 64)) st | [] => Undef end
  else if negb (Nat.eqb n1 n2) then Ok (None, st)
  else if negb (Nat.eqb (List.length gs1) (List.length gs2)) then Ok (None, st)
  else
    '(r, st) <- unifyList U gs1 gs2 3 st ;;
    match r with Some n => unifyList U hs1 hs2 n st | None => Ok (None, st) end.

(** link.cpp:69-92 *)
Definition bindVar (fuel : nat) (d : bool) (v : nat) (t : ty) (st : state) : res (option nat * state) :=
  '(o, st) <- occurs fuel d v t st ;;
  if o then Ok (None, st)
  else if d then t <- follow fuel (fst st) t ;; Ok (Some 0, setLink v t st)
  else Ok (Some 0, st).

(** [unify fuel d a b st] is a->unify(b): [None] is -1 and [Some n] the score. *)
Fixpoint unify (fuel : nat) (d : bool) (a b : ty) (st : state) : res (option nat * state) :=
  match fuel with
  | O => NoFuel
  | S fuel =>
      match a with
      | Var v =>
          match link (fst st v) with
          | Some t => unify fuel d t b st                         (* link.cpp:32-34 *)
          | None =>
              k <- staticKind fuel (fst st) b ;;                  (* 37-47 *)
              if negb (kind_eqb (sk (fst st v)) k) && negb (kind_eqb (sk (fst st v)) Runtime) then Ok (None, st)
              else
                let st := if negb (kind_eqb (sk (fst st v)) k) && d then setStatic v k st else st in
                match b with
                | Var w =>
                    match link (fst st w) with
                    | Some t => unify fuel d t a st               (* 49-50 *)
                    | None => if Nat.eqb v w then Ok (Some 1, st) (* 54-55 *)
                              else if v <? w then unify fuel d b a st  (* 61-62 *)
                              else bindVar fuel d v b st
                    end
                | Gen _ _ => Ok (None, st)                        (* 51-52 *)
                | _ => bindVar fuel d v b st
                end
          end
      | Gen g k =>
          kb <- staticKind fuel (fst st) b ;;
          if negb (kind_eqb k kb) && negb (kind_eqb k Runtime) then Ok (None, st)
          else match b with
               | Var w => match link (fst st w) with Some t => unify fuel d t a st | None => Ok (None, st) end
               | Gen g' _ => if Nat.eqb g g' then Ok (Some 1, st) else Ok (if d then None else Some 1, st)
               | _ => Ok (None, st)
               end
      | Lit l =>                                                  (* static.cpp:30-40, 66-76, 103-113 *)
          bf <- follow fuel (fst st) b ;;
          match bf with
          | Lit l' => if kind_eqb (lit_kind l) (lit_kind l') then Ok (if lit_eqb l l' then Some 1 else None, st)
                      else classUnify (unify fuel d) a bf (lit_name l) [] [] (lit_name l') [] [] st
          | Cls n gs hs => classUnify (unify fuel d) a bf (lit_name l) [] [] n gs hs st
          | _ => unify fuel d b a st
          end
      | Cls n gs hs =>                                            (* class.cpp:53-158 *)
          bf <- follow fuel (fst st) b ;;
          match bf with
          | Lit l' => classUnify (unify fuel d) a bf n gs hs (lit_name l') [] [] st
          | Cls n' gs' hs' => classUnify (unify fuel d) a bf n gs hs n' gs' hs' st
          | _ => unify fuel d b a st
          end
      end
  end.

(** type.cpp:13-28; [Undef] is a failed assertion *)
Fixpoint undoLevels (l : list (nat * nat)) (s : store) : res store :=
  match l with
  | [] => Ok s
  | (v, n) :: l => match link (s v) with
                   | None => undoLevels l (upd s v (Cell None n (sk (s v))))
                   | Some _ => Undef
                   end
  end.
Definition undo (st : state) : res store :=
  let '(s, l) := st in
  let s := fold_left (fun s v => upd s v (Cell None (level (s v)) (sk (s v)))) (linked l) s in
  s <- undoLevels (leveled l) s ;;
  Ok (fold_left (fun s v => upd s v (Cell (link (s v)) (level (s v)) Runtime)) (statics l) s).

(** type.cpp:76-85 operator<<: unify, and undo on failure *)
Definition unifyOrUndo (fuel : nat) (a b : ty) (s : store) : res (bool * store) :=
  '(r, st) <- unify fuel true a b (s, Log [] [] []) ;;
  match r with Some _ => Ok (true, fst st) | None => s <- undo st ;; Ok (false, s) end.

(** Generalisation and instantiation. [slot c i]: the static kind of the i-th generic of class c
    (ClassType::Generic::staticKind), [hslot]: the same for hidden generics. *)
Section Gen.
Context (slot hslot : nat -> nat -> kind).

(** class.cpp:24-31, 33-43: a static value in a runtime slot is replaced by its class, which has no
    generics; anything else is passed to [F]. *)
Definition inSlot {S} (fuel : nat) (s : store) (F : ty -> S -> res (ty * S)) (k : kind) (t : ty) (x : S)
  : res (ty * S) :=
  f <- follow fuel s t ;;
  match k, f with
  | Runtime, Lit l => Ok (Cls (lit_name l) [] [], x)
  | _, _ => F t x
  end.
Fixpoint mapSlots {S} (G : kind -> ty -> S -> res (ty * S)) (k : nat -> kind) (i : nat) (l : list ty) (x : S)
  : res (list ty * S) :=
  match l with
  | [] => Ok ([], x)
  | t :: l => '(t, x) <- G (k i) t x ;;
              '(l, x) <- mapSlots G k (i + 1) l x ;;
              Ok (t :: l, x)
  end.

(** link.cpp:96-117, class.cpp:24-31, 160-170, static.cpp:42-46 *)
Fixpoint generalize (fuel : nat) (s : store) (L : nat) (t : ty) : res ty :=
  match fuel with
  | O => NoFuel
  | S fuel =>
      match t with
      | Var v => match link (s v) with
                 | Some t => generalize fuel s L t
                 | None => Ok (if L <=? level (s v) then Gen v (sk (s v)) else t)
                 end
      | Gen _ _ | Lit _ => Ok t
      | Cls n gs hs =>
          let G := inSlot fuel s (fun t (_ : unit) => t <- generalize fuel s L t ;; Ok (t, tt)) in
          '(gs, _) <- mapSlots G (slot n) 0 gs tt ;;
          '(hs, _) <- mapSlots G (hslot n) 0 hs tt ;;
          Ok (Cls n gs hs)
      end
  end.

(** the store, the unbound counter and the instantiation cache *)
Record inst := Inst { ist : store; next : nat; icache : list (nat * ty) }.
Fixpoint lookup (g : nat) (l : list (nat * ty)) : option ty :=
  match l with [] => None | (x, y) :: l => if Nat.eqb x g then Some y else lookup g l end.

(** link.cpp:119-144, class.cpp:33-43, 172-183, static.cpp:48-53, with a counter and a cache, as
    called from typecheck.cpp:1355-1377 *)
Fixpoint instantiate (fuel : nat) (L : nat) (t : ty) (x : inst) : res (ty * inst) :=
  match fuel with
  | O => NoFuel
  | S fuel =>
      match t with
      | Var v => match link (ist x v) with
                 | Some t => instantiate fuel L t x
                 | None => Ok (t, x)
                 end
      | Gen g k =>
          match lookup g (icache x) with
          | Some t => Ok (t, x)
          | None => Ok (Var (next x), Inst (upd (ist x) (next x) (Cell None L k)) (next x + 1)
                                           ((g, Var (next x)) :: icache x))
          end
      | Lit _ => Ok (t, x)
      | Cls n gs hs =>
          let G := fun k t x => inSlot fuel (ist x) (instantiate fuel L) k t x in
          '(gs, x) <- mapSlots G (slot n) 0 gs x ;;
          '(hs, x) <- mapSlots G (hslot n) 0 hs x ;;
          Ok (Cls n gs hs, x)
      end
  end.
End Gen.
