(** The code generated for try/except/else/finally, loops, break, continue and
    return inside a function: codon/cir/llvm/llvisitor.cpp, and what the
    exception personality of codon/runtime/exc.cpp does with it.

    The generated LLVM function is modelled as a list of labelled one-instruction
    blocks; a basic block of several instructions is a chain of them.  Block
    labels and the sequence numbers of [enterLoop], [enterTry] and
    [enterFinally] are drawn from one supply (llvisitor.cpp:1437 has a counter of
    its own for the latter; only their order matters).

    Not modelled: coroutines (coro.exit), functions without return value (their
    value type here is unit), DisableExceptions, foreign exceptions
    (llvisitor.cpp:2993-3000, assumed unreachable by the code itself), breaks
    that name a loop other than the innermost one (only made by IR passes). *)
From Coq Require Import List Bool Arith.
From Verif Require Import Exc.Spec.
Import ListNotations.

Section Machine.
  Context {S V X : Type}.
  Context (isinst : X -> nat -> bool).

  Local Notation stmt := (stmt S V X).
  Local Notation handlers := (handlers S V X).

  (** TryCatchData::State: llvisitor.h:43-51. *)
  Inductive flag : Type :=
  | NotThrown | Thrown | Caught | FReturn | FBreak | FContinue | Rethrow.

  Definition flag_eqb (a b : flag) : bool :=
    match a, b with
    | NotThrown, NotThrown | Thrown, Thrown | Caught, Caught | FReturn, FReturn
    | FBreak, FBreak | FContinue, FContinue | Rethrow, Rethrow => true
    | _, _ => false
    end.

  (** The five stack slots of an outermost try: llvisitor.cpp:2757-2768.
      [c_catch] is catchStore: the exception and the selector ([None] is 0). *)
  Record cell : Type := mkCell {
    c_flag : flag;
    c_catch : option (X * option nat);
    c_depth : nat;
    c_ret : option V;
    c_loop : option nat }.

  (** llvisitor.cpp:2765-2768: the initial values, stored on function entry. *)
  Definition cell0 : cell := mkCell NotThrown None 0 None None.

  Definition mem : Type := nat -> cell.
  Definition mem0 : mem := fun _ => cell0.
  Definition upd (m : mem) (c : nat) (v : cell) : mem :=
    fun c' => if Nat.eqb c' c then v else m c'.

  Definition set_flag (f : flag) (v : cell) : cell :=
    mkCell f (c_catch v) (c_depth v) (c_ret v) (c_loop v).
  Definition set_catch (p : X * option nat) (v : cell) : cell :=
    mkCell (c_flag v) (Some p) (c_depth v) (c_ret v) (c_loop v).
  Definition set_depth (d : nat) (v : cell) : cell :=
    mkCell (c_flag v) (c_catch v) d (c_ret v) (c_loop v).
  Definition set_ret (r : V) (v : cell) : cell :=
    mkCell (c_flag v) (c_catch v) (c_depth v) (Some r) (c_loop v).
  Definition set_loop (l : nat) (v : cell) : cell :=
    mkCell (c_flag v) (c_catch v) (c_depth v) (c_ret v) (Some l).

  (** The instructions the visitor emits, with the labels control goes on at. *)
  Inductive instr : Type :=
  | IBr (l : nat)
  | IAct (a : S -> S + X * S) (l : nat) (unwind : option nat)   (* call/invoke *)
  | ICond (c : S -> bool) (l1 l2 : nat)
  | IPad (clauses : list (option nat)) (c l : nat)              (* landingpad; store *)
  | ISetFlag (c : nat) (f : flag) (l : nat)
  | ISetDepth (c d l : nat)
  | ISetRet (c : nat) (v : S -> V) (l : nat)
  | ISetLoop (c q l : nat)
  | IDecDepth (c l : nat)
  | IIfDepth (c l1 l2 : nat)                                    (* depth > 0 ? *)
  | ISwitchFlag (c : nat) (cases : list (flag * nat)) (default : nat)
  | ISwitchSel (c : nat) (cases : list (nat * nat)) (default : nat)
  | ISwitchLoop (c : nat) (cases : list (nat * nat)) (default : nat)
  | IBind (b : X -> S -> S) (c l : nat)                         (* except ... as e *)
  | IResume (c : nat)
  | IThrow (c : nat) (unwind : option nat)
  | IRet (v : S -> V)
  | IRetStore (c : nat)
  | IUnreachable.

  Definition code : Type := list (nat * instr).

  (** *** Running it *)

  Inductive mstate : Type :=
  | At (l : nat) (s : S) (m : mem)
  | Land (l : nat) (e : X) (s : S) (m : mem)   (* an exception arriving at a pad *)
  | Returned (v : V) (s : S)
  | Unwound (e : X) (s : S)                    (* the exception left the function *)
  | UB.

  (** The personality function: the first clause that is 0 or a type the object
      is an instance of; the selector is that clause's type index, and 0 for the
      catch-all clause and when only the cleanup applies.
      runtime/exc.cpp handleActionValue and seq_personality. *)
  Fixpoint select (clauses : list (option nat)) (e : X) : option nat :=
    match clauses with
    | [] => None
    | t :: ts => if catches isinst e t then t else select ts e
    end.

  Fixpoint assoc (k : nat) (cases : list (nat * nat)) (default : nat) : nat :=
    match cases with
    | [] => default
    | (k', l) :: r => if Nat.eqb k k' then l else assoc k r default
    end.

  Fixpoint assoc_flag (k : flag) (cases : list (flag * nat)) (default : nat) : nat :=
    match cases with
    | [] => default
    | (k', l) :: r => if flag_eqb k k' then l else assoc_flag k r default
    end.

  Definition switch (k : option nat) (cases : list (nat * nat)) (default : nat) : nat :=
    match k with Some k => assoc k cases default | None => default end.

  (** An exception leaving an instruction: llvm invoke/call. *)
  Definition throw_to (unwind : option nat) (e : X) (s : S) (m : mem) : mstate :=
    match unwind with
    | Some l => Land l e s m
    | None => Unwound e s
    end.

  (** One instruction.  [None]: the machine has stopped (it returned, left by an
      exception, or control reached a label outside the code). *)
  Definition step (P : nat -> option instr) (st : mstate) : option mstate :=
    match st with
    | At l s m =>
        match P l with
        | None => None
        | Some i =>
            Some match i with
            | IBr l => At l s m
            | IAct a l u => match a s with
                            | inl s' => At l s' m
                            | inr (e, s') => throw_to u e s' m
                            end
            | ICond c l1 l2 => At (if c s then l1 else l2) s m
            | IPad _ _ _ => UB
            | ISetFlag c f l => At l s (upd m c (set_flag f (m c)))
            | ISetDepth c d l => At l s (upd m c (set_depth d (m c)))
            | ISetRet c v l => At l s (upd m c (set_ret (v s) (m c)))
            | ISetLoop c q l => At l s (upd m c (set_loop q (m c)))
            | IDecDepth c l => At l s (upd m c (set_depth (c_depth (m c) - 1) (m c)))
            | IIfDepth c l1 l2 => At (if 0 <? c_depth (m c) then l1 else l2) s m
            | ISwitchFlag c cases d => At (assoc_flag (c_flag (m c)) cases d) s m
            | ISwitchSel c cases d =>
                match c_catch (m c) with
                | Some (_, sel) => At (switch sel cases d) s m
                | None => UB
                end
            | ISwitchLoop c cases d => At (switch (c_loop (m c)) cases d) s m
            | IBind b c l => match c_catch (m c) with
                             | Some (e, _) => At l (b e s) m
                             | None => UB
                             end
            | IResume c => match c_catch (m c) with
                           | Some (e, _) => Unwound e s
                           | None => UB
                           end
            | IThrow c u => match c_catch (m c) with
                            | Some (e, _) => throw_to u e s m
                            | None => UB
                            end
            | IRet v => Returned (v s) s
            | IRetStore c => match c_ret (m c) with
                             | Some v => Returned v s
                             | None => UB
                             end
            | IUnreachable => UB
            end
        end
    | Land l e s m =>
        match P l with
        | Some (IPad clauses c l') =>
            Some (At l' s (upd m c (set_catch (e, select clauses e) (m c))))
        | _ => Some UB
        end
    | _ => None
    end.

  Fixpoint run (P : nat -> option instr) (fuel : nat) (st : mstate) : mstate :=
    match fuel with
    | O => st
    | Datatypes.S fuel' => match step P st with
                 | Some st' => run P fuel' st'
                 | None => st
                 end
    end.

  (** *** Generating it *)

  (** LoopData: llvisitor.h:75-83. *)
  Record loopd : Type := mkLoop { l_seq : nat; l_brk : nat; l_cont : nat }.

  (** TryCatchData: llvisitor.h:41-73.  [t_cell] stands for the five slots; the
      handler blocks are only needed while the try itself is generated. *)
  Record tryd : Type := mkTry {
    t_seq : nat; t_exc : nat; t_route : nat; t_fin : nat; t_finexc : nat;
    t_types : list (option nat); t_cell : nat }.

  (** The three stacks, innermost first (the C++ vectors have it last). *)
  Record ctx : Type := mkCtx {
    loops : list loopd; tries : list tryd; finallys : list tryd }.

  Definition ctx0 : ctx := mkCtx [] [] [].

  (** call(): llvisitor.cpp:1414-1435. *)
  Definition unwind_of (g : ctx) : option nat :=
    match tries g, finallys g with
    | [], [] => None
    | t :: _, [] => Some (t_exc t)
    | [], f :: _ => Some (t_finexc f)
    | t :: _, f :: _ =>
        Some (if t_seq f <? t_seq t then t_exc t else t_finexc f)
    end.

  Definition opt_eqb (a b : option nat) : bool :=
    match a, b with
    | None, None => true
    | Some x, Some y => Nat.eqb x y
    | _, _ => false
    end.

  (** llvisitor.cpp:2921-2945: the clauses taken over from enclosing tries, each
      with the number of tries to leave for it.  [new_types]: those of one
      enclosing try that are not listed yet (anyMatch, llvisitor.cpp:2708-2718). *)
  Fixpoint new_types (ts : list (option nat)) (acc : list (option nat))
    : list (option nat) :=
    match ts with
    | [] => []
    | t :: r => if existsb (opt_eqb t) acc then new_types r acc
                else t :: new_types r (acc ++ [t])
    end.

  Fixpoint parent_types (ps : list tryd) (d : nat) (acc : list (option nat))
    : list (option nat * nat) :=
    if existsb (opt_eqb None) acc then [] else
    match ps with
    | [] => []
    | p :: r =>
        let nw := new_types (t_types p) acc in
        map (fun t => (t, d)) nw ++ parent_types r (d + 1) (acc ++ nw)
    end.

  (** Numbered depthSet blocks for those: llvisitor.cpp:3021-3032. *)
  Fixpoint parent_blocks (pts : list (option nat * nat)) (n c f : nat) : code :=
    match pts with
    | [] => []
    | (_, d) :: r => (n, ISetDepth c d f) :: parent_blocks r (n + 1) c f
    end.

  Fixpoint parent_cases (pts : list (option nat * nat)) (n : nat) : list (nat * nat) :=
    match pts with
    | [] => []
    | (Some t, _) :: r => (t, n) :: parent_cases r (n + 1)
    | (None, _) :: r => parent_cases r (n + 1)
    end.

  (** The own cases of the switch on the selector, and the own catch-all. *)
  Fixpoint own_cases (es : list (option nat * nat * nat)) : list (nat * nat) :=
    match es with
    | [] => []
    | (Some t, ds, _) :: r => (t, ds) :: own_cases r
    | (None, _, _) :: r => own_cases r
    end.

  Fixpoint own_all (es : list (option nat * nat * nat)) : option nat :=
    match es with
    | [] => None
    | (None, _, h) :: _ => Some h
    | _ :: r => own_all r
    end.

  Fixpoint parent_all (pts : list (option nat * nat)) : option nat :=
    match pts with
    | [] => None
    | (None, d) :: _ => Some d
    | _ :: r => parent_all r
    end.

  Fixpoint handler_types (hs : handlers) : list (option nat) :=
    match hs with HNil => [] | HCons t _ _ r => t :: handler_types r end.

  (** llvisitor.cpp:2855-2868: where a break (continue) that went through this
      finally goes next, for each enclosing loop. *)
  Definition to_parent (g : ctx) (l : loopd) : option nat :=
    match tries g with
    | [] => None
    | p :: _ => if l_seq l <? t_seq p then Some (t_fin p) else None
    end.
  Definition brk_cases (g : ctx) (done : nat) : list (nat * nat) :=
    map (fun l => (l_seq l, match to_parent g l with Some f => f | None => done end))
        (loops g).
  Definition done_cases (g : ctx) (target : loopd -> nat) : list (nat * nat) :=
    map (fun l => (l_seq l, target l))
        (filter (fun l => match to_parent g l with Some _ => false | None => true end)
                (loops g)).

  Definition is_nil {A} (l : list A) : bool := match l with [] => true | _ => false end.

  (** [trycatch[0]]: the slots of the outermost try (llvisitor.cpp:2769-2775). *)
  Definition root_cell (ts : list tryd) (fresh : nat) : nat :=
    match ts with [] => fresh | t :: r => t_cell (last r t) end.

  (** The blocks of a try that do not depend on its parts' code.  [n]: first of
      its labels; [exit]: endBlock; [b0 be el ee]: ends of body and else. *)
  Definition try_labels : nat := 28.

  Definition fin_code (g : ctx) (n c exit : nat) : code :=
    (* 2782-2803: after the finally body; delegation *)
    (n + 8, match tries g with
            | [] => IBr (n + 11)
            | _ => IIfDepth c (n + 9) (n + 11)
            end) ::
    (n + 9, IDecDepth c (n + 10)) ::
    (n + 10, match tries g with
             | [] => IUnreachable
             | p :: _ => IIfDepth c (t_fin p) (t_route p)
             end) ::
    (* 2805-2819: exceptions out of handlers and else *)
    (n + 4, IPad [None] c (n + 21)) ::
    (n + 21, ISetFlag c Rethrow (n + 22)) ::
    (n + 22, ISetDepth c (length (tries g)) (n + 3)) ::
    (* 2821-2844, 2869-2870: what was pending *)
    (n + 11, ISwitchFlag c
       ((Caught, exit) :: (Thrown, n + 5) :: (Rethrow, n + 6) ::
        (FReturn, match tries g with [] => n + 12 | p :: _ => t_fin p end) ::
        (if is_nil (loops g) then [] else [(FBreak, n + 13); (FContinue, n + 16)]))
       exit) ::
    (n + 12, IRetStore c) ::
    (* 2846-2868 *)
    (n + 13, ISwitchLoop c (brk_cases g (n + 14)) exit) ::
    (n + 14, ISetFlag c NotThrown (n + 15)) ::
    (n + 15, ISwitchLoop c (done_cases g l_brk) exit) ::
    (n + 16, ISwitchLoop c (brk_cases g (n + 17)) exit) ::
    (n + 17, ISetFlag c NotThrown (n + 18)) ::
    (n + 18, ISwitchLoop c (done_cases g l_cont) exit) ::
    (* 2910-2915 *)
    (n + 5, IResume c) :: nil.

  Definition exc_code (g : ctx) (n c : nat) (hf : bool) (own : list (option nat))
      (pts : list (option nat * nat)) (es : list (option nat * nat * nat))
      (np : nat) : code :=
    (* 2948-2991 *)
    (n + 1, IPad (own ++ map fst pts) c (n + 19)) ::
    (n + 19, ISetFlag c Thrown (n + 20)) ::
    (n + 20, ISetDepth c (length (tries g)) (n + 2)) ::
    (* 3009-3034 *)
    (n + 2, ISwitchSel c (own_cases es ++ parent_cases pts np) (n + 7)) ::
    (n + 7, match own_all es with
            | Some h => ISetDepth c 0 h
            | None => match parent_all pts with
                      | Some d => ISetDepth c d (n + 3)
                      | None => IBr (n + 3)
                      end
            end) ::
    (* 3065-3080 *)
    (n + 6, if hf then IThrow c (unwind_of g) else IUnreachable) :: nil.

  (** [gen n g s entry exit]: the code of [s] entered at [entry] and left at
      [exit], and the next unused number. *)
  Fixpoint gen (n : nat) (g : ctx) (s : stmt) (entry exit : nat) {struct s}
    : code * nat :=
    match s with
    | Skip => ([(entry, IBr exit)], n)
    | Act a => ([(entry, IAct a exit (unwind_of g))], n)
    | Seq a b =>
        let (ca, n1) := gen (n + 1) g a entry n in
        let (cb, n2) := gen n1 g b n exit in
        (ca ++ cb, n2)
    | If c a b =>
        (* 2540-2571 *)
        let (ca, n1) := gen (n + 2) g a n exit in
        let (cb, n2) := gen n1 g b (n + 1) exit in
        ((entry, ICond c n (n + 1)) :: ca ++ cb, n2)
    | While c a =>
        (* 2573-2598: condBlock is [n], bodyBlock [n + 1], the latch [n + 2] *)
        let g' := mkCtx (mkLoop (n + 3) exit n :: loops g) (tries g) (finallys g) in
        let (ca, n1) := gen (n + 4) g' a (n + 1) (n + 2) in
        ((entry, IBr n) :: (n, ICond c (n + 1) exit) :: (n + 2, IBr n) :: ca, n1)
    | Break =>
        (* 3351-3368 *)
        match loops g with
        | [] => ([(entry, IUnreachable)], n)
        | l :: _ =>
            match finallys g with
            | f :: _ =>
                if t_seq f <? l_seq l then ([(entry, IBr (l_brk l))], n)
                else ([(entry, ISetFlag (t_cell f) FBreak n);
                       (n, ISetLoop (t_cell f) (l_seq l) (t_fin f))], n + 1)
            | [] => ([(entry, IBr (l_brk l))], n)
            end
        end
    | Continue =>
        (* 3370-3386 *)
        match loops g with
        | [] => ([(entry, IUnreachable)], n)
        | l :: _ =>
            match finallys g with
            | f :: _ =>
                if t_seq f <? l_seq l then ([(entry, IBr (l_cont l))], n)
                else ([(entry, ISetFlag (t_cell f) FContinue n);
                       (n, ISetLoop (t_cell f) (l_seq l) (t_fin f))], n + 1)
            | [] => ([(entry, IBr (l_cont l))], n)
            end
        end
    | Return v =>
        (* 3388-3421 *)
        match tries g with
        | t :: _ => ([(entry, ISetFlag (t_cell t) FReturn n);
                      (n, ISetRet (t_cell t) v (t_fin t))], n + 1)
        | [] => ([(entry, IRet v)], n)
        end
    | Try body hs els fin =>
        (* 2721-3083 *)
        let c := root_cell (tries g) (n + 27) in
        let hf := has_finally fin in
        let (cf, n1) := gen (n + try_labels) g fin (n + 3) (n + 8) in
        let td q := mkTry q (n + 1) (n + 2) (n + 3) (n + 4) (handler_types hs) c in
        let g1 := mkCtx (loops g) (tries g)
                        (if hf then td n1 :: finallys g else finallys g) in
        let g2 := mkCtx (loops g) (td (n1 + 1) :: tries g) (finallys g1) in
        let (cb, n2) := gen (n1 + 2) g2 body (n + 23) (n + 24) in
        let (ce, n3) := gen n2 g1 els (n + 25) (n + 26) in
        let '(ch, n4, es) := gen_handlers n3 g1 c (n + 3) hs in
        let pts := parent_types (tries g) 1 (handler_types hs) in
        ((entry, IBr n) ::
         (n, if is_nil (loops g) then IBr (n + 23) else ISetFlag c NotThrown (n + 23)) ::
         (n + 24, IBr (n + 25)) ::
         (n + 26, IBr (n + 3)) ::
         fin_code g n c exit ++
         exc_code g n c hf (handler_types hs) pts es n4 ++
         parent_blocks pts n4 c (n + 3) ++
         cf ++ cb ++ ce ++ ch,
         n4 + length pts)
    end
  (** 3021-3058: per own handler the depthSet block [n], the handler block
      [n + 1] and its code; the entries say which type leads where. *)
  with gen_handlers (n : nat) (g : ctx) (c f : nat) (hs : handlers) {struct hs}
    : code * nat * list (option nat * nat * nat) :=
    match hs with
    | HNil => ([], n, [])
    | HCons t b h rest =>
        let (ch, n1) := gen (n + 5) g h (n + 3) (n + 4) in
        let '(cr, n2, es) := gen_handlers n1 g c f rest in
        ((n, ISetDepth c 0 (n + 1)) :: (n + 1, IBind b c (n + 2)) ::
         (n + 2, ISetFlag c Caught (n + 3)) :: (n + 4, IBr f) :: ch ++ cr,
         n2, (t, n, n + 1) :: es)
    end.

  (** The program as a map. *)
  Fixpoint fetch (p : code) (l : nat) : option instr :=
    match p with
    | [] => None
    | (l', i) :: r => if Nat.eqb l l' then Some i else fetch r l
    end.

  (** A function body: it starts at 0, and falling off its end is reaching 1,
      where nothing is. *)
  Definition compile (s : stmt) : nat -> option instr :=
    fetch (fst (gen 2 ctx0 s 0 1)).

  Definition start (s : S) : mstate := At 0 s mem0.
End Machine.
