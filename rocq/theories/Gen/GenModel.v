(** sum, any and all of a call of a generator function, before and after
    codon/cir/transform/pythonic/generator.cpp.

    A generator body is a statement; expressions (with everything they call) are
    arbitrary functions on the state that return a value or raise.  Running a
    body gives a tree: either it is done, or it is suspended at a yield and can
    be resumed in whatever state the consumer has left.

    Simplifications.  A try statement has one except clause, with a predicate that
    says which exceptions it takes (several clauses are one clause that
    dispatches), and a finally clause, which is [SSkip] when absent.  Loops over
    iterators are while loops whose condition advances the iterator.  Types:
    the result type of the accumulator is given, with its conversion done by the
    caller of the model (generator.cpp:149-156).  [fuel] bounds the number of
    iterations of each loop; running out is a separate outcome. *)
From Coq Require Import List Bool.
Import ListNotations.

Inductive stmt (S V R E : Type) : Type :=
| SSkip
| SDo (f : S -> S * (unit + E))                  (* expression or assignment *)
| SSeq (a b : stmt S V R E)
| SIf (c : S -> S * (bool + E)) (a b : stmt S V R E)
| SWhile (c : S -> S * (bool + E)) (a : stmt S V R E)
| SBreak
| SContinue
| SReturn (f : S -> S * (R + E))
| SYield (f : S -> S * (V + E))
| STry (a : stmt S V R E) (takes : E -> bool) (bnd : E -> S -> S)
       (h : stmt S V R E) (fin : stmt S V R E).
Arguments SSkip {S V R E}.
Arguments SDo {S V R E}.
Arguments SSeq {S V R E}.
Arguments SIf {S V R E}.
Arguments SWhile {S V R E}.
Arguments SBreak {S V R E}.
Arguments SContinue {S V R E}.
Arguments SReturn {S V R E}.
Arguments SYield {S V R E}.
Arguments STry {S V R E}.

(** How a statement ends. *)
Inductive out (R E : Type) : Type :=
| ONormal | OBreak | OContinue | OReturn (r : R) | ORaise (e : E) | OFuel.
Arguments ONormal {R E}.
Arguments OBreak {R E}.
Arguments OContinue {R E}.
Arguments OReturn {R E}.
Arguments ORaise {R E}.
Arguments OFuel {R E}.

(** A running body: done, or suspended at a yield. *)
Inductive gen (S V R E : Type) : Type :=
| GDone (s : S) (o : out R E)
| GYield (s : S) (v : V) (resume : S -> gen S V R E).
Arguments GDone {S V R E}.
Arguments GYield {S V R E}.

Section Run.
  Context {S V R E : Type}.

  Fixpoint gbind (g : gen S V R E) (k : S -> out R E -> gen S V R E) : gen S V R E :=
    match g with
    | GDone s o => k s o
    | GYield s v r => GYield s v (fun s' => gbind (r s') k)
    end.

  (** while: codon/cir/llvm/llvisitor.cpp, visit(WhileFlow). *)
  Fixpoint wloop (n : nat) (c : S -> S * (bool + E)) (body : S -> gen S V R E) (s : S)
    : gen S V R E :=
    match n with
    | O => GDone s OFuel
    | Datatypes.S n' =>
        match c s with
        | (s', inr e) => GDone s' (ORaise e)
        | (s', inl false) => GDone s' ONormal
        | (s', inl true) =>
            gbind (body s') (fun s o =>
              match o with
              | ONormal | OContinue => wloop n' c body s
              | OBreak => GDone s ONormal
              | _ => GDone s o
              end)
        end
    end.

  (** The meaning of the statements; try/except/finally as proved for the
      generated code in C54.  A finally clause that does not end normally
      replaces the outcome it interrupted. *)
  Fixpoint exec (fuel : nat) (b : stmt S V R E) (s : S) : gen S V R E :=
    match b with
    | SSkip => GDone s ONormal
    | SDo f => match f s with
               | (s', inl _) => GDone s' ONormal
               | (s', inr e) => GDone s' (ORaise e)
               end
    | SSeq a b => gbind (exec fuel a s) (fun s o =>
                    match o with ONormal => exec fuel b s | _ => GDone s o end)
    | SIf c a b => match c s with
                   | (s', inl true) => exec fuel a s'
                   | (s', inl false) => exec fuel b s'
                   | (s', inr e) => GDone s' (ORaise e)
                   end
    | SWhile c a => wloop fuel c (exec fuel a) s
    | SBreak => GDone s OBreak
    | SContinue => GDone s OContinue
    | SReturn f => match f s with
                   | (s', inl r) => GDone s' (OReturn r)
                   | (s', inr e) => GDone s' (ORaise e)
                   end
    | SYield f => match f s with
                  | (s', inl v) => GYield s' v (fun s'' => GDone s'' ONormal)
                  | (s', inr e) => GDone s' (ORaise e)
                  end
    | STry a takes bnd h fin =>
        gbind
          (gbind (exec fuel a s) (fun s o =>
             match o with
             | ORaise e => if takes e then exec fuel h (bnd e s) else GDone s o
             | _ => GDone s o
             end))
          (fun s o =>
             match o with
             | OFuel => GDone s o
             | _ => gbind (exec fuel fin s) (fun s' o' =>
                      match o' with ONormal => GDone s' o | _ => GDone s' o' end)
             end)
    end.
End Run.

(** What a call gives: a value or an exception (or the loop bound was hit). *)
Inductive result (A E : Type) : Type := RVal (a : A) | RExn (e : E) | RFuel.
Arguments RVal {A E}.
Arguments RExn {A E}.
Arguments RFuel {A E}.

(** What the body of a for loop does with an element: go on with new values of
    the consumer's variables, return, or raise. *)
Inductive step (A B E : Type) : Type := KNext (a : A) | KReturn (b : B) | KRaise (e : E).
Arguments KNext {A B E}.
Arguments KReturn {A B E}.
Arguments KRaise {A B E}.

(** for x in g: body, over a running generator: llvisitor.cpp:2600-2656.  Each
    round resumes the generator, leaves the loop when it is done, and otherwise
    takes the yielded value.  A generator that is left early is not resumed
    again (breakBlock is for.exit, which passes by for.cleanup).  [after] is the
    code after the loop. *)
Fixpoint for_in {S V R E A B : Type} (g : gen S V R E)
    (body : V -> A -> S -> S * step A B E) (after : A -> B) (a : A)
  : S * result B E :=
  match g with
  | GDone s o => (s, match o with
                     | ORaise e => RExn e
                     | OFuel => RFuel
                     | _ => RVal (after a)
                     end)
  | GYield s v k =>
      match body v a s with
      | (s', KNext a') => for_in (k s') body after a'
      | (s', KReturn b) => (s', RVal b)
      | (s', KRaise e) => (s', RExn e)
      end
  end.

(** A call of an ordinary function whose body is [b]. *)
Definition call {S R E : Type} (fuel : nat) (b : stmt S Empty_set R E) (s : S)
  : S * result (option R) E :=
  match exec fuel b s with
  | GDone s o => (s, match o with
                     | OReturn r => RVal (Some r)
                     | ORaise e => RExn e
                     | OFuel => RFuel
                     | _ => RVal None
                     end)
  | GYield _ v _ => match v with end
  end.

Section Builtins.
  Context {S V E : Type}.
  (** __bool__ of the yielded type. *)
  Context (truth : V -> S -> S * (bool + E)).

  (** any: stdlib/internal/builtin.codon:183-187. *)
  Definition py_any (fuel : nat) (b : stmt S V unit E) (s : S) : S * result bool E :=
    for_in (exec fuel b s)
      (fun v _ s => match truth v s with
                    | (s', inl true) => (s', KReturn true)
                    | (s', inl false) => (s', KNext tt)
                    | (s', inr e) => (s', KRaise e)
                    end)
      (fun _ => false) tt.

  (** all: builtin.codon:189-193. *)
  Definition py_all (fuel : nat) (b : stmt S V unit E) (s : S) : S * result bool E :=
    for_in (exec fuel b s)
      (fun v _ s => match truth v s with
                    | (s', inl false) => (s', KReturn false)
                    | (s', inl true) => (s', KNext tt)
                    | (s', inr e) => (s', KRaise e)
                    end)
      (fun _ => true) tt.

  Context {A : Type}.
  (** acc + v: __add__ of the accumulator's type (1 if v else 0 for bool). *)
  Context (add : A -> V -> S -> S * (A + E)).

  (** sum: builtin.codon:252-300, the cases of generators. *)
  Definition py_sum (fuel : nat) (b : stmt S V unit E) (start : A) (s : S)
    : S * result A E :=
    for_in (exec fuel b s)
      (fun v a s => match add a v s with
                    | (s', inl a') => (s', KNext a')
                    | (s', inr e) => (s', KRaise e)
                    end)
      (fun a => a) start.

  (** GeneratorAnyAllTransformer: generator.cpp:76-115; [any] is its flag. *)
  Fixpoint fuse_bool (any : bool) (b : stmt S V unit E) : stmt S Empty_set bool E :=
    match b with
    | SSkip => SSkip
    | SDo f => SDo f
    | SSeq a b => SSeq (fuse_bool any a) (fuse_bool any b)
    | SIf c a b => SIf c (fuse_bool any a) (fuse_bool any b)
    | SWhile c a => SWhile c (fuse_bool any a)
    | SBreak => SBreak
    | SContinue => SContinue
    | SReturn f => SSeq (SDo f) (SReturn (fun s => (s, inl (negb any))))
    | SYield f =>
        SIf (fun s => match f s with
                      | (s', inl v) =>
                          match truth v s' with
                          | (s'', inl t) => (s'', inl (if any then t else negb t))
                          | (s'', inr e) => (s'', inr e)
                          end
                      | (s', inr e) => (s', inr e)
                      end)
            (SReturn (fun s => (s, inl any))) SSkip
    | STry a takes bnd h fin =>
        STry (fuse_bool any a) takes bnd (fuse_bool any h) (fuse_bool any fin)
    end.

  (** genToAnyAll: generator.cpp:171-207. *)
  Definition any_all_wrapper (any : bool) (b : stmt S V unit E)
    : stmt S Empty_set bool E :=
    SSeq (fuse_bool any b) (SReturn (fun s => (s, inl (negb any)))).

  (** An expression of the body in the wrapper, which has one more variable. *)
  Definition lift {T : Type} (f : S -> S * T) (sa : S * A) : (S * A) * T :=
    let '(s', t) := f (fst sa) in ((s', snd sa), t).

  (** GeneratorSumTransformer: generator.cpp:31-73. *)
  Fixpoint fuse_sum (b : stmt S V unit E) : stmt (S * A) Empty_set A E :=
    match b with
    | SSkip => SSkip
    | SDo f => SDo (lift f)
    | SSeq a b => SSeq (fuse_sum a) (fuse_sum b)
    | SIf c a b => SIf (lift c) (fuse_sum a) (fuse_sum b)
    | SWhile c a => SWhile (lift c) (fuse_sum a)
    | SBreak => SBreak
    | SContinue => SContinue
    | SReturn f => SSeq (SDo (lift f)) (SReturn (fun sa => (sa, inl (snd sa))))
    | SYield f =>
        SDo (fun sa =>
               match f (fst sa) with
               | (s', inl v) =>
                   match add (snd sa) v s' with
                   | (s'', inl a') => ((s'', a'), inl tt)
                   | (s'', inr e) => ((s'', snd sa), inr e)
                   end
               | (s', inr e) => ((s', snd sa), inr e)
               end)
    | STry a takes bnd h fin =>
        STry (fuse_sum a) takes (fun e sa => (bnd e (fst sa), snd sa))
             (fuse_sum h) (fuse_sum fin)
    end.

  (** genToSum: generator.cpp:117-169. *)
  Definition sum_wrapper (b : stmt S V unit E) : stmt (S * A) Empty_set A E :=
    SSeq (fuse_sum b) (SReturn (fun sa => (sa, inl (snd sa)))).
End Builtins.
