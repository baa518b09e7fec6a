(** Independent notions for sum, any and all of generators. *)
From Coq Require Import List Bool.
From Verif Require Import Gen.GenModel.
Import ListNotations.

Section Spec.
  Context {S V R E : Type}.

  (** The values a generator yields when it is run to its end by a consumer that
      does nothing, the final state, and how it ended. *)
  Fixpoint drain (g : gen S V R E) : list V * S * out R E :=
    match g with
    | GDone s o => ([], s, o)
    | GYield s v k => let '(vs, s', o) := drain (k s) in (v :: vs, s', o)
    end.

  (** Syntactic conditions on the body of a generator. *)
  Fixpoint yields (b : stmt S V R E) : bool :=
    match b with
    | SYield _ => true
    | SSeq a b | SIf _ a b => yields a || yields b
    | SWhile _ a => yields a
    | STry a _ _ h f => yields a || yields h || yields f
    | _ => false
    end.

  (** break and continue occur only inside loops. *)
  Fixpoint loops_ok (inside : bool) (b : stmt S V R E) : bool :=
    match b with
    | SBreak | SContinue => inside
    | SSeq a b | SIf _ a b => loops_ok inside a && loops_ok inside b
    | SWhile _ a => loops_ok true a
    | STry a _ _ h f => loops_ok inside a && loops_ok inside h && loops_ok inside f
    | _ => true
    end.

  (** No yield in the try or except part of a statement with a finally clause. *)
  Fixpoint not_under_finally (b : stmt S V R E) : bool :=
    match b with
    | SSeq a b | SIf _ a b => not_under_finally a && not_under_finally b
    | SWhile _ a => not_under_finally a
    | STry a _ _ h f =>
        (match f with SSkip => true | _ => negb (yields a) && negb (yields h) end)
        && not_under_finally a && not_under_finally h && not_under_finally f
    | _ => true
    end.

  (** No yield in the try part of a statement with an except clause. *)
  Fixpoint not_under_except (b : stmt S V R E) : bool :=
    match b with
    | SSeq a b | SIf _ a b => not_under_except a && not_under_except b
    | SWhile _ a => not_under_except a
    | STry a _ _ h f =>
        negb (yields a) && not_under_except a && not_under_except h && not_under_except f
    | _ => true
    end.

  (** No yield in a finally clause. *)
  Fixpoint not_in_finally (b : stmt S V R E) : bool :=
    match b with
    | SSeq a b | SIf _ a b => not_in_finally a && not_in_finally b
    | SWhile _ a => not_in_finally a
    | STry a _ _ h f =>
        negb (yields f) && not_in_finally a && not_in_finally h && not_in_finally f
    | _ => true
    end.

  (** An operation of the consumer on yielded values that never raises. *)
  Definition total1 {A : Type} (f : V -> S -> S * (A + E)) : Prop :=
    forall v s s' e, f v s <> (s', inr e).
  Definition total2 {A B : Type} (f : A -> V -> S -> S * (B + E)) : Prop :=
    forall a v s s' e, f a v s <> (s', inr e).
End Spec.

(** A function returns exactly the value [r] stands for. *)
Definition returns {S A E : Type} (x : S * result A E) : S * result (option A) E :=
  (fst x, match snd x with
          | RVal a => RVal (Some a)
          | RExn e => RExn e
          | RFuel => RFuel
          end).
