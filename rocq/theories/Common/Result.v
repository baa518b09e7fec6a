(** Outcomes of modelled code, and a total-correctness predicate transformer.

    [Undef] is undefined behaviour (an access outside an allocated array, LLVM
    poison, a C++ undefined operation), [NoFuel] means that a loop bound of the
    model was exhausted (theorems exclude it) and [Raise] is a Codon exception. *)
From Coq Require Import List ZArith Lia Bool.
Import ListNotations.

Inductive exn : Type :=
| IndexError | KeyError | ValueError | ZeroDivisionError | OverflowError | TypeError
| StopIteration | OtherError.

Inductive res (A : Type) : Type :=
| Ok (a : A)
| Raise (e : exn)
| Undef
| NoFuel.
Arguments Ok {A} _.
Arguments Raise {A} _.
Arguments Undef {A}.
Arguments NoFuel {A}.

Definition bind {A B} (m : res A) (k : A -> res B) : res B :=
  match m with
  | Ok a => k a
  | Raise e => Raise e
  | Undef => Undef
  | NoFuel => NoFuel
  end.

Declare Scope res_scope.
Delimit Scope res_scope with res.
Notation "x <- m ;; k" := (bind m (fun x => k))
  (at level 61, m at next level, right associativity) : res_scope.
Notation "' p <- m ;; k" := (bind m (fun p => k))
  (at level 61, p pattern, m at next level, right associativity) : res_scope.

(** [wp m Q]: [m] terminates normally with a value satisfying [Q]. *)
Definition wp {A} (m : res A) (Q : A -> Prop) : Prop :=
  match m with Ok a => Q a | _ => False end.

Lemma wp_ok {A} (a : A) (Q : A -> Prop) : Q a -> wp (Ok a) Q.
Proof. exact (fun h => h). Qed.

Lemma wp_bind {A B} (m : res A) (k : A -> res B) (Q : B -> Prop) :
  wp m (fun a => wp (k a) Q) -> wp (bind m k) Q.
Proof. destruct m; simpl; auto. Qed.

Lemma wp_conseq {A} (m : res A) (P Q : A -> Prop) :
  wp m P -> (forall a, P a -> Q a) -> wp m Q.
Proof. destruct m; simpl; auto. Qed.

Lemma wp_inv {A} (m : res A) (Q : A -> Prop) :
  wp m Q -> exists a, m = Ok a /\ Q a.
Proof. destruct m; simpl; intros H; try contradiction; eauto. Qed.

Lemma wp_if {A} (b : bool) (m1 m2 : res A) (Q : A -> Prop) :
  (b = true -> wp m1 Q) -> (b = false -> wp m2 Q) -> wp (if b then m1 else m2) Q.
Proof. destruct b; auto. Qed.

(** General loop: the body either continues with a new state or stops. *)
Fixpoint loop {S R} (fuel : nat) (body : S -> res (S + R)) (s : S) : res R :=
  match fuel with
  | O => NoFuel
  | Datatypes.S n =>
      match body s with
      | Ok (inl s') => loop n body s'
      | Ok (inr r) => Ok r
      | Raise e => Raise e
      | Undef => Undef
      | NoFuel => NoFuel
      end
  end.

(** Total-correctness rule: an invariant and a decreasing measure. *)
Lemma wp_loop {S R} (I : S -> Prop) (mu : S -> nat) (body : S -> res (S + R))
      (Q : R -> Prop) :
  (forall s, I s -> wp (body s) (fun o => match o with
                                          | inl s' => I s' /\ mu s' < mu s
                                          | inr r => Q r
                                          end)) ->
  forall fuel s, I s -> mu s < fuel -> wp (loop fuel body s) Q.
Proof.
  intros Hb. induction fuel as [|n IH]; intros s HI Hm; [lia|].
  simpl. specialize (Hb s HI).
  destruct (body s) as [[s'|r]| | |]; simpl in *; try contradiction; auto.
  destruct Hb as [HI' Hlt]. apply IH; [assumption|lia].
Qed.

(** Partial variant used for "never undefined" statements: any outcome but
    [Undef] and [NoFuel]. *)
Definition wpx {A} (m : res A) (Q : A -> Prop) (E : exn -> Prop) : Prop :=
  match m with Ok a => Q a | Raise e => E e | _ => False end.
