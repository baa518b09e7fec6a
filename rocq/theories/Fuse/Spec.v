(** What programs that add strings, print and write to files do. The worlds in which they run have a part that
    the rest of the program may use in any way, the text sent to each stream, and which files are open. *)
From Coq Require Import List ZArith Bool.
From Verif.Common Require Import Result.
Import ListNotations.

Notation text := (list Z).

Section Semantics.
Context {U : Type}.

Record world : Type := World { user : U; sent : list text; closed : list bool }.

(** A computation ends with a value or an exception, in a world. *)
Inductive outcome (A : Type) : Type := Done (a : A) (w : world) | Raised (e : exn) (w : world).
Arguments Done {A}. Arguments Raised {A}.
Definition comp (A : Type) : Type := world -> outcome A.
Definition ret {A} (a : A) : comp A := fun w => Done a w.
Definition raise {A} (e : exn) : comp A := fun w => Raised e w.
Definition seq {A B} (m : comp A) (k : A -> comp B) : comp B :=
  fun w => match m w with Done a w => k a w | Raised e w => Raised e w end.

(** Sending a text to a stream *)
Fixpoint append_at (n : nat) (s : text) (l : list text) : list text :=
  match n, l with
  | O, x :: l => (x ++ s) :: l
  | S n, x :: l => x :: append_at n s l
  | _, [] => []
  end.
Definition put (fp : nat) (s : text) : comp unit := fun w => Done tt (World (user w) (append_at fp s (sent w)) (closed w)).
(** Writing to a file raises if it is closed. *)
Definition file_write (fp : nat) (s : text) : comp unit :=
  fun w => if nth fp (closed w) true then Raised OtherError w else put fp s w.
Fixpoint each {A} (f : A -> comp unit) (l : list A) : comp unit :=
  match l with [] => ret tt | x :: l => seq (f x) (fun _ => each f l) end.

(** The parts of a program that the passes leave alone are arbitrary computations: of strings, of lists of
    strings, of streams; [added n] is what the user's n-th function named [__add__] on strings does;
    [shown l] is the text [str] gives for the list [l]. *)
Record parts : Type := Parts {
  some_text : nat -> comp text; some_list : nat -> comp (list text); some_file : nat -> comp nat;
  added : nat -> text -> text -> comp text; shown : list text -> text }.

(** String expressions: [Add None] is the addition of strings, [Add (Some n)] the user's function; [Cat] is
    [str.cat] of strings (a literal with braces is one), [CatItems] is [str.cat] of one list. *)
Inductive sexp : Type :=
| Lit (s : text)
| Some_text (n : nat)
| Add (f : option nat) (a b : sexp)
| Cat (args : list sexp)
| CatItems (n : nat).

Section Eval.
Context (P : parts).
(** Operands from left to right, then the operation *)
Fixpoint eval (e : sexp) : comp text :=
  match e with
  | Lit s => ret s
  | Some_text n => some_text P n
  | Add f a b => seq (eval a) (fun x => seq (eval b) (fun y => match f with None => ret (x ++ y) | Some n => added P n x y end))
  | Cat args => seq ((fix evals l := match l with [] => ret [] | e :: l => seq (eval e) (fun x => seq (evals l) (fun xs => ret (x :: xs))) end) args)
                  (fun xs => ret (concat xs))
  | CatItems n => seq (some_list P n) (fun xs => ret (concat xs))
  end.
Definition evals : list sexp -> comp (list text) :=
  fix evals l := match l with [] => ret [] | e :: l => seq (eval e) (fun x => seq (evals l) (fun xs => ret (x :: xs))) end.

(** [print]: the texts with the separator between them, then the end *)
Fixpoint joined (sep : text) (l : list text) : list text :=
  match l with [] => [] | [x] => [x] | x :: l => x :: sep :: joined sep l end.
Definition printed (fp : nat) (xs : list text) (sep fin : text) : comp unit := each (put fp) (joined sep xs ++ [fin]).

Inductive stmt : Type :=
| Print (args : list sexp) (sep fin : sexp) (file : nat)      (* print(args..., sep=, end=, file=) *)
| PrintItems (n : nat) (sep fin : sexp) (file : nat)          (* print(list) *)
| Write (file : nat) (e : sexp)                               (* file.write(e) *)
| WriteEach (file : nat) (args : list sexp)                   (* the strings one after the other *)
| WriteItems (file : nat) (n : nat)                           (* the text of a list *)
| Bind (n : nat) (e : sexp).                                  (* any other use of a string *)
Context (used : nat -> text -> comp unit).
Definition run (s : stmt) : comp unit :=
  match s with
  | Print args sep fin file => seq (evals args) (fun xs => seq (eval sep) (fun s => seq (eval fin) (fun t => seq (some_file P file) (fun fp => printed fp xs s t))))
  | PrintItems n sep fin file => seq (some_list P n) (fun xs => seq (eval sep) (fun s => seq (eval fin) (fun t => seq (some_file P file) (fun fp => printed fp [shown P xs] s t))))
  | Write file e => seq (some_file P file) (fun fp => seq (eval e) (fun x => file_write fp x))
  | WriteEach file args => seq (some_file P file) (fun fp => seq (evals args) (fun xs => each (file_write fp) xs))
  | WriteItems file n => seq (some_file P file) (fun fp => seq (some_list P n) (fun xs => file_write fp (shown P xs)))
  | Bind n e => seq (eval e) (used n)
  end.
Definition runs : list stmt -> comp unit := each run.
End Eval.

(** No function named [__add__] on strings but that of strings *)
Fixpoint own_add (e : sexp) : bool :=
  match e with
  | Add f a b => match f with None => true | Some _ => false end && own_add a && own_add b
  | Cat args => forallb own_add args
  | _ => true
  end.
(** and [str.cat] is given strings, at least one *)
Fixpoint plain (e : sexp) : bool :=
  match e with
  | Add f a b => match f with None => true | Some _ => false end && plain a && plain b
  | Cat args => negb (match args with [] => true | _ => false end) && forallb plain args
  | CatItems _ => false
  | _ => true
  end.
(** and the separator of [print] is a literal *)
Definition plain_stmt (s : stmt) : bool :=
  match s with
  | Print args sep fin _ => forallb plain args && match sep with Lit _ => true | _ => false end && plain fin
  | Write _ e => plain e
  | WriteEach _ args => negb (match args with [] => true | _ => false end) && forallb plain args
  | Bind _ e => plain e
  | PrintItems _ _ _ _ => false
  | WriteItems _ _ => false
  end.
(** Two expressions, two programs that do the same from every world, whatever the rest of the program does *)
Definition same_value (a b : sexp) : Prop := forall P w, eval P a w = eval P b w.
Definition same_runs (a b : list stmt) : Prop := forall P used w, runs P used a w = runs P used b w.
End Semantics.
Arguments world : clear implicits. Arguments comp : clear implicits. Arguments parts : clear implicits.
Arguments Done {U A}. Arguments Raised {U A}.
