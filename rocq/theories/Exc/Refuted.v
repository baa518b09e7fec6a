(** C54: programs the generated code runs differently from Python.  Each theorem
    gives the program, the run Python prescribes and the run of the generated
    code.  The data is the list of marks written so far. *)
From Coq Require Import List Bool Arith.
From Verif Require Import Exc.Spec Exc.Model Exc.Eval.
Import ListNotations.

Definition log : Type := list nat.
Definition st : Type := stmt log nat nat.

(** Exceptions are named by their types, unrelated to each other. *)
Definition inst (e k : nat) : bool := Nat.eqb e k.

Definition say (k : nat) : st := Act (fun s => inl (s ++ [k])).
Definition raise_ (e : nat) : st := Act (fun s => inr (e, s)).
Definition ret (k : nat) : st := Return (fun _ => k).
Definition keep (e : nat) (s : log) : log := s.
Definition always (s : log) : bool := true.
Definition once (s : log) : bool := is_nil s.

Fixpoint block (l : list st) : st :=
  match l with [] => Skip | [s] => s | s :: r => Seq s (block r) end.
Fixpoint clauses (l : list (option nat * st)) : handlers log nat nat :=
  match l with [] => HNil | (t, h) :: r => HCons t keep h (clauses r) end.
Definition try_ (b : list st) (hs : list (option nat * list st)) (e f : list st) : st :=
  Try (block b) (clauses (map (fun p => (fst p, block (snd p))) hs)) (block e) (block f).

(** where control arrives when the function's statement finished *)
Definition finishes (p : st) (l : log) : Prop :=
  exists n m, run inst (compile p) n (start []) = At 1 l m.
Definition returns (p : st) (v : nat) (l : log) : Prop :=
  exists n, run inst (compile p) n (start []) = Returned v l.
Definition unwinds (p : st) (e : nat) (l : log) : Prop :=
  exists n, run inst (compile p) n (start []) = Unwound e l.
Definition undefined (p : st) : Prop :=
  exists n, run inst (compile p) n (start []) = UB.

(** [try: raise 1 / except 1: return 5 / finally: say 9] *)
Definition return_in_except : st :=
  try_ [raise_ 1] [(Some 1, [ret 5])] [] [say 9].

(** the finally block is skipped *)
Theorem return_in_except_skips_finally :
  exec inst return_in_except [] (ORet 5 [9]) /\ returns return_in_except 5 [].
Proof.
  split; [apply (eval_sound inst 20); reflexivity|]. exists 100. vm_compute. reflexivity.
Qed.

(** [try: (try: raise 1 / except 1: raise 2 / finally: say 8) / except 2: say 7] *)
Definition raise_in_except : st :=
  try_ [try_ [raise_ 1] [(Some 1, [raise_ 2])] [] [say 8]] [(Some 2, [say 7])] [] [].

Theorem raise_in_except_undefined :
  exec inst raise_in_except [] (ONorm [8; 7]) /\ undefined raise_in_except.
Proof.
  split; [apply (eval_sound inst 20); reflexivity|]. exists 100. vm_compute. reflexivity.
Qed.

(** the same with [finally: say 9] on the outer try: its handler is passed by *)
Definition raise_in_except_fin : st :=
  try_ [try_ [raise_ 1] [(Some 1, [raise_ 2])] [] [say 8]] [(Some 2, [say 7])] [] [say 9].

Theorem raise_in_except_not_caught :
  exec inst raise_in_except_fin [] (ONorm [8; 7; 9]) /\
  unwinds raise_in_except_fin 2 [8; 9].
Proof.
  split; [apply (eval_sound inst 20); reflexivity|]. exists 100. vm_compute. reflexivity.
Qed.

(** [try: (try: raise 1 / finally: (try: raise 3 / except 3: say 3); say 8)
     / except 1: say 7 / finally: say 9] *)
Definition try_in_finally : st :=
  try_ [try_ [raise_ 1] [] [] [try_ [raise_ 3] [(Some 3, [say 3])] [] []; say 8]]
       [(Some 1, [say 7])] [] [say 9].

(** the pending exception is lost *)
Theorem try_in_finally_loses_exception :
  exec inst try_in_finally [] (ONorm [3; 8; 7; 9]) /\ finishes try_in_finally [3; 8; 9].
Proof.
  split; [apply (eval_sound inst 20); reflexivity|]. exists 100. eexists. vm_compute. reflexivity.
Qed.

(** [try: (while True: try: raise 1 / finally: say 8; break); say 6 / finally: say 9] *)
Definition break_in_finally : st :=
  try_ [While always (try_ [raise_ 1] [] [] [say 8; Break]); say 6] [] [] [say 9].

(** the exception the break dropped comes back *)
Theorem break_in_finally_revives_exception :
  exec inst break_in_finally [] (ONorm [8; 6; 9]) /\ unwinds break_in_finally 1 [8; 6; 9].
Proof.
  split; [apply (eval_sound inst 20); reflexivity|]. exists 100. vm_compute. reflexivity.
Qed.

(** [try: raise 1 / except 1: (try: raise 2 / finally: say 4) / finally: say 9] *)
Definition try_in_except : st :=
  try_ [raise_ 1] [(Some 1, [try_ [raise_ 2] [] [] [say 4]])] [] [say 9].

Theorem try_in_except_skips_finally :
  exec inst try_in_except [] (OExn 2 [4; 9]) /\ unwinds try_in_except 2 [4].
Proof.
  split; [apply (eval_sound inst 20); reflexivity|]. exists 100. vm_compute. reflexivity.
Qed.

(** [try: try: (try: raise 1 / finally: return 5) / except 1: say 1 / except: say 7] *)
Definition return_in_finally : st :=
  try_ [try_ [try_ [raise_ 1] [] [] [ret 5]] [(Some 1, [say 1])] [] []]
       [(None, [say 7])] [] [].

(** the return is dropped and the exception handled instead *)
Theorem return_in_finally_dropped :
  exec inst return_in_finally [] (ORet 5 []) /\ finishes return_in_finally [7].
Proof.
  split; [apply (eval_sound inst 20); reflexivity|]. exists 100. eexists. vm_compute. reflexivity.
Qed.
