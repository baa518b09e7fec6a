(** C30: call arguments are bound as in Python. *)
From Coq Require Import List Bool Arith Lia String Permutation Sorted.
From Verif.Parser Require Import CallArgs CallArgsSpec CallArgsProofs.
Import ListNotations.
Open Scope string_scope.
Open Scope nat_scope.
Open Scope list_scope.

(** A call is bound exactly when Python accepts it; every parameter then receives the arguments
    Python gives it, each once, and the values of *args in the order of the call. Missing from the
    full claim, and false (below): a keyword spelled like the *args parameter, more positional
    arguments than parameters when the function captures local variables, and the order of the
    **kwargs. *)
Theorem C30_call_binds_as_python_partial ps given dots args :
  signature ps -> arguments ps args ->
  (forall i p, nth_error ps i = Some p -> given i = true -> pstars p = 0) ->
  (forall i p, nth_error ps i = Some p -> pstars p = 1 -> ~ In (pname p) args) ->
  (forall i p, nth_error ps i = Some p -> pcapture p = true ->
     (exists j, starred 1 ps j) \/ count (isPos args) (List.length args) <= count (fun j => negb (given j)) i) ->
  match reorder ps given dots args with
  | Bound slots =>
      accepted ps given dots args /\ List.length slots = List.length ps /\
      forall i l, nth_error slots i = Some l ->
        NoDup l /\ (forall a, In a l <-> takes ps given args a i) /\ (~ starred 2 ps i -> StronglySorted lt l)
  | Rejected _ => ~ accepted ps given dots args
  end.
Proof. intros A B C D E. exact (reorder_ok ps given dots args A B C D E). Qed.

(** Arguments with side effects are evaluated once each and from left to right, whatever the order
    of the parameters; every other argument is evaluated exactly once too. *)
Theorem C30_effects_left_to_right ps given dots args eff slots :
  signature ps -> arguments ps args ->
  (forall i p, nth_error ps i = Some p -> given i = true -> pstars p = 0) ->
  (forall i p, nth_error ps i = Some p -> pstars p = 1 -> ~ In (pname p) args) ->
  (forall i p, nth_error ps i = Some p -> pcapture p = true ->
     (exists j, starred 1 ps j) \/ count (isPos args) (List.length args) <= count (fun j => negb (given j)) i) ->
  reorder ps given dots args = Bound slots ->
  Permutation (evalOrder eff slots) (seq 0 (List.length args)) /\
  filter eff (evalOrder eff slots) = filter eff (seq 0 (List.length args)).
Proof.
  intros A B C D E R. pose proof (reorder_ok ps given dots args A B C D E) as H. rewrite R in H. destruct H as [H1 H2].
  pose proof (concat_all ps given args A dots slots H1 H2) as P. split.
  - eapply Permutation_trans; [apply evalOrder_perm|exact P].
  - exact (evalOrder_effects eff slots _ P).
Qed.

Definition none : nat -> bool := fun _ => false.
Definition a_ := Param "a" 0 false true false.
Definition b_ := Param "b" 0 false true false.
Definition c_ := Param "c" 0 true true false.
Definition args_ := Param "args" 1 false true false.
Definition kw_ := Param "kw" 2 false true false.
Definition cap_ := Param "$x" 0 false true true.

Local Ltac cases i H :=
  cbn in H; first [discriminate H | destruct i as [|i]; [cbn in H; first [discriminate H | injection H as <-]|cases i H]].

(** def f(a, *args, b, c=0, **kw): f(1, 2, 3, d=4, b=5, e=6) *)
Lemma sig_example : signature [a_; args_; b_; c_; kw_].
Proof.
  constructor.
  - intros i p H. cases i H; cbn; lia.
  - intros i j [p [H Hs]] [q [G Gs]]. cases i H; try discriminate Hs. cases j G; try discriminate Gs. reflexivity.
  - intros i [p [H Hs]]. cases i H; try discriminate Hs. reflexivity.
  - cbn. repeat constructor; cbn; intuition discriminate.
  - cbn. intuition discriminate.
  - intros i j p q H G C. cases i H; discriminate C.
Qed.
Lemma arguments_example : arguments [a_; args_; b_; c_; kw_] [""; ""; ""; "d"; "b"; "e"].
Proof.
  constructor.
  - intros x y name [X N] [Y _]. cases x X; try (contradiction N; reflexivity);
      do 6 (destruct y as [|y]; [first [discriminate Y|reflexivity]|]); destruct y; discriminate Y.
  - intros p I C. cbn in I. intuition (subst; discriminate).
Qed.
Example binding_example :
  reorder [a_; args_; b_; c_; kw_] none false [""; ""; ""; "d"; "b"; "e"] = Bound [[0]; [1; 2]; [4]; []; [3; 5]] /\
  accepted [a_; args_; b_; c_; kw_] none false [""; ""; ""; "d"; "b"; "e"].
Proof.
  assert (reorder [a_; args_; b_; c_; kw_] none false [""; ""; ""; "d"; "b"; "e"] = Bound [[0]; [1; 2]; [4]; []; [3; 5]]) as R by reflexivity.
  split; [exact R|].
  refine (proj1 (_ : accepted _ _ _ _ /\ _)).
  pose proof (fun h1 h2 h3 => C30_call_binds_as_python_partial [a_; args_; b_; c_; kw_] none false [""; ""; ""; "d"; "b"; "e"]
    sig_example arguments_example h1 h2 h3) as H.
  rewrite R in H. apply H.
  - discriminate.
  - intros i p N S. cases i N; try discriminate S. cbn. intuition discriminate.
  - intros i p N S. cases i N; discriminate S.
Qed.
(** a second value for [b], too many arguments, an unknown keyword, a missing argument *)
Example rejection_examples :
  reorder [a_; b_] none false [""; ""; "b"] = Rejected RepeatedName /\
  reorder [a_; b_] none false [""; ""; ""] = Rejected ArgsMany /\
  reorder [a_; kw_] none false [""; ""] = Rejected ArgsMany /\
  reorder [a_; b_] none false [""; "z"] = Rejected ArgsInvalid /\
  reorder [a_; b_] none false [""] = Rejected ArgsMissing /\
  reorder [a_; b_] none true [""] = Bound [[0]; []].
Proof. repeat split; reflexivity. Qed.
(** the rest of the arguments of a partial call f(b=0, ...) *)
Example partial_example : reorder [a_; b_; c_] (fun i => Nat.eqb i 1) false [""; ""] = Bound [[0]; []; [1]].
Proof. reflexivity. Qed.

(** `def f( *args)` called as `f(args=1)`: the argument disappears and the call is accepted. Python
    raises a TypeError. *)
Theorem C30_keyword_named_like_args_refuted :
  exists ps args, reorder ps none false args = Bound [[]] /\ args <> [] /\ ~ accepted ps none false args.
Proof.
  exists [args_], ["args"]. split; [reflexivity|]. split; [discriminate|]. intros A.
  destruct (acc_taken _ _ _ _ A 0 ltac:(cbn; lia)) as [i T].
  destruct T as [T|T|T _ _|name _ _ [p [T S]]].
  - destruct T as [T _]. discriminate.
  - destruct T as [p [[T [S _]] _]]. destruct i as [|[|i]]; [injection T as <-|discriminate|discriminate]. discriminate.
  - discriminate.
  - destruct i as [|[|i]]; [injection T as <-|discriminate|discriminate]. discriminate.
Qed.
(** A local function that uses a variable [x] of the enclosing function: one positional argument
    too many silently replaces the captured value of [x]. Python raises a TypeError. *)
Theorem C30_extra_argument_replaces_captured_variable_refuted :
  exists ps args, reorder ps none false args = Bound [[0]; [1]] /\ pcapture (nth 1 ps a_) = true /\ ~ accepted ps none false args.
Proof.
  exists [a_; cap_], [""; ""]. split; [reflexivity|]. split; [reflexivity|]. intros A.
  destruct (acc_taken _ _ _ _ A 1 ltac:(cbn; lia)) as [i T].
  destruct T as [T|T|_ _ [p [T S]]|name _ _ [p [T S]]].
  - destruct T as [_ [_ [_ [[p [T [_ C]]] E]]]].
    destruct i as [|[|[|i]]]; [discriminate E|injection T as <-; discriminate C|discriminate T|discriminate T].
  - destruct T as [p [[T [_ C]] [_ [E N]]]]. cbn in E. injection E as E. symmetry in E. contradiction.
  - destruct i as [|[|[|i]]]; [injection T as <-|injection T as <-|discriminate|discriminate]; discriminate.
  - destruct i as [|[|[|i]]]; [injection T as <-|injection T as <-|discriminate|discriminate]; discriminate.
Qed.
(** `f(b=1, a=2)` for `def f( **kw)`: the keywords arrive sorted by name, not in the order of the call. *)
Theorem C30_kwargs_keep_call_order_refuted : exists ps args, reorder ps none false args = Bound [[1; 0]] /\ ps = [kw_].
Proof. exists [kw_], ["b"; "a"]. split; reflexivity. Qed.
(** `f(b=x, a=g())` for `def f(a, b)`: [g] runs before [x] is read, so an assignment to [x] in [g] is
    seen. Python evaluates the arguments from left to right. *)
Theorem C30_names_evaluated_in_call_order_refuted :
  exists ps args eff slots, reorder ps none false args = Bound slots /\
    accepted ps none false args /\ eff 0 = false /\ eff 1 = true /\ evalOrder eff slots = [1; 0].
Proof.
  exists [a_; b_], ["b"; "a"], (fun a => Nat.eqb a 1), [[1]; [0]].
  split; [reflexivity|]. split; [|repeat split].
  constructor.
  - intros [|[|a]] L; [exists 1|exists 0|cbn in L; lia].
    + apply Take_name. exists b_. repeat split. discriminate.
    + apply Take_name. exists a_. repeat split. discriminate.
  - assert (forall i a, takes [a_; b_] none ["b"; "a"] a i -> a = 1 - i /\ i <= 1) as H.
    { intros i a [T|T|P _ _|name _ _ [p [T S]]].
      - destruct T as [T _]. destruct a as [|[|[|a]]]; discriminate.
      - destruct T as [p [[T _] [_ [K _]]]].
        destruct i as [|[|[|i]]]; try discriminate T; injection T as <-; destruct a as [|[|[|a]]]; try discriminate K; split; reflexivity || lia.
      - destruct a as [|[|[|a]]]; discriminate.
      - destruct i as [|[|[|i]]]; try discriminate T; injection T as <-; discriminate S. }
    intros i p a b _ A B. apply H in A. apply H in B. lia.
  - intros [|[|[|i]]] p _ [P _] _ _ _; try discriminate P.
    + exists 1. apply Take_name. exists a_. repeat split. discriminate.
    + exists 0. apply Take_name. exists b_. repeat split. discriminate.
Qed.

Print Assumptions C30_call_binds_as_python_partial.
Print Assumptions C30_effects_left_to_right.
Example order_example : evalOrder (fun _ => true) [[1]; [0]] = [0; 1] /\ evalOrder (fun a => Nat.eqb a 1) [[0]; [2]; [1]] = [0; 2; 1].
Proof. split; reflexivity. Qed.
