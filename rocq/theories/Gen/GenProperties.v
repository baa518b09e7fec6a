(** C69: sum, any and all of a generator give the same value, the same effects and
    the same exceptions whether or not the optimiser has turned the generator
    into a function. *)
From Coq Require Import List Bool ZArith.
From Verif Require Import Gen.GenModel Gen.GenSpec Gen.GenProofs.
Import ListNotations.

(** What the unoptimised builtins compute when looking at a value has no effect:
    sum folds the yielded values, any and all are the quantifiers over them. *)
Theorem C69_sum_value S V E A (f : A -> V -> A) fuel (b : stmt S V unit E) start s vs s' o :
  drain (exec fuel b s) = (vs, s', o) ->
  (o = ONormal \/ o = OReturn tt) ->
  py_sum (fun a v s => (s, inl (f a v))) fuel b start s = (s', RVal (fold_left f vs start)).
Proof.
  unfold py_sum. generalize (exec fuel b s). intros g.
  revert start vs. induction g as [s1 o1|s1 v r IH]; cbn; intros a vs D O.
  - injection D as <- <- <-. destruct O as [->| ->]; reflexivity.
  - destruct (drain (r s1)) as [[ws s2] o2] eqn:Dr. injection D as <- <- <-.
    cbn. apply (IH s1 (f a v) ws); [exact Dr|exact O].
Qed.

Theorem C69_any_all_value S V E (t : V -> bool) fuel (b : stmt S V unit E) s vs s' o :
  drain (exec fuel b s) = (vs, s', o) ->
  (o = ONormal \/ o = OReturn tt) ->
  snd (py_any (fun v s => (s, inl (t v))) fuel b s) = RVal (existsb t vs) /\
  snd (py_all (fun v s => (s, inl (t v))) fuel b s) = RVal (forallb t vs) /\
  (existsb t vs = false -> fst (py_any (fun v s => (s, inl (t v))) fuel b s) = s') /\
  (forallb t vs = true -> fst (py_all (fun v s => (s, inl (t v))) fuel b s) = s').
Proof.
  unfold py_any, py_all. generalize (exec fuel b s). intros g.
  revert vs. induction g as [s1 o1|s1 v r IH]; cbn; intros vs D O.
  - injection D as <- <- <-. destruct O as [->| ->]; cbn; auto.
  - destruct (drain (r s1)) as [[ws s2] o2] eqn:Dr. injection D as <- <- <-.
    destruct (IH s1 ws Dr O) as (I1 & I2 & I3 & I4). cbn.
    destruct (t v); cbn; repeat split; auto; discriminate.
Qed.

(** any and all.  Partial: yields under a finally clause are excluded, and, when
    __bool__ of the yielded values can raise, yields under an except clause; the
    refutations below show that the claim is false without these conditions. *)
Theorem C69_any_all_partial S V E (truth : V -> S -> S * (bool + E)) fuel
    (b : stmt S V unit E) s :
  loops_ok false b = true ->
  not_under_finally b = true ->
  (total1 truth \/ not_under_except b = true) ->
  call fuel (any_all_wrapper truth true b) s = returns (py_any truth fuel b s) /\
  call fuel (any_all_wrapper truth false b) s = returns (py_all truth fuel b s).
Proof.
  intros L F T.
  assert (X : raises truth -> not_under_except b = true).
  { intros (v & s1 & s2 & e & Ht). destruct T as [T|T]; [|exact T].
    exfalso. eapply T, Ht. }
  pose proof (exec_jumps fuel b false s L) as J.
  split; unfold call, any_all_wrapper, py_any, py_all; cbn [exec];
    rewrite fuse_exec by assumption.
  - apply call_col; [|exact J]. intros v s1.
    destruct (truth v s1) as [s2 [[|]|e]]; reflexivity.
  - apply (call_col truth false _); [|exact J]. intros v s1.
    destruct (truth v s1) as [s2 [[|]|e]]; reflexivity.
Qed.

(** sum.  Partial: yields in a finally clause are excluded; when the addition can
    raise (it cannot for int, float and bool), so are yields under a finally or
    except clause. *)
Theorem C69_sum_partial S V E A (add : A -> V -> S -> S * (A + E)) fuel
    (b : stmt S V unit E) start s :
  loops_ok false b = true ->
  not_in_finally b = true ->
  (total2 add \/ not_under_finally b = true /\ not_under_except b = true) ->
  exists a,
    call fuel (sum_wrapper add b) (s, start) =
    let '(s', r) := returns (py_sum add fuel b start s) in ((s', a), r).
Proof.
  intros L Q T.
  assert (X : raisesS add -> not_under_finally b = true /\ not_under_except b = true).
  { intros (a & v & s1 & s2 & e & Ht). destruct T as [T|T]; [|exact T].
    exfalso. eapply T, Ht. }
  pose proof (exec_jumps fuel b false s L) as J.
  unfold call, sum_wrapper, py_sum. cbn [exec].
  rewrite fuse_sum_exec by (try assumption; intros r; apply (X r)).
  destruct (call_colS add (exec fuel b s) J start) as [a H]. exists a.
  etransitivity; [exact H|]. destruct (returns _). reflexivity.
Qed.

(** A generator that prints (the state is what has been printed, newest first) and
    yields in a loop, inside a try with an except clause that does not match:
      for i in [2, 1, 0]:
        print(i)
        try: yield i
        except ...: print(9)
    The first component of the state is the iterator. *)
Definition st : Type := (nat * list nat)%type.
Definition emit (n : nat) (s : st) : st * (unit + nat) := ((fst s, n :: snd s), inl tt).
Definition ex_gen : stmt st nat unit nat :=
  SWhile (fun s => match s with
                   | (0, l) => ((0, l), inl false)
                   | (S n, l) => ((n, l), inl true)
                   end)
    (SSeq (SDo (fun s => emit (fst s) s))
          (STry (SYield (fun s => (s, inl (fst s)))) (fun e => Nat.eqb e 4)
                (fun _ s => s) (SDo (emit 9)) SSkip)).
Definition nat_truth (v : nat) (s : st) : st * (bool + nat) := (s, inl (negb (Nat.eqb v 0))).
Definition nat_add (a v : nat) (s : st) : st * (nat + nat) := (s, inl (a + v)).

Example C69_example :
  loops_ok false ex_gen = true /\ not_under_finally ex_gen = true /\
  not_in_finally ex_gen = true /\ total1 nat_truth /\ total2 nat_add /\
  drain (exec 9 ex_gen (3, [])) = ([2; 1; 0], (0, [0; 1; 2]), ONormal) /\
  py_any nat_truth 9 ex_gen (3, []) = ((2, [2]), RVal true) /\
  call 9 (any_all_wrapper nat_truth true ex_gen) (3, []) = ((2, [2]), RVal (Some true)) /\
  call 9 (any_all_wrapper nat_truth false ex_gen) (3, [])
    = ((0, [0; 1; 2]), RVal (Some false)) /\
  call 9 (sum_wrapper nat_add ex_gen) ((3, []), 10)
    = (((0, [0; 1; 2]), 13), RVal (Some 13)).
Proof.
  do 3 (split; [reflexivity|]).
  split; [intros v s s' e H; discriminate|].
  split; [intros a v s s' e H; discriminate|].
  repeat split; reflexivity.
Qed.

(** try: yield 1
    finally: print(7)
    The optimised any runs the finally clause, the unoptimised one never does. *)
Definition fin_gen : stmt st nat unit nat :=
  STry (SYield (fun s => (s, inl 1))) (fun _ => false) (fun _ s => s) SSkip (SDo (emit 7)).
Theorem C69_finally_refuted :
  exists (b : stmt st nat unit nat) s,
    loops_ok false b = true /\ total1 nat_truth /\
    call 9 (any_all_wrapper nat_truth true b) s <> returns (py_any nat_truth 9 b s) /\
    fst (call 9 (any_all_wrapper nat_truth true b) s) = (0, [7]) /\
    fst (py_any nat_truth 9 b s) = (0, []).
Proof.
  exists fin_gen, (0, []). split; [reflexivity|].
  split; [intros v s s' e H; discriminate|].
  split; [discriminate|]. split; reflexivity.
Qed.

(** try: yield x
    except ...: print(7)
    where bool(x), or start + x, raises: the exception is the consumer's, but after
    the transformation the generator's own except clause takes it. *)
Definition exc_gen : stmt st nat unit nat :=
  STry (SYield (fun s => (s, inl 1))) (fun _ => true) (fun _ s => s) (SDo (emit 7)) SSkip.
Theorem C69_except_refuted :
  exists (b : stmt st nat unit nat) (truth : nat -> st -> st * (bool + nat))
      (add : nat -> nat -> st -> st * (nat + nat)) s,
    loops_ok false b = true /\ not_under_finally b = true /\ not_in_finally b = true /\
    snd (py_any truth 9 b s) = RExn 5 /\
    snd (call 9 (any_all_wrapper truth true b) s) = RVal (Some false) /\
    snd (py_sum add 9 b 0 s) = RExn 5 /\
    snd (call 9 (sum_wrapper add b) (s, 0)) = RVal (Some 0).
Proof.
  exists exc_gen, (fun _ s => (s, inr 5)), (fun _ _ s => (s, inr 5)), (0, []).
  repeat split; reflexivity.
Qed.

(** try: return
    finally: yield 5
    The optimised sum has read its result before the finally clause adds 5. *)
Definition ret_gen : stmt st nat unit nat :=
  STry (SReturn (fun s => (s, inl tt))) (fun _ => false) (fun _ s => s) SSkip
       (SYield (fun s => (s, inl 5))).
Theorem C69_late_yield_refuted :
  exists (b : stmt st nat unit nat) s,
    loops_ok false b = true /\ total2 nat_add /\
    snd (py_sum nat_add 9 b 0 s) = RVal 5 /\
    snd (call 9 (sum_wrapper nat_add b) (s, 0)) = RVal (Some 0).
Proof.
  exists ret_gen, (0, []). split; [reflexivity|].
  split; [intros a v s s' e H; discriminate|]. split; reflexivity.
Qed.

Print Assumptions C69_sum_value.
Print Assumptions C69_any_all_value.
Print Assumptions C69_any_all_partial.
Print Assumptions C69_sum_partial.
Print Assumptions C69_finally_refuted.
Print Assumptions C69_except_refuted.
Print Assumptions C69_late_yield_refuted.
