(** The property C50: [gather]. *)
From Coq Require Import List ZArith Bool Lia Arith Permutation.
From Verif.Common Require Import Result.
From Verif.Async Require Import Model Spec QueueProofs TimerProofs InvProofs StepProofs HistProofs TaskProofs GatherProofs TaskProperties.
Import ListNotations.

(** The future [o] is what [gather] of the futures [fs] returned *)
Definition gathered (s : world) (o : nat) (fs : list nat) : Prop :=
  exists g y, nth_error (w_gathers s) g = Some y /\ g_outer y = o /\ g_futs y = fs.
Definition state_of (s : world) (i : nat) (st : fstate) : Prop :=
  exists f, nth_error (w_futs s) i = Some f /\ f_state f = st.
(** The loop has nothing left to do but to wait *)
Definition idle (s : world) : Prop := ready s = [] /\ running s = [].

Section Code.
Context (code : nat -> list resp -> act).

Lemma results_ok s g y : gok s g y -> length (g_results y) = length (g_futs y) -> g_remaining y = 0%Z ->
  Forall2 (fun j r => state_of s j (Finished r) \/ (state_of s j Cancelled /\ r = VUninit)) (g_futs y) (g_results y).
Proof.
  intros O L R0. rewrite (o_rem _ _ _ O) in R0.
  assert (ALL : forall i, i < length (g_futs y) -> okb s g y i = true).
  { intros i B. destruct (okb s g y i) eqn:E; auto. exfalso. assert (IN : In i (filter (fun i0 => negb (okb s g y i0)) (seq 0 (length (g_futs y))))) by (apply filter_In; split; [apply in_seq; lia|now rewrite E]).
    unfold missing in R0. destruct (filter _ _); [destruct IN|cbn in R0; lia]. }
  assert (H : forall i j r, nth_error (g_futs y) i = Some j -> nth_error (g_results y) i = Some r -> state_of s j (Finished r) \/ (state_of s j Cancelled /\ r = VUninit)).
  { intros i j r J Rr. assert (B : i < length (g_futs y)) by (apply nth_error_Some; congruence). specialize (ALL i B). unfold okb in ALL. apply andb_true_iff in ALL. destruct ALL as [RT CO].
    unfold child_ok in CO. rewrite J in CO. destruct (nth_error (w_futs s) j) as [f|] eqn:F; [|discriminate]. rewrite (o_res _ _ _ O i j f J F), RT in Rr. injection Rr as <-.
    apply rets_spec in RT. destruct RT as (k & x & X & C & At). destruct (loc_done _ _ _ _ O k x X C At j J) as (f' & F' & D). rewrite F in F'. injection F' as <-.
    unfold value, failed, is_done in *. destruct (f_state f) eqn:S; try discriminate; [left; exists f; auto|right; split; auto; exists f; auto]. }
  revert H L. generalize (g_results y) as rs. generalize (g_futs y) as fs. clear. induction fs as [|j fs IH]; intros [|r rs] H L; try discriminate; constructor.
  - apply (H 0); reflexivity.
  - apply IH; [|now injection L]. intros i. apply (H (S i)).
Qed.

(** Calling [gather]: without futures the result is the empty tuple at once; otherwise a new
    pending future is returned and no other future changes *)
Theorem C50_call_partial : forall s fs, clean_reach code s -> Forall (fun i => i < length (w_futs s)) fs ->
  let o := length (w_futs s) in
  exists s', call s (AGather fs) = Ok (RId o, s') /\
    (fs = [] -> state_of s' o (Finished (VTuple []))) /\
    (fs <> [] -> state_of s' o Pending /\ gathered s' o fs) /\
    (forall i st, state_of s i st -> state_of s' i st) /\ (forall o' fs', gathered s o' fs' -> gathered s' o' fs').
Proof.
  intros s fs R B. destruct (clean_ginv code s R) as [(I & T & GL & NS) GI]. assert (B' : forall i, In i fs -> i < length (w_futs s)) by now apply Forall_forall.
  destruct (start_gather_ok s fs I B') as (s' & E & I' & X). exists s'. split.
  { cbn [call]. assert (FB : forallb (fun i => i <? length (w_futs s)) fs = true) by (apply forallb_forall; intros i Hi; apply Nat.ltb_lt; auto). now rewrite FB, E. }
  destruct fs as [|i0 fs0].
  - split; [|split; [congruence|]].
    + intros _. cbn [start_gather new_future] in E. bind_inv E. injection E as <-. set (s1 := set_futs s (w_futs s ++ [Fut Pending [] 0 None None None])) in *.
      assert (N1 : nth_error (w_futs s1) (length (w_futs s)) = Some (Fut Pending [] 0 None None None)) by (cbn; rewrite nth_error_app2, Nat.sub_diag by lia; reflexivity).
      destruct (resolve_ok s1 _ _ (Finished (VTuple [])) (proj1 (new_future_ok s None I ltac:(discriminate))) N1) as (s2 & new & f' & E2 & _ & _ & _ & _ & F' & S'); [reflexivity|discriminate|].
      rewrite E0 in E2. injection E2 as <-. exists f'. auto.
    + assert (CL : call s (AGather []) = Ok (RId (length (w_futs s)), s')) by (cbn [call forallb]; now rewrite E).
      pose proof (nil_sw s _ s' I CL) as Sw. destruct X as [X _]. split.
      * intros i st (f & F & S). destruct (s_futs _ _ _ Sw i f F) as (f' & F' & D). exists f'. split; auto. destruct D as [D|D]; [congruence|].
        cbn [start_gather new_future] in E. bind_inv E. injection E as <-. assert (Sw2 := resolve_sw (fun j => j = length (w_futs s)) _ _ _ _ eq_refl E0).
        assert (F1 : nth_error (w_futs (set_futs s (w_futs s ++ [Fut Pending [] 0 None None None]))) i = Some f) by (cbn; rewrite nth_error_app1; auto; apply nth_error_Some; congruence).
        destruct (s_futs _ _ _ Sw2 i f F1) as (f2 & F2 & [S2|S2]); [congruence|]. assert (i < length (w_futs s)) by (apply nth_error_Some; congruence). lia.
      * intros o' fs' (g & y & Y & Eo). exists g, y. rewrite (s_gathers _ _ _ Sw). auto.
  - destruct (gather_new s (i0 :: fs0) (length (w_futs s)) s' I GI B') as (_ & GS & GI' & (fo & Fo & So) & ST); [congruence|exact E|].
    split; [discriminate|]. split; [|split].
    + intros _. split; [exists fo; auto|]. exists (length (w_gathers s)), (fresh_gather (length (w_futs s)) (i0 :: fs0)). rewrite GS, nth_error_app2, Nat.sub_diag by lia. auto.
    + intros i st (f & F & S). destruct (ST i f F) as (f' & F' & S'). exists f'. split; congruence.
    + intros o' fs' (g & y & Y & Eo). exists g, y. rewrite GS, nth_error_app1; auto. apply nth_error_Some. congruence.
Qed.

(** What the future of a [gather] holds, at any time: a tuple of the results of all the futures,
    in their order (nothing was written for a cancelled one); or the exception of one of them;
    or it is pending *)
Theorem C50_outcome_partial : forall s o fs, clean_reach code s -> gathered s o fs -> exists st, state_of s o st /\
  match st with
  | Finished v => exists rs, v = VTuple rs /\ Forall2 (fun j r => state_of s j (Finished r) \/ (state_of s j Cancelled /\ r = VUninit)) fs rs
  | Failed e => exists j, In j fs /\ state_of s j (Failed e)
  | Cancelled => False
  | Pending => True
  end.
Proof.
  intros s o fs R (g & y & Y & <- & <-). destruct (clean_ginv code s R) as [(I & _) [GI _]]. pose proof (GI g y Y) as O. pose proof (wg_len _ _ (i_gathers _ I g y Y)) as L.
  destruct (o_out _ _ _ O) as (f & F & _ & H). exists (f_state f). split; [exists f; auto|]. destruct (f_state f); auto.
  - destruct H as [-> R0]. eexists. split; [reflexivity|]. now apply (results_ok s g).
  - destruct H as (j & f' & J & F' & S'). exists j. split; auto. exists f'. auto.
Qed.

Lemma idle_rets s g y : inv s -> tokw s (running s) -> gok s g y -> idle s -> forall i j f, nth_error (g_futs y) i = Some j -> nth_error (w_futs s) j = Some f -> is_done f = true -> rets s g i = true.
Proof.
  intros I T O [Rd Rn] i j f J F D. assert (B : i < length (g_futs y)) by (apply nth_error_Some; congruence). destruct (o_all _ _ _ O i B) as (k & x & X & C).
  destruct (o_loc _ _ _ O i k x j X C J) as (f' & F' & H). rewrite F in F'. injection F' as <-. rewrite D in H. destruct (c_at x) eqn:At; try contradiction.
  - rewrite Rd in H. destruct H.
  - exfalso. destruct (k_active _ _ _ _ _ T k) as (w & Hw & _); [exists x; auto|]. rewrite Rn in Hw. destruct Hw.
  - apply rets_spec. eauto.
Qed.
(** When the loop is idle the future holds what the gathered ones say: an exception if one of
    them has failed, otherwise the tuple if all are done, otherwise nothing yet *)
Theorem C50_settled_partial : forall s o fs, clean_reach code s -> gathered s o fs -> idle s ->
  ((exists j e, In j fs /\ state_of s j (Failed e)) -> exists j e, In j fs /\ state_of s j (Failed e) /\ state_of s o (Failed e)) /\
  ((forall j, In j fs -> exists st, state_of s j st /\ match st with Finished _ | Cancelled => True | _ => False end) -> exists rs, state_of s o (Finished (VTuple rs)) /\ length rs = length fs) /\
  ((forall j e, In j fs -> ~ state_of s j (Failed e)) -> (exists j, In j fs /\ state_of s j Pending) -> state_of s o Pending).
Proof.
  intros s o fs R GT ID. pose proof (C50_outcome_partial s o fs R GT) as (st & ST & OUT). destruct GT as (g & y & Y & <- & <-).
  destruct (clean_ginv code s R) as [(I & T & _) [GI _]]. pose proof (GI g y Y) as O. pose proof (idle_rets s g y I T O ID) as RT.
  assert (U : forall j a b, state_of s j a -> state_of s j b -> a = b) by (intros j a b (f & F & <-) (f' & F' & <-); congruence).
  destruct (o_out _ _ _ O) as (fo & Fo & _ & H). assert (st = f_state fo) as -> by (apply (U (g_outer y)); auto; exists fo; auto).
  split; [|split].
  - intros (j & e & J & (f & F & S)). apply In_nth_error in J as J'. destruct J' as [i Ji].
    assert (RI : rets s g i = true) by (apply (RT i j f Ji F); unfold is_done; now rewrite S).
    assert (CI : child_ok s y i = false) by (unfold child_ok, failed; now rewrite Ji, F, S).
    destruct (f_state fo) as [|v|e'|].
    + destruct H as [_ H]. rewrite (H i RI) in CI. discriminate.
    + exfalso. destruct OUT as (rs & _ & FA). clear - FA J F S U. revert J. induction FA as [|j' r l l' P _ IH]; intros J; [destruct J|]. destruct J as [E|J]; auto. subst.
      assert (S0 : state_of s j (Failed e)) by (exists f; auto). destruct P as [P|[P _]]; pose proof (U _ _ _ P S0); discriminate.
    + destruct OUT as (j' & J' & S'). exists j', e'. auto.
    + destruct OUT.
  - intros A. destruct (f_state fo) as [|v|e'|].
    + exfalso. destruct H as [H1 H2]. rewrite (o_rem _ _ _ O) in H1. unfold missing in H1.
      destruct (filter (fun i => negb (okb s g y i)) (seq 0 (length (g_futs y)))) as [|i l] eqn:EF; [cbn in H1; lia|].
      assert (IN : In i (filter (fun i => negb (okb s g y i)) (seq 0 (length (g_futs y))))) by (rewrite EF; now left). apply filter_In in IN. destruct IN as [IN1 IN2]. apply in_seq in IN1.
      destruct (nth_error (g_futs y) i) as [j|] eqn:J; [|apply nth_error_None in J; lia]. destruct (A j (nth_error_In _ _ J)) as (st & (f & F & S) & D).
      assert (RI : rets s g i = true) by (apply (RT i j f J F); unfold is_done; rewrite S; destruct st; auto). unfold okb in IN2. rewrite RI, (H2 i RI) in IN2. discriminate.
    + destruct OUT as (rs & -> & FA). exists rs. split; auto. clear -FA. induction FA; cbn; auto.
    + exfalso. destruct OUT as (j & J & S). destruct (A j J) as (st & S' & D). pose proof (U _ _ _ S S'). subst st. exact D.
    + destruct OUT.
  - intros NF (j & J & P). destruct (f_state fo) as [|v|e'|] eqn:Ef; auto.
    + exfalso. destruct OUT as (rs & _ & FA). clear - FA J P U. revert J. induction FA as [|j' r l l' Q _ IH]; intros J; [destruct J|]. destruct J as [E|J]; auto. subst. destruct Q as [Q|[Q _]]; pose proof (U _ _ _ P Q); discriminate.
    + exfalso. destruct OUT as (j' & J' & S'). exact (NF j' e' J' S').
    + destruct OUT.
Qed.
(** Clean programs never fail inside the loop *)
Theorem C50_no_failure_partial : forall ls, only clean code new_loop ls -> exists s, run code new_loop ls = Ok s.
Proof.
  intros ls O. apply C49_no_failure_partial. revert O. generalize new_loop as s. induction ls as [|l ls IH]; intros s; cbn [only]; auto. intros [A O]. split.
  - destruct (action code s l); auto. apply A.
  - destruct (exec code s l); auto.
Qed.
End Code.
Print Assumptions C50_call_partial.
Print Assumptions C50_outcome_partial.
Print Assumptions C50_settled_partial.
Print Assumptions C50_no_failure_partial.

(** ** Examples *)
Definition parts (n : nat) (h : list resp) : act :=
  match n, h with
  | 1, [] => AReturn (VInt 5)
  | 2, [] => ARaise EValue
  | 3, [] => ASetResult 0 (VInt 7)
  | 4, [] => ACancel 0
  | _, _ => AReturn (VInt 0)
  end.
Definition turns (n : nat) : list label := concat (repeat [LTurn 0; LBody; LBody] n).
(** a task and a future are gathered; the future completes last *)
Definition both : list label := [LCall AFuture; LCall (ASpawn 1); LCall (AGather [0; 1]); LCall (ACallSoon 3); LRun None] ++ turns 6.
Example C50_ex : states (run parts new_loop both) = Some [Finished (VInt 7); Finished (VInt 5); Finished (VTuple [VInt 7; VInt 5])].
Proof. vm_compute. reflexivity. Qed.
Example C50_ex_clean : only clean parts new_loop both.
Proof. vm_compute. repeat (split; auto). intros [|g] x; [intros [= <-]; discriminate|destruct g; discriminate]. Qed.
Example C50_ex_idle : exists s, run parts new_loop both = Ok s /\ idle s /\ gathered s 2 [0; 1].
Proof. eexists. split; [vm_compute; reflexivity|]. split; [vm_compute; auto|]. eexists 0, _. vm_compute. repeat split. Qed.
(** one of the tasks fails *)
Example C50_ex_failed : states (run parts new_loop ([LCall (ASpawn 2); LCall (ASpawn 1); LCall (AGather [0; 1]); LRun None] ++ turns 6)) =
  Some [Failed EValue; Finished (VInt 5); Failed EValue].
Proof. vm_compute. reflexivity. Qed.
(** a future that nobody completes *)
Example C50_ex_pending : states (run parts new_loop ([LCall AFuture; LCall (ASpawn 1); LCall (AGather [0; 1]); LRun None] ++ turns 6)) =
  Some [Pending; Finished (VInt 5); Pending].
Proof. vm_compute. reflexivity. Qed.

(** A future is cancelled while it is gathered: the result is a tuple in which its element was
    never written, although no task and no gather was cancelled *)
Theorem C50_cancelled_child_refuted :
  exists s, clean_reach parts s /\ gathered s 2 [0; 1] /\ state_of s 0 Cancelled /\ state_of s 2 (Finished (VTuple [VUninit; VInt 5])).
Proof.
  eexists. split; [exists ([LCall AFuture; LCall (ASpawn 1); LCall (AGather [0; 1]); LCall (ACallSoon 4); LRun None] ++ turns 6); split; [|vm_compute; reflexivity]|].
  - vm_compute. repeat (split; auto).
    + intros f [= <-]. reflexivity.
    + intros [|g] x; [intros [= <-]; discriminate|destruct g; discriminate].
  - split; [eexists 0, _; vm_compute; repeat split|]. split; eexists; (split; [vm_compute; reflexivity|reflexivity]).
Qed.
Print Assumptions C50_cancelled_child_refuted.
