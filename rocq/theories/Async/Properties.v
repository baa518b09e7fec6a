(** The properties C46-C48 of the event loop. *)
From Coq Require Import List ZArith Bool Lia Arith Permutation Sorted.
From Verif.Common Require Import Result.
From Verif.Async Require Import Model Spec QueueProofs TimerProofs InvProofs StepProofs HistProofs.
Import ListNotations.

Section Code.
Context (code : nat -> list resp -> act).

(** ** C46: callbacks run in the order they were scheduled, each once *)

(** [call_soon] adds a new callback at the end of the queue, and nothing else *)
Theorem C46_call_soon : forall s c, reach code s ->
  exists h s' k n, call s (ACallSoon c) = Ok (RId h, s')
    /\ ready s' = ready s ++ [W (Some k) None] /\ line s' = line s ++ [n]
    /\ nth_error (w_coros s) k = None /\ nth_error (w_coros s') k = Some (Coro (CUser c) [] Start)
    /\ nth_error (w_handles s) h = None /\ nth_error (w_handles s') h = Some n /\ work_at s' n = Some (W (Some k) None).
Proof. intros s c R. apply call_soon_ok. eapply reach_inv; eauto. Qed.

(** A turn of the loop runs the oldest work, after the timers that expired were queued *)
Theorem C46_turn : forall s target now s', reach code s -> w_mode s = Between target -> target_done s target = false ->
  w_stop s = false -> exec code s (LTurn now) = Ok s' ->
  exists due, Forall (due_at s now) due /\
    match ready s ++ expired s due with
    | [] => ready s' = [] /\ started s' = started s /\ w_mode s' = Between target
    | w :: rest => ready s' = rest /\ started s' = started s ++ [w] /\ w_mode s' = Inside target w
    end.
Proof.
  intros s target now s' R M TD NS E. pose proof (reach_inv code s R) as I.
  pose proof (exec_ok code s (LTurn now) I) as P. rewrite E in P. destruct P as (_ & _ & [(t & n & due & M' & L & _ & T)|(NT & _)]).
  - rewrite M in M'. injection M' as <-. injection L as <-. exists due. split.
    + apply Forall_forall. intros k K. pose proof (proj1 (Forall_forall _ _) (u_le _ _ _ _ _ T) k K) as Le. cbn in Le.
      assert (Km : In k (members (w_timers s))) by (eapply Permutation_in; [symmetry; apply (u_due _ _ _ _ _ T)|]; apply in_or_app; auto).
      destruct (t_valid _ (i_timers _ I)) as [_ V]. specialize (V k Km). unfold due_at, deadline, wobj in *.
      destruct (nth_error (ts_objs (w_timers s)) k) eqn:N; [|apply nth_error_None in N; lia]. cbn. eauto.
    + pose proof (u_run _ _ _ _ _ T) as U. rewrite NS in U. cbv zeta in U. change (duework (ts_objs (w_timers s)) due) with (expired s due) in U.
      unfold started. destruct (ready s ++ expired s due); destruct U as (-> & -> & U); rewrite ?M in U; auto.
  - exfalso. apply NT. exists target, now. auto.
Qed.

(** Over any run without [stop]: the work that was ready is started in order, before anything
    that came later; only cancelled handles drop out *)
Theorem C46_order : forall s ls s', reach code s -> w_stop s = false -> only no_stop code s ls -> run code s ls = Ok s' ->
  exists kept new, subseq kept (ready s) /\ started s' ++ ready s' = started s ++ kept ++ new.
Proof.
  intros s ls s' R NS O H. destruct (run_history code no_stop ls (fun _ _ H => H) s s' (reach_inv code s R) NS O H) as (kept & new & S & E & _). eauto.
Qed.
Theorem C46_none_lost : forall s ls s', reach code s -> w_stop s = false -> only no_stop_no_cancel code s ls -> run code s ls = Ok s' ->
  exists new, started s' ++ ready s' = started s ++ ready s ++ new.
Proof.
  intros s ls s' R NS O H. destruct (run_history code no_stop_no_cancel ls (fun _ _ H => proj1 H) s s' (reach_inv code s R) NS O H) as (kept & new & S & E & K).
  rewrite K in E by (intros ? ? ? [_ Hn]; apply Hn). eauto.
Qed.

(** [Handle.cancel] removes exactly the callback of the handle, if it still waits *)
Theorem C46_cancel : forall s h k w, reach code s -> nth_error (w_handles s) h = Some k -> work_at s k = Some w -> w_coro w <> None ->
  In k (line s) ->
  exists s' a b, call s (ACancelHandle h) = Ok (RUnit, s') /\ line s = a ++ k :: b /\ line s' = a ++ b
    /\ (forall j, In j (line s') -> work_at s' j = work_at s j) /\ ~ In k (line s').
Proof.
  intros s h k w R H Wk C L. pose proof (reach_inv code s R) as I.
  destruct (cancel_handle_ok s h k w I H Wk C) as (r & s' & E & _ & [(a & b & L1 & L2 & -> & J)|(N & _)]); [|tauto].
  exists s', a, b. rewrite L2. repeat (split; auto). pose proof (line_nodup _ I) as ND. rewrite L1 in ND. apply NoDup_remove_2 in ND. exact ND.
Qed.
(** The queue a program sees is the one the theorems talk about: its nodes are distinct *)
Theorem C46_line : forall s, reach code s -> NoDup (line s) /\ map (work_at s) (line s) = map Some (ready s).
Proof. intros s R. pose proof (reach_inv code s R). split; [now apply line_nodup|now apply line_works]. Qed.

(** The full claim would add: cancelling a callback that already ran does nothing.  It raises
    ValueError when other work waits. *)
Theorem C46_cancel_after_run_refuted : forall s h k w, reach code s -> nth_error (w_handles s) h = Some k -> work_at s k = Some w -> w_coro w <> None ->
  ~ In k (line s) -> line s <> [] -> exists s', call s (ACancelHandle h) = Ok (RErr EValue, s').
Proof.
  intros s h k w R H Wk C L NE. pose proof (reach_inv code s R) as I.
  destruct (cancel_handle_ok s h k w I H Wk C) as (r & s' & E & _ & [(a & b & L1 & _)|(N & _ & -> & _)]).
  - exfalso. apply L. rewrite L1. apply in_or_app. cbn. auto.
  - destruct (line s); [congruence|]. eauto.
Qed.

(** ** C47: timers *)

(** A turn at [now] takes exactly the timers whose deadline has passed, in the order of their
    deadlines, and queues the callbacks of those that were not cancelled behind the others *)
Theorem C47_turn : forall s target now s', reach code s -> w_mode s = Between target -> target_done s target = false ->
  exec code s (LTurn now) = Ok s' ->
  exists due, Permutation (pending_timers s) (due ++ pending_timers s')
    /\ Forall (due_at s now) due /\ Forall (later_than s now) (pending_timers s')
    /\ StronglySorted (not_later s) due
    /\ (w_stop s = false -> started s' ++ ready s' = started s ++ ready s ++ expired s due)
    /\ (forall k, deadline s' k = deadline s k).
Proof.
  intros s target now s' R M TD E. pose proof (reach_inv code s R) as I.
  pose proof (exec_ok code s (LTurn now) I) as P. rewrite E in P. destruct P as (_ & _ & [(t & n & due & M' & L & _ & T)|(NT & _)]).
  2: { exfalso. apply NT. exists target, now. auto. }
  rewrite M in M'. injection M' as <-. injection L as <-. exists due.
  assert (V : forall k, In k (members (w_timers s)) -> deadline s k = Some (wobj (ts_objs (w_timers s)) k)).
  { intros k K. destruct (t_valid _ (i_timers _ I)) as [_ V]. specialize (V k K). unfold deadline, wobj.
    destruct (nth_error (ts_objs (w_timers s)) k) eqn:N; [reflexivity|apply nth_error_None in N; lia]. }
  pose proof (u_due _ _ _ _ _ T) as PD.
  assert (In1 : forall k, In k due -> In k (members (w_timers s))) by (intros k K; eapply Permutation_in; [symmetry; exact PD|]; apply in_or_app; auto).
  assert (In2 : forall k, In k (members (w_timers s')) -> In k (members (w_timers s))) by (intros k K; eapply Permutation_in; [symmetry; exact PD|]; apply in_or_app; auto).
  split; [exact PD|]. split; [|split; [|split; [|split]]].
  - apply Forall_forall. intros k K. exists (wobj (ts_objs (w_timers s)) k). split; [auto|]. apply (proj1 (Forall_forall _ _) (u_le _ _ _ _ _ T) k K).
  - apply Forall_forall. intros k K. exists (wobj (ts_objs (w_timers s)) k). split; [auto|]. apply (proj1 (Forall_forall _ _) (u_gt _ _ _ _ _ T) k K).
  - pose proof (u_sorted _ _ _ _ _ T) as S. clear -S In1 V. induction S as [|k l S IH F]; constructor.
    + apply IH. intros j J. apply In1. now right.
    + apply Forall_forall. intros j J. exists (wobj (ts_objs (w_timers s)) k), (wobj (ts_objs (w_timers s)) j).
      split; [apply V, In1; now left|]. split; [apply V, In1; now right|]. apply (proj1 (Forall_forall _ _) F j J).
  - intros NS. pose proof (u_run _ _ _ _ _ T) as U. rewrite NS in U. cbv zeta in U. change (duework (ts_objs (w_timers s)) due) with (expired s due) in U.
    unfold started. destruct (ready s ++ expired s due) eqn:Eq; destruct U as (-> & -> & U); cbn [rev]; now rewrite ?app_nil_r, <- ?app_assoc.
  - intros k. unfold deadline. now rewrite (u_objs _ _ _ _ _ T).
Qed.

(** [call_later] adds one timer, with that deadline and that callback *)
Theorem C47_call_later : forall s d c, reach code s ->
  exists t s' k, call s (ACallLater d c) = Ok (RId t, s')
    /\ deadline s t = None /\ deadline s' t = Some d /\ Permutation (pending_timers s') (t :: pending_timers s)
    /\ nth_error (w_coros s) k = None /\ nth_error (w_coros s') k = Some (Coro (CUser c) [] Start)
    /\ expired s' [t] = [W (Some k) None]
    /\ (forall j, j <> t -> deadline s' j = deadline s j /\ expired s' [j] = expired s [j])
    /\ ready s' = ready s /\ started s' = started s.
Proof.
  intros s d c R. pose proof (reach_inv code s R) as I. cbn [call]. unfold call_later, new_coro.
  destruct (push_ok (w_timers s) (Timer (W (Some (length (w_coros s))) None) d) (i_timers _ I)) as (t' & E & OK & O & P).
  cbn [set_coros w_timers]. rewrite E. cbn [bind]. eexists _, _, (length (w_coros s)). split; [reflexivity|].
  unfold deadline, expired, pending_timers, timer_work, ready, started. cbn [set_timers set_coros w_timers w_coros w_queue w_ran].
  set (n := length (ts_objs (w_timers s))) in *. rewrite O.
  assert (N : nth_error (ts_objs (w_timers s) ++ [Timer (W (Some (length (w_coros s))) None) d]) n = Some (Timer (W (Some (length (w_coros s))) None) d)).
  { rewrite nth_error_app2 by (unfold n; lia). unfold n. now rewrite Nat.sub_diag. }
  split; [rewrite (proj2 (nth_error_None _ _)); auto; unfold n; lia|]. split; [now rewrite N|]. split; [exact P|].
  split; [apply nth_error_None; lia|]. split; [rewrite nth_error_app2 by lia; now rewrite Nat.sub_diag|]. split; [cbn [map concat app]; now rewrite N|].
  split; auto. intros j D. assert (J : nth_error (ts_objs (w_timers s) ++ [Timer (W (Some (length (w_coros s))) None) d]) j = nth_error (ts_objs (w_timers s)) j).
  { destruct (Nat.lt_ge_cases j n) as [B|B]; [now apply nth_error_app1|]. rewrite nth_error_app2 by auto. fold n.
    rewrite (proj2 (nth_error_None _ j)) by auto. destruct (j - n) as [|m] eqn:Ej; [lia|]. destruct m; reflexivity. }
  cbn [map concat]. now rewrite J.
Qed.
(** A cancelled timer never runs its callback *)
Theorem C47_cancel : forall s t r s' ls s'', reach code s -> deadline s t <> None ->
  call s (ACancelTimer t) = Ok (r, s') -> run code s' ls = Ok s'' -> r = RUnit /\ expired s'' [t] = [] /\ ready s' = ready s /\ started s' = started s
   /\ pending_timers s' = pending_timers s /\ (forall j, deadline s' j = deadline s j /\ (j <> t -> expired s' [j] = expired s [j])).
Proof.
  intros s t r s' ls s'' R D E H. pose proof (reach_inv code s R) as I. pose proof (call_ok s (ACancelTimer t) I) as P. rewrite E in P. destruct P as (I' & _). cbn [snd] in I'.
  cbn [call] in E. unfold deadline in D. destruct (nth_error (ts_objs (w_timers s)) t) as [x|] eqn:N; [|cbn in D; congruence].
  pose proof (run_timers code ls s' s'' I' H) as T.
  assert (Z : forall y, nth_error (ts_objs (w_timers s')) t = Some y -> w_coro (t_work y) = None -> expired s'' [t] = []).
  { intros y Y C. destruct (T t y Y) as (z & Hz & _ & W). unfold expired, timer_work. cbn [map concat]. rewrite Hz.
    destruct W as [->| ->]; [now rewrite C|reflexivity]. }
  destruct (w_coro (t_work x)) as [c|] eqn:C.
  - destruct (cancel_timer_ok _ _ _ (i_timers _ I) N) as (t' & Ec & OK & Mb & O & _). rewrite Ec in E. cbn [bind] in E. injection E as <- <-.
    assert (N' : nth_error (ts_objs t') t = Some (Timer no_work (t_when x))) by (rewrite O; eapply nth_upd_eq; eauto).
    split; auto. split; [apply (Z (Timer no_work (t_when x))); auto|]. split; auto. split; auto. split; [exact Mb|].
    intros j. unfold deadline, expired, timer_work. cbn [set_timers w_timers map concat]. rewrite O. destruct (Nat.eq_dec t j) as [<-|Dj].
    + rewrite (nth_upd_eq _ _ _ _ N), N. split; [reflexivity|congruence].
    + rewrite nth_upd_ne by auto. auto.
  - injection E as <- <-. split; auto. split; [eapply Z; eauto|]. repeat (split; auto).
Qed.

(** ** C48: futures *)

(** Once done, a future keeps its outcome *)
Theorem C48_outcome_is_final : forall s ls s' i f, reach code s -> run code s ls = Ok s' ->
  nth_error (w_futs s) i = Some f -> f_state f <> Pending ->
  exists f', nth_error (w_futs s') i = Some f' /\ f_state f' = f_state f.
Proof.
  intros s ls s' i f R H N D. eapply run_done; eauto using reach_inv. unfold is_done. destruct (f_state f); congruence.
Qed.
(** Setting it again is an error that changes nothing; setting it once stores that outcome *)
Theorem C48_set : forall s i f v e, reach code s -> nth_error (w_futs s) i = Some f ->
  (f_state f <> Pending -> call s (ASetResult i v) = Ok (RErr EInvalidState, s) /\ call s (ASetException i e) = Ok (RErr EInvalidState, s)) /\
  (f_state f = Pending ->
     (exists s' f', call s (ASetResult i v) = Ok (RUnit, s') /\ nth_error (w_futs s') i = Some f' /\ f_state f' = Finished v /\ call s' (AResult i) = Ok (RVal v, s')) /\
     (exists s' f', call s (ASetException i e) = Ok (RUnit, s') /\ nth_error (w_futs s') i = Some f' /\ f_state f' = Failed e /\ call s' (AResult i) = Ok (RErr e, s'))).
Proof.
  intros s i f v e R N. pose proof (reach_inv code s R) as I. cbn [call]. rewrite N. split; intros D.
  - unfold is_done. destruct (f_state f); auto; congruence.
  - assert (Pd : is_done f = false) by (unfold is_done; now rewrite D). rewrite Pd. split.
    + destruct (resolve_ok s i f (Finished v) I N Pd) as (s' & new & f' & E & _ & _ & _ & _ & N' & S'); [discriminate|]. rewrite E. cbn [bind].
      exists s', f'. split; auto. split; auto. split; auto. rewrite N'. unfold result_of. now rewrite S'.
    + destruct (resolve_ok s i f (Failed e) I N Pd) as (s' & new & f' & E & _ & _ & _ & _ & N' & S'); [discriminate|]. rewrite E. cbn [bind].
      exists s', f'. split; auto. split; auto. split; auto. rewrite N'. unfold result_of. now rewrite S'.
Qed.
(** The callbacks of a future that gets done during a run without [stop] and without cancelled
    handles are all queued, in the order they were added, after the work that was already
    queued *)
Theorem C48_callbacks_in_order : forall s ls s' i f f', reach code s -> w_stop s = false -> only no_stop_no_cancel code s ls -> run code s ls = Ok s' ->
  nth_error (w_futs s) i = Some f -> f_state f = Pending -> nth_error (w_futs s') i = Some f' -> f_state f' <> Pending ->
  exists new a b more, started s' ++ ready s' = started s ++ ready s ++ new /\
    filter callback new = a ++ filter callback (f_cbs f ++ more) ++ b.
Proof.
  intros s ls s' i f f' R NS O H N D N' D'.
  destruct (run_callbacks code ls i s s' f f' (reach_inv code s R) NS O H N) as (new & E & a & b & more & C); auto.
  - unfold is_done. now rewrite D.
  - unfold is_done. destruct (f_state f'); congruence.
  - exists new, a, b, more. auto.
Qed.
(** A callback added to a done future is queued at once; to a pending one, it waits *)
Theorem C48_add_callback : forall s i f c, reach code s -> nth_error (w_futs s) i = Some f ->
  exists s' k f', call s (AAddCallback i c) = Ok (RUnit, s') /\ nth_error (w_coros s) k = None
    /\ nth_error (w_coros s') k = Some (Coro (CUser c) [] Start)
    /\ nth_error (w_futs s') i = Some f' /\ f_state f' = f_state f
    /\ match f_state f with
       | Pending => ready s' = ready s /\ f_cbs f' = f_cbs f ++ [W (Some k) None]
       | _ => ready s' = ready s ++ [W (Some k) None] /\ f' = f
       end.
Proof.
  intros s i f c R N. pose proof (reach_inv code s R) as I. cbn [call]. rewrite N. unfold add_done_callback, get_fut. rewrite (read_ok _ _ _ N). cbn [bind].
  destruct (new_coro_ok s (CUser c) I Logic.I) as (I1 & _ & _ & W1 & N1).
  destruct (new_coro s (CUser c)) as [k s1] eqn:En. unfold new_coro in En. injection En as <- <-. cbn [snd] in *.
  set (s1 := set_coros s (w_coros s ++ [Coro (CUser c) [] Start])) in *.
  assert (F : nth_error (w_coros s) (length (w_coros s)) = None) by (apply nth_error_None; lia).
  destruct (is_done f) eqn:D.
  - destruct (soon_ok s1 _ I1 W1) as (n & s2 & E & _ & _ & _ & (q & ->) & _ & _ & _ & Rd). rewrite E. cbn [bind].
    eexists _, (length (w_coros s)), f. split; [reflexivity|]. split; auto. split; [exact N1|]. split; [exact N|]. split; auto.
    unfold is_done in D. destruct (f_state f); try discriminate; split; auto.
  - destruct (push_cb_ok s1 i f _ I1 N D W1) as (cap & E & _). rewrite E. cbn [bind].
    eexists _, (length (w_coros s)), _. split; [reflexivity|]. split; auto. split; [exact N1|].
    cbn [set_fut set_futs w_futs]. split; [apply (nth_upd_eq _ _ _ _ N)|]. split; auto. unfold is_done in D. destruct (f_state f); try discriminate. split; auto.
Qed.
End Code.
Print Assumptions C46_call_soon.
Print Assumptions C46_turn.
Print Assumptions C46_order.
Print Assumptions C46_none_lost.
Print Assumptions C46_cancel.
Print Assumptions C46_line.
Print Assumptions C46_cancel_after_run_refuted.
Print Assumptions C47_turn.
Print Assumptions C47_call_later.
Print Assumptions C47_cancel.
Print Assumptions C48_outcome_is_final.
Print Assumptions C48_set.
Print Assumptions C48_callbacks_in_order.
Print Assumptions C48_add_callback.

(** ** Concrete programs *)

(** body 0 stops the loop; body 1 returns at once; body 2 cancels the handle 0, then returns;
    body 3 sets the result of future 0; body 4 cancels the timer 0 *)
Definition demo (n : nat) (h : list resp) : act :=
  match n, h with
  | 0, [] => AStop
  | 2, [] => ACancelHandle 0
  | 3, [] => ASetResult 0 (VInt 7)
  | 4, [] => ACancelTimer 0
  | _, _ => AReturn (VInt 0)
  end.
Definition state_of (r : res world) : world := match r with Ok s => s | _ => new_loop end.
Definition outcome (r : res world) : option (list work * list work) :=
  match r with Ok s => Some (started s, ready s) | _ => None end.

(** two callbacks, run in order *)
Example C46_ex_order : outcome (run demo new_loop [LCall (ACallSoon 1); LCall (ACallSoon 1); LRun None; LTurn 0; LBody; LTurn 0; LBody])
  = Some ([W (Some 0) None; W (Some 1) None], []).
Proof. vm_compute. reflexivity. Qed.
(** the first callback cancels itself while the second waits: the claim that this does nothing
    is false *)
Example C46_ex_cancel_after_run :
  let s := state_of (run demo new_loop [LCall (ACallSoon 2); LCall (ACallSoon 1); LRun None; LTurn 0]) in
  nth_error (w_handles s) 0 = Some 0 /\ work_at s 0 = Some (W (Some 0) None) /\ ~ In 0 (line s) /\ line s = [1]
  /\ option_map snd (match call s (ACancelHandle 0) with Ok (r, s) => Some (s, r) | _ => None end) = Some (RErr EValue).
Proof. vm_compute. repeat split; intros [H|[]]; discriminate. Qed.
(** after [stop], the loop throws one more work item away *)
Theorem C46_stop_loses_work_refuted :
  exists s s', reach demo s /\ ready s = [W (Some 1) None] /\ started s = [W (Some 0) None]
    /\ exec demo s (LTurn 0) = Ok s' /\ ready s' = [] /\ started s' = [W (Some 0) None].
Proof.
  exists (state_of (run demo new_loop [LCall (ACallSoon 0); LCall (ACallSoon 1); LRun None; LTurn 0; LBody; LBody])).
  eexists. split; [exists [LCall (ACallSoon 0); LCall (ACallSoon 1); LRun None; LTurn 0; LBody; LBody]; vm_compute; reflexivity|].
  vm_compute. repeat split.
Qed.
Print Assumptions C46_stop_loses_work_refuted.

(** three timers: two expire at time 5, in the order of their deadlines *)
Example C47_ex : outcome (run demo new_loop [LCall (ACallLater 5 1); LCall (ACallLater 9 1); LCall (ACallLater 3 1); LRun None; LTurn 5; LBody])
  = Some ([W (Some 2) None], [W (Some 0) None]).
Proof. vm_compute. reflexivity. Qed.
Example C47_ex_cancelled : outcome (run demo new_loop [LCall (ACallLater 5 1); LCall (ACancelTimer 0); LRun None; LTurn 7]) = Some ([], []).
Proof. vm_compute. reflexivity. Qed.
(** The full claim would add: cancelling a timer keeps its callback from starting.  It does not
    when the deadline has passed and the callback waits in the queue: here the work item of
    timer 0 is started after [cancel]. *)
Theorem C47_cancel_when_due_refuted :
  exists s s', reach demo s /\ ready s = [W (Some 1) None] /\ deadline s 0 = Some 5%Z
    /\ call s (ACancelTimer 0) = Ok (RUnit, s') /\ ready s' = [W (Some 1) None].
Proof.
  exists (state_of (run demo new_loop [LCall (ACallSoon 1); LCall (ACallLater 5 1); LRun None; LTurn 6; LBody])).
  eexists. split; [exists [LCall (ACallSoon 1); LCall (ACallLater 5 1); LRun None; LTurn 6; LBody]; vm_compute; reflexivity|].
  vm_compute. repeat split.
Qed.
Print Assumptions C47_cancel_when_due_refuted.

(** two callbacks of a future, scheduled in order by the body that resolves it *)
Example C48_ex : outcome (run demo new_loop [LCall AFuture; LCall (AAddCallback 0 1); LCall (AAddCallback 0 1); LCall (ACallSoon 3); LCall (ACallSoon 1); LRun None; LTurn 0; LBody; LBody])
  = Some ([W (Some 2) None], [W (Some 3) None; W (Some 0) None; W (Some 1) None]).
Proof. vm_compute. reflexivity. Qed.
