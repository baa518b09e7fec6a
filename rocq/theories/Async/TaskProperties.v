(** The property C49: tasks. *)
From Coq Require Import List ZArith Bool Lia Arith Permutation.
From Verif.Common Require Import Result.
From Verif.Async Require Import Model Spec QueueProofs TimerProofs InvProofs StepProofs HistProofs TaskProofs.
Import ListNotations.

Lemma once_in (l : list work) (w : work) : NoDup (map w_coro l) -> In w l -> once w l.
Proof.
  intros N H. apply in_split in H. destruct H as (a & b & ->). exists a, b. split; auto. intros K. rewrite map_app in N. cbn [map] in N.
  apply NoDup_remove_2 in N. apply N. rewrite <- map_app. now apply in_map.
Qed.

Lemma nodup_left {A} (a b : list A) : NoDup (a ++ b) -> NoDup a.
Proof. induction a as [|x a IH]; cbn; intros H; [constructor|]. inversion H; subst. constructor; [rewrite in_app_iff in *; tauto|auto]. Qed.
Lemma nodup_cross {A} (a b : list A) x : NoDup (a ++ b) -> In x a -> In x b -> False.
Proof. induction a as [|y a IH]; cbn; intros H Ha Hb; [tauto|]. inversion H; subst. destruct Ha as [->|Ha]; [apply H2; apply in_or_app; auto|auto]. Qed.

Section Code.
Context (code : nat -> list resp -> act).

Lemma tame_good s : tame_reach code s -> good s.
Proof. intros (ls & O & R). destruct (run_t code ls new_loop good_init O) as (s' & E & G). rewrite R in E. now injection E as <-. Qed.
Lemma tame_reaches s : tame_reach code s -> reach code s.
Proof. intros (ls & _ & R). now exists ls. Qed.

(** Programs that stop no loop and cancel no task never fail inside the loop: no coroutine is
    resumed after its end, no lock is taken twice, no memory is read out of bounds *)
Theorem C49_no_failure_partial : forall ls, only tame code new_loop ls -> exists s, run code new_loop ls = Ok s.
Proof. intros ls O. destruct (run_t code ls new_loop good_init O) as (s & E & _). eauto. Qed.

(** No task is forgotten, and none is queued twice: a task that has not started is in the queue
    once; one that awaits a pending future is among the callbacks of this future and not in the
    queue; one that awaits a done future is in the queue once *)
Theorem C49_no_task_lost_partial : forall s t f c, tame_reach code s -> nth_error (w_futs s) t = Some f -> f_task f = Some c ->
  exists x, nth_error (w_coros s) c = Some x /\ f_state f <> Cancelled /\
    match c_at x with
    | Start => once (W (Some c) (Some t)) (ready s)
    | AtAwait i => exists g, nth_error (w_futs s) i = Some g /\
        match f_state g with
        | Pending => once (W (Some c) (Some t)) (f_cbs g) /\ ~ In (W (Some c) (Some t)) (ready s)
        | _ => once (W (Some c) (Some t)) (ready s)
        end
    | Active => exists target w, w_mode s = Inside target w /\ w_coro w = Some c
    | Returned | Broken => forall w, In w (ready s) -> w_coro w <> Some c
    end.
Proof.
  intros s t f c R Nt Tt. destruct (tame_good s R) as (I & T & _). unfold tokw in T.
  pose proof (k_bound _ _ _ _ _ T t f c Nt Tt) as B. destruct (nth_error (w_coros s) c) as [x|] eqn:X; [|apply nth_error_None in X; lia].
  exists x. split; auto. split; [exact (k_live _ _ _ _ _ T t f c Nt Tt)|].
  pose proof (k_nodup _ _ _ _ _ T) as ND. unfold items in ND. rewrite map_app in ND. pose proof (nodup_left _ _ ND) as NR.
  destruct (c_at x) as [|i| | |] eqn:P.
  - apply once_in; auto. apply (k_start _ _ _ _ _ T t f c Nt Tt). exists x. auto.
  - destruct (k_await _ _ _ _ _ T c i) as (t' & f' & g & Nt' & Tt' & Ng & H); [exists x; auto|].
    assert (t' = t) as -> by (eapply (k_task _ _ _ _ _ T); eauto). exists g. split; auto. unfold is_done in H. destruct (f_state g); try (apply once_in; auto).
    destruct H as [H _]. pose proof (cbs_in _ _ _ _ Ng H) as HI. split.
    + apply once_in; auto. apply nodup_right in ND. rewrite map_app in ND. apply nodup_left in ND. clear -ND Ng. unfold cbs_of in ND. revert i Ng ND.
      induction (w_futs s) as [|y l IH]; intros [|i] Ng ND; try discriminate; cbn [map concat] in ND; rewrite map_app in ND.
      * injection Ng as ->. eapply nodup_left; eauto.
      * apply nodup_right in ND. eauto.
    + intros K. eapply (nodup_cross _ _ (w_coro (W (Some c) (Some t))) ND); [now apply in_map|]. apply in_map. apply in_or_app. auto.
  - destruct (k_active _ _ _ _ _ T c) as (w & Hw & Hc); [exists x; auto|]. unfold running in Hw. destruct (w_mode s) as [| |tg w0]; try destruct Hw as [<-|[]]; try destruct Hw. eauto.
  - intros w Hw Hc. destruct (k_rd _ _ _ _ _ T w Hw) as (c' & Hc' & K). rewrite Hc in Hc'. injection Hc' as <-.
    destruct K as [(y & Y & K)|(i & (y & Y & K) & _)]; congruence.
  - intros w Hw Hc. destruct (k_rd _ _ _ _ _ T w Hw) as (c' & Hc' & K). rewrite Hc in Hc'. injection Hc' as <-.
    destruct K as [(y & Y & K)|(i & (y & Y & K) & _)]; congruence.
Qed.

(** What a turn starts has not run before, or awaits a future that is done; the answer of the
    [await] is the outcome of this future *)
Theorem C49_resume_partial : forall s target now s' w, tame_reach code s -> w_mode s = Between target -> target_done s target = false ->
  exec code s (LTurn now) = Ok s' -> w_mode s' = Inside target w ->
  exists c x, w_coro w = Some c /\ nth_error (w_coros s) c = Some x /\
    match c_at x with
    | Start => nth_error (w_coros s') c = Some (Coro (c_code x) (c_hist x) Active)
    | AtAwait i => exists g, nth_error (w_futs s) i = Some g /\ f_state g <> Pending /\
        nth_error (w_coros s') c = Some (Coro (c_code x) (c_hist x ++ [result_of g]) Active)
    | _ => False
    end.
Proof.
  intros s target now s' w R M TD E M'. destruct (tame_good s R) as (I & T & GL & NS). unfold exec in E. rewrite M, TD in E.
  unfold running in T. rewrite M in T. destruct (begin_t s target now I M T GL NS) as (s1 & E1 & T1 & _ & H). rewrite E in E1. injection E1 as <-.
  unfold running in T1. rewrite M' in T1. destruct (k_cur _ _ _ _ _ T1 w (or_introl eq_refl)) as (c & Hc & _).
  destruct (H w c M' Hc) as (x & r & X & X' & K). exists c, x. split; auto. split; auto. destruct K as [[-> ->]|(i & f & -> & Nf & D & ->)].
  - now rewrite app_nil_r in X'.
  - exists f. split; auto. split; auto. unfold is_done in D. destruct (f_state f); congruence.
Qed.

(** [await] of a done future goes on at once; of a pending one, the task is suspended *)
Theorem C49_await_partial : forall s target c t x n i g, tame_reach code s -> w_mode s = Inside target (W (Some c) (Some t)) ->
  nth_error (w_coros s) c = Some x -> c_code x = CUser n -> code n (c_hist x) = AAwait i -> nth_error (w_futs s) i = Some g ->
  exists s', exec code s LBody = Ok s' /\
    match f_state g with
    | Pending => w_mode s' = Between target /\ nth_error (w_coros s') c = Some (Coro (c_code x) (c_hist x) (AtAwait i)) /\
        ready s' = ready s /\ exists g', nth_error (w_futs s') i = Some g' /\ f_cbs g' = f_cbs g ++ [W (Some c) (Some t)] /\ f_state g' = Pending
    | _ => s' = set_coro s c (Coro (c_code x) (c_hist x ++ [result_of g]) (c_at x))
    end.
Proof.
  intros s target c t x n i g R M X C A Ng. destruct (tame_good s R) as (I & T & GL & NS).
  pose proof (i_mode _ I _ _ M) as Cu. pose proof (i_curr _ I _ Cu) as Wf. pose proof Wf as (c' & x' & Hc' & _ & Ht). cbn in Hc'. injection Hc' as <-.
  destruct (Ht t eq_refl) as (ft & Nt & Tt). pose proof (k_live _ _ _ _ _ T t ft c Nt Tt) as NC.
  unfold exec. rewrite M. unfold body_step. cbn [w_coro]. unfold get_coro. rewrite (read_ok _ _ _ X). cbn [bind]. rewrite C, A. cbn [user_step w_task]. rewrite Ng.
  unfold cancelled_task. cbn [w_task]. unfold get_fut. rewrite (read_ok _ _ _ Nt). cbn [bind].
  replace (match f_state ft with Cancelled => true | _ => false end) with false by (destruct (f_state ft); congruence).
  unfold wait_on. rewrite Cu. unfold get_fut. rewrite (read_ok _ _ _ Ng). cbn [bind]. destruct (is_done g) eqn:D.
  - cbn [bind]. rewrite (read_ok _ _ _ Ng). cbn [bind]. unfold answer, get_coro. rewrite (read_ok _ _ _ X). cbn [bind]. eexists. split; [reflexivity|].
    unfold is_done in D. destruct (f_state g); try discriminate; rewrite C; reflexivity.
  - destruct (push_cb_ok s i g _ I Ng D Wf) as (cap & Ep & I1 & X1 & _). rewrite Ep. cbn [bind w_task].
    set (g1 := Fut (f_state g) (f_cbs g ++ [W (Some c) (Some t)]) cap (f_task g) (f_wait_task g) (f_wait_lock g)) in *.
    destruct (e_futs _ _ X1 t ft Nt) as (ft1 & Nt1 & _). rewrite (read_ok _ _ _ Nt1). cbn [bind].
    unfold move, get_coro. cbn [set_fut set_futs w_coros]. rewrite (read_ok _ _ _ X). cbn [bind].
    unfold finish_step. cbn [w_task]. unfold get_fut.
    match goal with |- context [read (w_futs ?s2) t] => assert (E2 : exists f2, nth_error (w_futs s2) t = Some f2) end.
    { eexists. cbn [set_coro set_coros set_fut set_futs w_futs]. eapply nth_upd_eq. exact Nt1. }
    destruct E2 as [f2 E2]. rewrite (read_ok _ _ _ E2). cbn [bind].
    assert (Q : forall s2, w_coros s2 = upd (w_coros s) c (Coro (c_code x) (c_hist x) (AtAwait i)) -> w_queue s2 = w_queue s ->
       (exists g', nth_error (w_futs s2) i = Some g' /\ f_cbs g' = f_cbs g ++ [W (Some c) (Some t)] /\ f_state g' = f_state g) ->
       exists s', Ok (set_mode (set_curr s2 None) (Between target)) = Ok s' /\ match f_state g with
    | Pending => w_mode s' = Between target /\ nth_error (w_coros s') c = Some (Coro (c_code x) (c_hist x) (AtAwait i)) /\
        ready s' = ready s /\ exists g', nth_error (w_futs s') i = Some g' /\ f_cbs g' = f_cbs g ++ [W (Some c) (Some t)] /\ f_state g' = Pending
    | _ => s' = set_coro s c (Coro (c_code x) (c_hist x ++ [result_of g]) (c_at x)) end).
    { intros s2 C2 Q2 G2. eexists. split; [reflexivity|]. unfold is_done in D. destruct (f_state g); try discriminate. split; auto. cbn [set_mode set_curr w_coros w_futs].
      split; [rewrite C2; eapply nth_upd_eq; eauto|]. split; auto. unfold ready. cbn [set_mode set_curr w_queue]. now rewrite Q2. }
    rewrite <- C in *. destruct (is_done f2); cbn [bind]; apply Q; auto; cbn [set_coro set_coros set_fut set_futs w_futs].
    all: destruct (Nat.eq_dec t i) as [->|Ne].
    1,3: rewrite (nth_upd_eq _ _ _ _ Nt1); eexists; split; [reflexivity|]; cbn [set_fut set_futs w_futs] in Nt1; rewrite (nth_upd_eq _ _ _ _ Ng) in Nt1; injection Nt1 as <-; split; reflexivity.
    all: rewrite nth_upd_ne by auto; exists g1; split; [eapply nth_upd_eq; exact Ng|split; reflexivity].
Qed.

(** When the body of a task returns, or raises an exception that is not CancelledError,
    SystemExit or AssertionError, the task has this outcome *)
Theorem C49_outcome : forall s target c t x n f, reach code s -> w_mode s = Inside target (W (Some c) (Some t)) ->
  nth_error (w_coros s) c = Some x -> c_code x = CUser n -> nth_error (w_futs s) t = Some f -> f_state f = Pending ->
  (forall v, code n (c_hist x) = AReturn v -> exists s' f', exec code s LBody = Ok s' /\ w_mode s' = Between target
     /\ nth_error (w_futs s') t = Some f' /\ f_state f' = Finished v) /\
  (forall e, code n (c_hist x) = ARaise e -> e <> ECancelled -> e <> ESystemExit -> e <> EAssertion ->
     exists s' f', exec code s LBody = Ok s' /\ w_mode s' = Between target /\ nth_error (w_futs s') t = Some f' /\ f_state f' = Failed e).
Proof.
  intros s target c t x n f R M X C Nf Pd. pose proof (reach_inv code s R) as I. assert (D : is_done f = false) by (unfold is_done; now rewrite Pd).
  unfold exec. rewrite M. unfold body_step. cbn [w_coro]. unfold get_coro. rewrite (read_ok _ _ _ X). cbn [bind]. rewrite C.
  assert (Z : forall p st, st <> Pending -> exists s' f', (s1 <- (let s0 := set_coro s c (Coro (c_code x) (c_hist x) p) in resolve s0 t st) ;; Ok (set_mode (set_curr s1 None) (Between target)))%res = Ok s'
     /\ w_mode s' = Between target /\ nth_error (w_futs s') t = Some f' /\ f_state f' = st).
  { intros p st NP. destruct (move_ok s c x p I X) as (_ & I1 & _ & _). cbv zeta in I1 |- *.
    destruct (resolve_ok _ t f st I1 Nf D NP) as (s' & _ & f' & E & _ & _ & _ & _ & N' & S'). rewrite E. cbn [bind]. eexists _, f'. split; [reflexivity|]. auto. }
  split.
  - intros v A. rewrite A. cbn [user_step]. unfold move, get_coro. rewrite (read_ok _ _ _ X). cbn [bind]. unfold finish_step. cbn [w_task]. unfold get_fut.
    cbn [set_coro set_coros w_futs]. rewrite (read_ok _ _ _ Nf). cbn [bind]. rewrite D. apply (Z Returned). discriminate.
  - intros e A N1 N2 N3. rewrite A. cbn [user_step]. unfold move, get_coro. rewrite (read_ok _ _ _ X). cbn [bind].
    destruct e; try congruence; unfold finish_step; cbn [w_task]; unfold get_fut; cbn [set_coro set_coros w_futs]; rewrite (read_ok _ _ _ Nf); cbn [bind]; rewrite D; apply (Z Broken); discriminate.
Qed.
End Code.
Print Assumptions C49_no_failure_partial.
Print Assumptions C49_no_task_lost_partial.
Print Assumptions C49_resume_partial.
Print Assumptions C49_await_partial.
Print Assumptions C49_outcome.

(** ** Concrete programs *)

(** body 0 awaits the future 0, then returns the value it got or raises the exception it got;
    body 1 sets the result of the future 0; body 2 cancels the task 1, then sets the result of
    the future 0; body 3 cancels itself (the task 0); body 4 cancels the future 0; body 5
    raises SystemExit *)
Definition tasks (n : nat) (h : list resp) : act :=
  match n, h with
  | 0, [] => AAwait 0
  | 0, [RVal v] => AReturn v
  | 0, [RErr e] => ARaise e
  | 1, [] => ASetResult 0 (VInt 7)
  | 2, [] => ACancel 1
  | 2, [_] => ASetResult 0 (VInt 7)
  | 3, [] => ACancel 0
  | 4, [] => ACancel 0
  | 5, [] => ARaise ESystemExit
  | _, _ => AReturn (VInt 0)
  end.
Definition states (r : res world) : option (list fstate) :=
  match r with Ok s => Some (map f_state (w_futs s)) | _ => None end.
Definition turn : list label := [LTurn 0; LBody].

(** a task awaits a future that another task completes, and gets its value; the programs meet
    the hypotheses of the theorems *)
Definition awaiting : list label := [LCall AFuture; LCall (ASpawn 0); LCall (ASpawn 1); LRun None] ++ turn ++ [LTurn 0; LBody; LBody] ++ turn.
Example C49_ex : states (run tasks new_loop awaiting) = Some [Finished (VInt 7); Finished (VInt 7); Finished (VInt 0)].
Proof. vm_compute. reflexivity. Qed.
Example C49_ex_tame : only tame tasks new_loop awaiting.
Proof. vm_compute. tauto. Qed.
Example C49_ex_suspended :
  let s := match run tasks new_loop ([LCall AFuture; LCall (ASpawn 0); LCall (ASpawn 1); LRun None] ++ turn) with Ok s => s | _ => new_loop end in
  ready s = [W (Some 1) (Some 2)] /\ map f_cbs (w_futs s) = [[W (Some 0) (Some 1)]; []; []] /\ map c_at (w_coros s) = [AtAwait 0; Start].
Proof. vm_compute. repeat split. Qed.

(** The claims without the restriction to programs that cancel no task are false. *)

(** A task that waits for a future is cancelled, then the future is completed: the loop resumes
    a coroutine that has ended *)
Theorem C49_cancel_then_complete_refuted :
  exists ls, run tasks new_loop ls = Undef.
Proof.
  exists ([LCall AFuture; LCall (ASpawn 0); LCall (ASpawn 2); LRun None] ++ turn ++ [LTurn 0; LBody; LBody; LBody] ++ turn ++ [LTurn 0]).
  vm_compute. reflexivity.
Qed.
(** A task that cancels itself and returns is resumed again *)
Theorem C49_cancel_self_refuted : exists ls, run tasks new_loop ls = Undef.
Proof. exists [LCall (ASpawn 3); LRun None; LTurn 0; LBody; LBody; LTurn 0]. vm_compute. reflexivity. Qed.
(** A task that does not handle the CancelledError of the future it awaits is never done: its
    coroutine has ended, the task is pending, and nothing is left to run *)
Theorem C49_cancelled_future_refuted :
  exists s, tame_reach tasks s /\ map f_state (w_futs s) = [Cancelled; Pending; Finished (VInt 0)] /\
    map f_task (w_futs s) = [None; Some 0; Some 1] /\ map c_at (w_coros s) = [Broken; Returned] /\ ready s = [] /\ pending_timers s = [] /\ map f_cbs (w_futs s) = [[]; []; []].
Proof.
  set (ls := [LCall AFuture; LCall (ASpawn 0); LCall (ASpawn 4); LRun None] ++ turn ++ [LTurn 0; LBody; LBody] ++ turn).
  eexists. split; [exists ls; split; [|vm_compute; reflexivity]|vm_compute; repeat split].
  unfold ls. vm_compute. repeat (split; auto).
  - intros f [= <-]. reflexivity.
  - intros [|g] x; discriminate.
Qed.
(** After SystemExit or AssertionError the loop counts as running: it cannot be run again *)
Theorem C49_run_after_exit_refuted :
  exists s, tame_reach tasks s /\ w_mode s = Outside /\ w_running s = true /\
    ready s = [W (Some 1) (Some 1)] /\ forall target, exec tasks s (LRun target) = Ok s.
Proof.
  eexists. split; [exists ([LCall (ASpawn 5); LCall (ASpawn 1); LRun None] ++ turn); split; [vm_compute; tauto|vm_compute; reflexivity]|].
  vm_compute. repeat split.
Qed.
Print Assumptions C49_cancel_then_complete_refuted.
Print Assumptions C49_cancel_self_refuted.
Print Assumptions C49_cancelled_future_refuted.
Print Assumptions C49_run_after_exit_refuted.
