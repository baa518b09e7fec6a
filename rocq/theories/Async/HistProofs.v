(** Runs: the order work is started in, timers, and futures. *)
From Coq Require Import List ZArith Bool Lia Arith Permutation Sorted.
From Verif.Common Require Import Result.
From Verif.Async Require Import Model Spec QueueProofs TimerProofs InvProofs StepProofs.
Import ListNotations.
Local Open Scope res_scope.

Lemma follow_nodes_seg q l : forall p fuel, seg (q_nodes q) p l None -> length l <= fuel -> follow_nodes fuel q (hd_error l) = l.
Proof.
  induction l as [|i l IH]; intros p fuel S F; [destruct fuel; reflexivity|].
  destruct fuel as [|fuel]; [cbn in F; lia|]. cbn [length] in F. destruct S as (n & N & P & X & S).
  cbn [follow_nodes hd_error]. rewrite N. f_equal.
  assert (X' : n_next n = hd_error l) by (rewrite X; now destruct (hd_error l)). rewrite X'. apply (IH (Some i)); auto. lia.
Qed.
Lemma line_ok s l : repr (w_queue s) l -> line s = l.
Proof.
  intros R. unfold line. rewrite (r_head _ _ R). apply (follow_nodes_seg (w_queue s) l None); [apply R|].
  apply nodup_bound; [apply R|]. intros i I. now apply (repr_bound _ _ _ R).
Qed.
Lemma work_at_of s i w : work_at s i = Some w -> i < length (q_nodes (w_queue s)) /\ work_of (w_queue s) i = w.
Proof.
  unfold work_at, work_of. destruct (nth_error _ i) eqn:E; [|discriminate]. cbn. intros H. injection H as <-.
  split; auto. apply nth_error_Some. congruence.
Qed.
Lemma work_of_at s i : i < length (q_nodes (w_queue s)) -> work_at s i = Some (work_of (w_queue s) i).
Proof. intros B. unfold work_at, work_of. destruct (nth_error _ i) eqn:E; auto. apply nth_error_None in E. lia. Qed.

Lemma line_works s : inv s -> map (work_at s) (line s) = map Some (ready s).
Proof.
  intros I. destruct (i_queue _ I) as [l R]. rewrite (line_ok _ _ R). unfold ready. rewrite (waiting_ok _ _ R), map_map.
  apply map_ext_in. intros i Hi. apply work_of_at. now apply (repr_bound _ _ _ R).
Qed.
Lemma line_nodup s : inv s -> NoDup (line s).
Proof. intros I. destruct (i_queue _ I) as [l R]. rewrite (line_ok _ _ R). apply R. Qed.

Lemma cancel_handle_ok s h k w : inv s -> nth_error (w_handles s) h = Some k -> work_at s k = Some w -> w_coro w <> None ->
  exists r s', call s (ACancelHandle h) = Ok (r, s') /\ work_at s' k = Some no_work /\
   ((exists a b, line s = a ++ k :: b /\ line s' = a ++ b /\ r = RUnit /\ (forall j, In j (a ++ b) -> work_at s' j = work_at s j))
    \/ (~ In k (line s) /\ line s' = line s /\ r = (match line s with [] => RUnit | _ => RErr EValue end) /\
        (forall j, In j (line s) -> work_at s' j = work_at s j))).
Proof.
  intros I H Wk C. destruct (work_at_of _ _ _ Wk) as [B Wo]. cbn [call]. rewrite H.
  unfold get_node. unfold work_at in Wk. destruct (nth_error (q_nodes (w_queue s)) k) as [nd|] eqn:N; [|discriminate]. injection Wk as Wk.
  cbn [bind]. rewrite Wk. destruct (w_coro w) as [c|] eqn:Hc; [|congruence].
  destruct (i_queue _ I) as [l R]. rewrite (line_ok _ _ R).
  assert (D : forall q' i, dropped (w_queue s) q' k -> i <> k -> i < length (q_nodes (w_queue s)) -> work_at (set_queue s q') i = work_at s i).
  { intros q' i (L & _ & Dr) NE Bi. rewrite (work_of_at s i Bi). rewrite work_of_at; cbn [set_queue w_queue]; [|congruence]. now rewrite Dr. }
  assert (D0 : forall q', dropped (w_queue s) q' k -> work_at (set_queue s q') k = Some no_work).
  { intros q' (L & Dr & _). rewrite work_of_at; cbn [set_queue w_queue]; [now rewrite Dr|congruence]. }
  destruct (in_dec Nat.eq_dec k l) as [Hin|NI].
  - apply in_split in Hin. destruct Hin as (l1 & l2 & ->).
    destruct (cancel_linked_ok _ _ _ _ R) as (q' & E & R' & Dr). rewrite E. cbn [bind]. eexists _, _. split; [reflexivity|].
    split; [auto|]. left. exists l1, l2. split; auto. split; [now apply (line_ok (set_queue s q'))|]. split; auto.
    intros j J. apply D; auto.
    + intros ->. pose proof (r_nodup _ _ R) as ND. apply nodup_mid in ND. apply in_app_or in J. tauto.
    + apply (repr_bound _ _ _ R). apply in_app_or in J. apply in_or_app. cbn. tauto.
  - destruct (cancel_loose_ok _ _ _ R NI B) as (q' & E & R' & Dr); [congruence|]. rewrite E. cbn [bind]. eexists _, _. split; [reflexivity|].
    split; [auto|]. right. split; auto. split; [now apply (line_ok (set_queue s q'))|]. split; [now destruct l|].
    intros j J. apply D; auto; [congruence|]. now apply (repr_bound _ _ _ R).
Qed.

Lemma call_soon_ok s c : inv s -> exists h s' k n, call s (ACallSoon c) = Ok (RId h, s')
  /\ ready s' = ready s ++ [W (Some k) None] /\ line s' = line s ++ [n]
  /\ nth_error (w_coros s) k = None /\ nth_error (w_coros s') k = Some (Coro (CUser c) [] Start)
  /\ nth_error (w_handles s) h = None /\ nth_error (w_handles s') h = Some n /\ work_at s' n = Some (W (Some k) None).
Proof.
  intros I. destruct (i_queue _ I) as [l R].
  pose proof (enqueue_ok (w_queue s) l (W (Some (length (w_coros s))) None) R ltac:(discriminate)) as (q' & E & R' & L & Wn & Wo).
  unfold call, call_soon, new_coro, call_soon_work. cbn [set_coros w_queue w_coros]. rewrite E. cbn [bind].
  eexists _, _, (length (w_coros s)), (length (q_nodes (w_queue s))). split; [reflexivity|].
  cbn [set_handles set_queue set_coros w_coros w_handles w_queue]. split; [|split; [|split; [|split; [|split; [|split]]]]].
  - unfold ready. cbn [set_handles set_queue set_coros w_queue]. rewrite (waiting_ok _ _ R'), (waiting_ok _ _ R), map_app. cbn [map]. rewrite Wn. f_equal.
    apply map_ext_in. intros i Hi. apply Wo. now apply (repr_bound _ _ _ R).
  - rewrite (line_ok s l R). now apply (line_ok (set_handles _ _)).
  - apply nth_error_None. lia.
  - rewrite nth_error_app2 by lia. now rewrite Nat.sub_diag.
  - apply nth_error_None. lia.
  - rewrite nth_error_app2 by lia. now rewrite Nat.sub_diag.
  - rewrite work_of_at; cbn [set_handles set_queue set_coros w_queue]; [now rewrite Wn|lia].
Qed.

(** ** Subsequences *)
Local Hint Constructors subseq : core.
Lemma subseq_app {A} (a b c d : list A) : subseq a b -> subseq c d -> subseq (a ++ c) (b ++ d).
Proof. induction 1; intros K; cbn; auto. Qed.
Lemma subseq_nil {A} (l : list A) : subseq [] l.
Proof. induction l; auto. Qed.
Lemma subseq_trans {A} (a b c : list A) : subseq a b -> subseq b c -> subseq a c.
Proof. intros H1 H2. revert a H1. induction H2; intros a' H; auto. inversion H; subst; auto. Qed.
Lemma subseq_app_inv {A} (l a b : list A) : subseq l (a ++ b) -> exists l1 l2, l = l1 ++ l2 /\ subseq l1 a /\ subseq l2 b.
Proof.
  revert l. induction a as [|x a IH]; intros l H; cbn in H; [exists [], l; auto|].
  inversion H; subst.
  - destruct (IH _ H2) as (l1 & l2 & -> & S1 & S2). exists (x :: l1), l2. cbn. auto.
  - destruct (IH _ H2) as (l1 & l2 & -> & S1 & S2). exists l1, l2. auto.
Qed.

(** ** The stop flag and the timers *)
Definition still (s s' : world) : Prop := w_timers s' = w_timers s /\ w_stop s' = w_stop s.
Definition still_act (a : act) : bool :=
  match a with AStop | ACallLater _ _ | ACancelTimer _ => false | _ => true end.
Ltac still_tac := solve [split; reflexivity | split; auto].
Lemma still_refl s : still s s. Proof. split; auto. Qed.
Lemma still_trans a b c : still a b -> still b c -> still a c.
Proof. unfold still. intuition congruence. Qed.
Lemma soon_still s w n s' : call_soon_work s w = Ok (n, s') -> still s s'.
Proof. unfold call_soon_work. intros H. bind_inv H. destruct a. injection H as <- <-. repeat split. Qed.
Lemma push_still s i w s' : push_callback s i w = Ok s' -> still s s'.
Proof. unfold push_callback. intros H. bind_inv H. destruct (_ <? _) in H; [|discriminate]. injection H as <-. repeat split. Qed.
Lemma sched_still i cbs : forall s s', schedule_callbacks s i cbs = Ok s' -> still s s'.
Proof.
  induction cbs as [|w cbs IH]; intros s s'; cbn [schedule_callbacks]; [intros [= <-]; still_tac|].
  destruct (w_task w) as [t|]; intros H.
  - bind_inv H. destruct (match f_wait_lock a with Some l => l =? i | None => false end); [|eauto].
    bind_inv H. destruct a0. apply soon_still in E0. eapply still_trans; [|eauto]. eapply still_trans; [|exact E0]. repeat split.
  - bind_inv H. destruct a. apply soon_still in E. eapply still_trans; eauto.
Qed.
Lemma resolve_still s i st s' : resolve s i st = Ok s' -> still s s'.
Proof. unfold resolve. intros H. bind_inv H. apply sched_still in H. eapply still_trans; [|exact H]. repeat split. Qed.
Lemma add_cb_still s i c s' : add_done_callback s i c = Ok s' -> still s s'.
Proof.
  unfold add_done_callback. intros H. bind_inv H. cbn [new_coro] in H. destruct (is_done a).
  - bind_inv H. destruct a0. injection H as <-. apply soon_still in E0. eapply still_trans; [|exact E0]. repeat split.
  - apply push_still in H. eapply still_trans; [|exact H]. repeat split.
Qed.
Lemma cancel_still fuel : forall held s i b s', cancel_future fuel held s i = Ok (b, s') -> still s s'.
Proof.
  induction fuel as [|fuel IH]; intros held s i b s'; cbn [cancel_future]; [discriminate|].
  destruct (existsb _ _); [discriminate|]. intros H. bind_inv H. destruct (is_done a); [injection H as <- <-; still_tac|].
  bind_inv H. apply resolve_still in E0. eapply still_trans; [exact E0|]. destruct (f_task a) as [c|]; [|injection H as <- <-; still_tac].
  bind_inv H. bind_inv H. eapply (still_trans _ a2).
  - destruct (f_wait_task a1); [|injection E2 as ->; still_tac]. bind_inv E2. destruct a3. bind_inv E2. injection E2 as <-.
    apply IH in E3. eapply still_trans; [exact E3|]. repeat split.
  - bind_inv H. injection H as <- <-. unfold call_soon_no_duplicate in E3. bind_inv E3. destruct a4; [injection E3 as <-; still_tac|].
    bind_inv E3. destruct a4. injection E3 as <-. eapply soon_still; eauto.
Qed.
Lemma gather_cbs_still g fs : forall k s s', add_gather_callbacks s g k fs = Ok s' -> still s s'.
Proof.
  induction fs as [|i fs IH]; intros k s s'; cbn [add_gather_callbacks]; intros H; [injection H as <-; still_tac|].
  bind_inv H. apply add_cb_still in E. eapply still_trans; eauto.
Qed.
Lemma start_gather_still s fs n s' : start_gather s fs = Ok (n, s') -> still s s'.
Proof.
  unfold start_gather, new_future. intros H. destruct fs as [|i fs].
  - bind_inv H. injection H as <- <-. apply resolve_still in E. eapply still_trans; [|exact E]. repeat split.
  - bind_inv H. bind_inv H. injection H as <- <-. apply gather_cbs_still in E. apply add_cb_still in E0.
    eapply still_trans; [|exact E0]. eapply still_trans; [|exact E]. repeat split.
Qed.
Lemma call_still s a r s' : call s a = Ok (r, s') -> still_act a = true -> still s s'.
Proof.
  destruct a; cbn [call new_future still_act]; intros H SA; try discriminate SA; clear SA; try solve [injection H as <- <-; repeat split].
  - unfold call_soon, new_coro in H. bind_inv H. destruct a. injection H as <- <-. bind_inv E. destruct a. injection E as <- <-.
    apply soon_still in E0. eapply still_trans; [|eapply still_trans; [exact E0|]]; repeat split.
  - destruct (nth_error (w_handles s) n); [|injection H as <- <-; still_tac]. bind_inv H.
    destruct (w_coro (n_work a)); [|injection H as <- <-; still_tac]. bind_inv H. destruct a0. injection H as <- <-. repeat split.
  - bind_inv H. destruct a. injection H as <- <-. unfold create_task, new_coro, new_future in E. bind_inv E. destruct a. injection E as <- <-.
    apply soon_still in E0. eapply still_trans; [|exact E0]. repeat split.
  - destruct (nth_error (w_futs s) f); [|injection H as <- <-; still_tac]. destruct (is_done f0); [injection H as <- <-; still_tac|].
    bind_inv H. injection H as <- <-. eapply resolve_still; eauto.
  - destruct (nth_error (w_futs s) f); [|injection H as <- <-; still_tac]. destruct (is_done f0); [injection H as <- <-; still_tac|].
    bind_inv H. injection H as <- <-. eapply resolve_still; eauto.
  - destruct (nth_error (w_futs s) f); [|injection H as <- <-; still_tac]. bind_inv H. destruct a. injection H as <- <-. eapply cancel_still; eauto.
  - destruct (nth_error (w_futs s) f); [|injection H as <- <-; still_tac]. bind_inv H. injection H as <- <-. eapply add_cb_still; eauto.
  - destruct (nth_error (w_futs s) f); injection H as <- <-; still_tac.
  - destruct (nth_error (w_futs s) f); injection H as <- <-; still_tac.
  - destruct (forallb _ fs); [|injection H as <- <-; still_tac]. bind_inv H. destruct a. injection H as <- <-. eapply start_gather_still; eauto.
Qed.

(** timers keep their deadline; their work stays or is dropped *)
Definition text (x x' : timer) : Prop := t_when x' = t_when x /\ (t_work x' = t_work x \/ t_work x' = no_work).
Lemma text_refl x : text x x. Proof. split; auto. Qed.
Lemma text_trans a b c : text a b -> text b c -> text a c.
Proof. intros [H1 H2] [H3 H4]. split; [congruence|]. destruct H4 as [->| ->]; auto. Qed.
Definition keeps (a : option act) (s s' : world) : Prop :=
  lext text (ts_objs (w_timers s)) (ts_objs (w_timers s')) /\ (a <> Some AStop -> w_stop s = false -> w_stop s' = false).
Lemma keeps_still a s s' : still s s' -> keeps a s s'.
Proof. intros [T S]. split; [rewrite T; apply lext_refl, text_refl|]. congruence. Qed.
Lemma keeps_then a s s1 s' : keeps a s s1 -> still s1 s' -> keeps a s s'.
Proof. intros [T S] [T' S']. split; [rewrite T'; auto|]. intros. rewrite S'; auto. Qed.
Lemma call_keeps s a r s' : call s a = Ok (r, s') -> keeps (Some a) s s'.
Proof.
  intros H. destruct (still_act a) eqn:A; [eapply keeps_still, call_still; eauto|]. destruct a; try discriminate A; cbn [call] in H.
  - unfold call_later, new_coro in H. bind_inv H. destruct a. injection H as <- <-. bind_inv E. injection E as <- <-. split; auto.
    cbn [set_timers w_timers]. unfold timers_push in E0. bind_inv E0. bind_inv E0. injection E0 as <-. cbn. apply lext_app, text_refl.
  - destruct (nth_error _ t) as [x|] eqn:N; [|injection H as <- <-; apply keeps_still; still_tac]. destruct (w_coro _); [|injection H as <- <-; apply keeps_still; still_tac].
    bind_inv H. injection H as <- <-. unfold cancel_timer in E. rewrite (read_ok _ _ _ N) in E. cbn in E. injection E as <-. split; auto.
    cbn. eapply lext_upd; eauto using text_refl. split; auto.
  - injection H as <- <-. split; [apply lext_refl, text_refl|]. congruence.
Qed.
Lemma move_still s c p s' : move s c p = Ok s' -> still s s'.
Proof. unfold move. intros H. bind_inv H. injection H as <-. still_tac. Qed.
Lemma answer_still s c p s' : answer s c p = Ok s' -> still s s'.
Proof. unfold answer. intros H. bind_inv H. injection H as <-. still_tac. Qed.
Lemma finish_still s target w e v s' : finish_step s target w e v = Ok s' -> still s s'.
Proof.
  unfold finish_step. intros H. bind_inv H. injection H as <-. apply (still_trans _ a); [|split; auto].
  destruct (w_task w); [|injection E as ->; still_tac]. bind_inv E. destruct (is_done a0); [injection E as ->; still_tac|].
  destruct e; [eapply resolve_still; eauto|]. destruct v; [eapply resolve_still; eauto|injection E as ->; still_tac].
Qed.
Lemma wait_still s i b s' : wait_on s i = Ok (b, s') -> still s s'.
Proof.
  unfold wait_on. intros H. destruct (w_curr s); [|injection H as <- <-; still_tac]. bind_inv H.
  destruct (is_done a); [injection H as <- <-; still_tac|]. bind_inv H. apply push_still in E0. eapply still_trans; [exact E0|].
  destruct (w_task w); [|injection H as <- <-; still_tac]. bind_inv H. injection H as <- <-. still_tac.
Qed.
Lemma rind_still s i st s' : resolve_if_not_done s i st = Ok s' -> still s s'.
Proof. unfold resolve_if_not_done. intros H. bind_inv H. destruct (is_done a); [injection H as <-; still_tac|]. eapply resolve_still; eauto. Qed.
Lemma gather_cb_still s g i s' : gather_callback s g i = Ok s' -> still s s'.
Proof.
  unfold gather_callback. intros H. bind_inv H. bind_inv H. bind_inv H.
  assert (Z : forall r, (if (g_remaining a =? 1)%Z then resolve_if_not_done (set_gathers s (upd (w_gathers s) g (G (g_outer a) (g_futs a) r (g_remaining a - 1)))) (g_outer a) (Finished (VTuple r))
     else Ok (set_gathers s (upd (w_gathers s) g (G (g_outer a) (g_futs a) r (g_remaining a - 1))))) = Ok s' -> still s s').
  { intros r Hr. destruct (_ =? _)%Z in Hr; [apply rind_still in Hr; exact Hr|injection Hr as <-; still_tac]. }
  destruct (f_state a1); try (eapply Z; exact H). destruct (_ =? _) in H; [discriminate|]. eapply rind_still; eauto.
Qed.
Lemma cancel_all_still fs : forall s s', cancel_all s fs = Ok s' -> still s s'.
Proof.
  induction fs as [|i fs IH]; intros s s' H; cbn [cancel_all] in H; [injection H as <-; still_tac|].
  bind_inv H. destruct a. apply cancel_still in E. eapply still_trans; eauto.
Qed.
Lemma gather_cancel_still s g s' : gather_cancel s g = Ok s' -> still s s'.
Proof.
  unfold gather_cancel. intros H. bind_inv H. bind_inv H. destruct (f_state a0); try (injection H as <-; still_tac). eapply cancel_all_still; eauto.
Qed.
Lemma user_keeps s target w c a s' : user_step s target w c a = Ok s' -> keeps (Some a) s s'.
Proof.
  intros H. assert (C : (' (r, s) <- call s a ;; answer s c r) = Ok s' -> keeps (Some a) s s').
  { intros K. bind_inv K. destruct a0. apply call_keeps in E. apply answer_still in K. eapply keeps_then; eauto. }
  destruct a; try exact (C H); clear C; cbn [user_step] in H; apply keeps_still.
  - destruct (w_task w); [|eapply answer_still; eauto]. destruct (nth_error _ f); [|eapply answer_still; eauto]. bind_inv H.
    destruct a; [eapply answer_still; eauto|]. bind_inv H. destruct a. apply wait_still in E0. eapply still_trans; [exact E0|].
    destruct b; bind_inv H; [|eapply answer_still; eauto]. apply move_still in E1. apply finish_still in H. eapply still_trans; eauto.
  - bind_inv H. apply move_still in E. apply finish_still in H. eapply still_trans; eauto.
  - bind_inv H. apply move_still in E. eapply still_trans; [exact E|]. destruct e; try (eapply finish_still; exact H); injection H as <-; still_tac.
Qed.
Lemma turned_keeps s s' target now due : turned s s' target now due -> lext text (ts_objs (w_timers s)) (ts_objs (w_timers s')).
Proof. intros T. rewrite (u_objs _ _ _ _ _ T). apply lext_refl, text_refl. Qed.
Lemma enq_timers_stop now : forall fuel s s', enqueue_timers fuel s now = Ok s' -> w_stop s' = w_stop s.
Proof.
  induction fuel as [|fuel IH]; intros s s' H; cbn [enqueue_timers] in H; [discriminate|].
  destruct (_ <? _) in H; [|now injection H as <-]. bind_inv H. destruct (_ <=? _)%Z in H; [|now injection H as <-].
  bind_inv H. destruct a0. bind_inv H. destruct (w_coro (t_work a0)); [|apply IH in H; exact H].
  bind_inv H. destruct a1. apply IH in H. apply soon_still in E2. destruct E2 as [_ E2]. cbn in E2. congruence.
Qed.
Lemma begin_stop s target now s' : begin_step s target now = Ok s' -> w_stop s' = w_stop s.
Proof.
  unfold begin_step. intros H. bind_inv H. apply enq_timers_stop in E. bind_inv H. destruct a0 as [ow s1].
  assert (S1 : w_stop s1 = w_stop a). { destruct (negb _); [|now injection E0 as <- <-]. bind_inv E0. destruct a0. now injection E0 as <- <-. }
  destruct (w_stop s1) eqn:Es; [injection H as <-; cbn; congruence|]. destruct ow as [w|]; [|injection H as <-; congruence].
  destruct (w_coro w); [|discriminate]. apply resume_rest in H. destruct H as (_ & _ & _ & _ & _ & ->). cbn. congruence.
Qed.

Section Code.
Context (code : nat -> list resp -> act).

Lemma exec_keeps s l s' : inv s -> exec code s l = Ok s' -> keeps (action code s l) s s'.
Proof.
  intros I H. unfold exec in H. unfold action.
  destruct (w_mode s) as [|target|target w] eqn:M; destruct l as [a|tg|now|];
    try (injection H as <-; apply keeps_still; still_tac).
  - bind_inv H. destruct a0. injection H as <-. eapply call_keeps; eauto.
  - destruct (w_running s); injection H as <-; [apply keeps_still; still_tac|]. split; [apply lext_refl, text_refl|auto].
  - destruct (target_done s target) eqn:TD; [injection H as <-; apply keeps_still; still_tac|].
    pose proof (begin_step_ok s target now I) as P. rewrite H in P. destruct P as (_ & _ & due & T). split; [eapply turned_keeps; eauto|].
    apply begin_stop in H. congruence.
  - pose proof (i_curr _ I w (i_mode _ I _ _ M)) as (c & x & Hc & X & _). unfold body_step in H. rewrite Hc in *. unfold get_coro in H.
    rewrite (read_ok _ _ _ X) in H. rewrite X. cbn [bind] in H. destruct (c_code x).
    + eapply user_keeps; eauto.
    + bind_inv H. bind_inv H. apply gather_cb_still in E. apply move_still in E0. apply finish_still in H. apply keeps_still. eapply still_trans; [exact E|eapply still_trans; eauto].
    + bind_inv H. bind_inv H. apply gather_cancel_still in E. apply move_still in E0. apply finish_still in H. apply keeps_still. eapply still_trans; [exact E|eapply still_trans; eauto].
Qed.

(** ** The order of a run *)
Lemma step_history s l s' : inv s -> exec code s l = Ok s' -> w_stop s = false ->
  exists kept new, subseq kept (ready s) /\ started s' ++ ready s' = started s ++ kept ++ new
    /\ ((forall n, action code s l <> Some (ACancelHandle n)) -> kept = ready s).
Proof.
  intros I H NS. pose proof (exec_ok code s l I) as P. rewrite H in P. destruct P as (_ & _ & S).
  destruct S as [(target & now & due & M & -> & TD & T)|(NT & E)].
  - exists (ready s), (duework (ts_objs (w_timers s)) due). split; [apply subseq_refl|]. split; auto.
    pose proof (u_run _ _ _ _ _ T) as U. rewrite NS in U. cbv zeta in U. unfold started.
    destruct (ready s ++ duework (ts_objs (w_timers s)) due) as [|w rest] eqn:Eq.
    + destruct U as (-> & -> & _). reflexivity.
    + destruct U as (-> & -> & _). cbn [rev]. now rewrite <- app_assoc.
  - assert (Z : (exists new, adds s s' new) -> exists kept new, subseq kept (ready s) /\ started s' ++ ready s' = started s ++ kept ++ new
      /\ ((forall n, action code s l <> Some (ACancelHandle n)) -> kept = ready s)).
    { intros [new A]. exists (ready s), new. split; [apply subseq_refl|]. split; auto. unfold started. now rewrite (a_ran _ _ _ A), (a_ready _ _ _ A). }
    unfold effect_of in E. destruct (action code s l) as [a|]; [|exact (Z E)]. destruct a; try exact (Z E).
    destruct E as (_ & R & S). exists (ready s'), []. split; auto. unfold started. rewrite R, app_nil_r. split; auto.
    intros N. exfalso. eapply N; reflexivity.
Qed.
Lemma run_history (ok : world -> act -> Prop) ls : (forall s a, ok s a -> a <> AStop) -> forall s s', inv s -> w_stop s = false -> only ok code s ls -> run code s ls = Ok s' ->
  exists kept new, subseq kept (ready s) /\ started s' ++ ready s' = started s ++ kept ++ new
    /\ ((forall s a n, ok s a -> a <> ACancelHandle n) -> kept = ready s).
Proof.
  intros OK. induction ls as [|l ls IH]; intros s s' I NS O H; cbn [run] in H.
  - injection H as <-. exists (ready s), []. rewrite app_nil_r. split; [apply subseq_refl|auto].
  - cbn [only] in O. destruct (exec code s l) as [s1| | |] eqn:E; try discriminate. cbn [bind] in H. destruct O as [Oa O].
    destruct (step_history s l s1 I E NS) as (k1 & n1 & S1 & E1 & K1).
    pose proof (exec_keeps s l s1 I E) as [_ ST]. pose proof (exec_ok code s l I) as P. rewrite E in P. destruct P as (I1 & _).
    destruct (IH s1 s') as (k2 & n2 & S2 & E2 & K2); auto.
    { apply ST; auto. intros Ha. rewrite Ha in Oa. now apply OK in Oa. }
    (* started s1 ++ ready s1 = started s ++ k1 ++ n1, and started s is a prefix of started s1 *)
    assert (ran : exists m, started s1 = started s ++ m).
    { clear -E I. pose proof (exec_ok code s l I) as P. rewrite E in P. destruct P as (_ & _ & S).
      destruct S as [(target & now & due & M & -> & TD & T)|(NT & EE)].
      - pose proof (u_run _ _ _ _ _ T) as U. cbv zeta in U. unfold started. destruct (w_stop s); [exists []; destruct U as (_ & -> & _); now rewrite app_nil_r|].
        destruct (_ ++ _); destruct U as (_ & -> & _); [exists []; now rewrite app_nil_r|exists [w]; reflexivity].
      - exists []. rewrite app_nil_r. unfold started. f_equal. unfold effect_of in EE.
        destruct (action code s l) as [a|]; [|destruct EE as [new A]; apply A]. destruct a; solve [destruct EE as [new A]; apply A | apply EE]. }
    destruct ran as [m Em]. rewrite Em, <- app_assoc in E1. apply app_inv_head in E1.
    (* m ++ ready s1 = k1 ++ n1 *)
    assert (SS : subseq (m ++ k2) (k1 ++ n1)) by (rewrite <- E1; apply subseq_app; auto using subseq_refl).
    destruct (subseq_app_inv _ _ _ SS) as (a & b & Eab & Sa & Sb).
    exists a, (b ++ n2). split; [eapply subseq_trans; eauto|]. split.
    + rewrite E2, Em, <- !app_assoc. f_equal. rewrite !app_assoc. f_equal. rewrite Eab. reflexivity.
    + intros NC. rewrite K2 in Eab by auto. rewrite E1 in Eab. 
      assert (K : k1 = ready s) by (apply K1; intros n Hn; rewrite Hn in Oa; eapply NC; eauto). rewrite K in Eab, Sa. clear K1 K.
      (* a ++ b = ready s ++ n1 with a a subsequence of ready s and b of n1 *)
      assert (La : length a <= length (ready s)) by (clear -Sa; induction Sa; cbn; lia).
      assert (Lb : length b <= length n1) by (clear -Sb; induction Sb; cbn; lia).
      assert (L : length (ready s ++ n1) = length (a ++ b)) by now rewrite Eab.
      rewrite !app_length in L. assert (LL : length a = length (ready s)) by lia.
      clear -Eab LL. revert LL Eab. generalize (ready s) as r. induction a as [|x a IH]; intros [|y r]; cbn; try discriminate; auto.
      intros L E. injection E as -> E. f_equal. apply IH; auto.
Qed.

(** ** Futures *)
Lemma run_done ls i f : forall s s', inv s -> run code s ls = Ok s' -> nth_error (w_futs s) i = Some f -> is_done f = true ->
  exists f', nth_error (w_futs s') i = Some f' /\ f_state f' = f_state f.
Proof.
  intros s s' I H N D. destruct (run_inv code ls s s' I H) as [_ X]. destruct (e_futs _ _ X i f N) as (f' & N' & _ & S). exists f'. auto.
Qed.
(** the callbacks of a future, until it is done *)
Lemma step_callbacks s l s' i f : inv s -> exec code s l = Ok s' -> nth_error (w_futs s) i = Some f -> is_done f = false ->
  exists f' more, nth_error (w_futs s') i = Some f' /\
    if is_done f' then exists a b, filter plain (ready s') = filter plain (ready s) ++ a ++ filter plain (f_cbs f ++ more) ++ b
    else f_cbs f' = f_cbs f ++ more.
Proof.
  intros I H N D. pose proof (exec_ok code s l I) as P. rewrite H in P. destruct P as (_ & _ & S).
  destruct S as [(target & now & due & M & -> & TD & T)|(NT & E)].
  - exists f, []. rewrite (u_futs _ _ _ _ _ T), D, app_nil_r. auto.
  - assert (Z : (exists new, adds s s' new) -> exists f' more, nth_error (w_futs s') i = Some f' /\
      if is_done f' then exists a b, filter plain (ready s') = filter plain (ready s) ++ a ++ filter plain (f_cbs f ++ more) ++ b
      else f_cbs f' = f_cbs f ++ more).
    { intros [new A]. destruct (a_cbs _ _ _ A i f N D) as (f' & more & N' & C). exists f', more. split; auto.
      destruct (is_done f'); auto. destruct C as (a & b & C). exists a, b. now rewrite (a_ready _ _ _ A), filter_app, C. }
    unfold effect_of in E. destruct (action code s l) as [a|]; [|exact (Z E)]. destruct a; try exact (Z E).
    destruct E as (F & _). exists f, []. rewrite F, D, app_nil_r. auto.
Qed.
Lemma filter_subseq {A} (p : A -> bool) l : subseq (filter p l) l.
Proof. induction l as [|x l IH]; cbn; [constructor|]. destruct (p x); constructor; auto. Qed.
Lemma run_callbacks ls i : forall s s' f f', inv s -> w_stop s = false -> only no_stop_no_cancel code s ls -> run code s ls = Ok s' ->
  nth_error (w_futs s) i = Some f -> is_done f = false -> nth_error (w_futs s') i = Some f' -> is_done f' = true ->
  exists new, started s' ++ ready s' = started s ++ ready s ++ new /\ exists a b more, filter plain new = a ++ filter plain (f_cbs f ++ more) ++ b.
Proof.
  induction ls as [|l ls IH]; intros s s' f f' I NS O H N D N' D'; cbn [run] in H; [injection H as <-; congruence|].
  pose proof O as O0. cbn [only] in O. destruct (exec code s l) as [s1| | |] eqn:E; try discriminate. cbn [bind] in H. destruct O as [Oa O].
  destruct (step_history s l s1 I E NS) as (k1 & n1 & S1 & E1 & K1). rewrite K1 in E1 by (intros n Hn; rewrite Hn in Oa; now destruct Oa as [_ Oa]; apply (Oa n)).
  pose proof (exec_keeps s l s1 I E) as [_ ST]. pose proof (exec_ok code s l I) as P. rewrite E in P. destruct P as (I1 & X1 & SS1).
  assert (NS1 : w_stop s1 = false). { apply ST; auto. intros Ha. rewrite Ha in Oa. now destruct Oa. }
  destruct (step_callbacks s l s1 i f I E N D) as (f1 & more & N1 & C1). destruct (is_done f1) eqn:D1.
  - destruct (run_history no_stop_no_cancel ls (fun _ _ H => proj1 H) s1 s' I1 NS1 O H) as (k2 & n2 & _ & E2 & K2).
    rewrite K2 in E2 by (intros ? ? ? [_ Hn]; apply Hn). exists (n1 ++ n2). split.
    { rewrite E2, app_assoc, E1, <- !app_assoc. reflexivity. }
    destruct C1 as (a & b & C1). 
    (* the step was not a turn: the work started did not change *)
    destruct SS1 as [(target & now & due & M & -> & TD & T)|(NT & EE)]; [rewrite (u_futs _ _ _ _ _ T) in N1; congruence|].
    assert (A : exists new, adds s s1 new).
    { unfold effect_of in EE. destruct (action code s l) as [x|]; auto. destruct x; auto. destruct Oa as [_ Oa]. exfalso. now apply (Oa n). }
    destruct A as [new A]. unfold started in E1. rewrite (a_ran _ _ _ A) in E1. apply app_inv_head in E1. rewrite E1, filter_app in C1. apply app_inv_head in C1.
    exists a, (b ++ filter plain n2), more. rewrite filter_app, C1, <- !app_assoc. reflexivity.
  - destruct (IH s1 s' f1 f' I1 NS1 O H N1 D1 N' D') as (new & E2 & a & b & m2 & C2). exists (n1 ++ new). split.
    { rewrite E2, app_assoc, E1, <- !app_assoc. reflexivity. }
    exists (filter plain n1 ++ a), b, (more ++ m2). rewrite filter_app, C2, C1, <- !app_assoc. reflexivity.
Qed.

(** ** Cancelled timers *)
Lemma run_timers ls : forall s s', inv s -> run code s ls = Ok s' -> lext text (ts_objs (w_timers s)) (ts_objs (w_timers s')).
Proof.
  induction ls as [|l ls IH]; intros s s' I H; cbn [run] in H; [injection H as <-; apply lext_refl, text_refl|].
  destruct (exec code s l) as [s1| | |] eqn:E; try discriminate. cbn [bind] in H. pose proof (exec_ok code s l I) as P. rewrite E in P. destruct P as (I1 & _).
  apply (lext_trans _ _ _ _ text_trans (proj1 (exec_keeps s l s1 I E))). eauto.
Qed.
End Code.
