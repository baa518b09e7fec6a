(** Steps of the loop preserve the invariant. *)
From Coq Require Import List ZArith Bool Lia Permutation Sorted.
From Verif.Common Require Import Result.
From Verif.Async Require Import Model Spec QueueProofs TimerProofs InvProofs.
Import ListNotations.
Local Open Scope res_scope.

Ltac fields := cbn [set_queue set_timers set_futs set_coros set_gathers set_handles set_curr set_running set_stop set_mode set_ran
  w_queue w_timers w_futs w_gathers w_handles w_curr w_mode w_coros w_ran w_stop w_running].
Ltac same_ext := split; apply lext_refl; auto using fext_refl, gext_refl, cext_refl.

(** only the loop's own fields change *)
Lemma inv_loop s s' : inv s -> w_queue s' = w_queue s -> w_timers s' = w_timers s -> w_futs s' = w_futs s ->
  w_coros s' = w_coros s -> w_gathers s' = w_gathers s -> w_handles s' = w_handles s ->
  (forall w, w_curr s' = Some w -> w_curr s = Some w \/ wf s w) ->
  (forall t w, w_mode s' = Inside t w -> w_curr s' = Some w) -> inv s'.
Proof.
  intros I Q T F C G H K M. destruct s, s'. cbn in *. subst.
  assert (X : ext (World w_queue w_timers w_futs w_coros w_gathers w_handles w_curr w_running w_stop w_mode w_ran)
                  (World w_queue w_timers w_futs w_coros w_gathers w_handles w_curr0 w_running0 w_stop0 w_mode0 w_ran0)) by same_ext.
  apply (inv_step _ _ I X); auto; try apply I. intros j y Y. left. eauto.
Qed.

(** ** Coroutines *)
Lemma set_coro_ok s c x y : inv s -> nth_error (w_coros s) c = Some x -> cext x y ->
  inv (set_coro s c y) /\ ext s (set_coro s c y) /\ adds s (set_coro s c y) [].
Proof.
  intros I X C.
  assert (E : ext s (set_coro s c y)).
  { split; unfold set_coro; fields; [| |]; try (apply lext_refl; auto using fext_refl, gext_refl).
    eapply lext_upd; eauto using cext_refl. }
  split; [|split; [exact E|apply adds_same; reflexivity]].
  apply (inv_step s _ I E); unfold set_coro; fields; auto; try apply I.
  intros k z K. rewrite nth_upd in K. left. destruct (Nat.eqb_spec c k) as [<-|D].
  - destruct (c <? length (w_coros s)); [|discriminate]. injection K as <-. exists x. split; auto. apply C.
  - eauto.
Qed.
Lemma move_ok s c x p : inv s -> nth_error (w_coros s) c = Some x ->
  move s c p = Ok (set_coro s c (Coro (c_code x) (c_hist x) p)) /\
  (let s' := set_coro s c (Coro (c_code x) (c_hist x) p) in inv s' /\ ext s s' /\ adds s s' []).
Proof.
  intros I X. split; [unfold move, get_coro; now rewrite (read_ok _ _ _ X)|].
  apply (set_coro_ok s c x); auto. split; auto. exists []. now rewrite app_nil_r.
Qed.
Lemma answer_ok s c x r : inv s -> nth_error (w_coros s) c = Some x ->
  answer s c r = Ok (set_coro s c (Coro (c_code x) (c_hist x ++ [r]) (c_at x))) /\
  (let s' := set_coro s c (Coro (c_code x) (c_hist x ++ [r]) (c_at x)) in inv s' /\ ext s s' /\ adds s s' []).
Proof.
  intros I X. split; [unfold answer, get_coro; now rewrite (read_ok _ _ _ X)|].
  apply (set_coro_ok s c x); auto. split; cbn; eauto.
Qed.
Lemma coro_ext s s' c x : ext s s' -> nth_error (w_coros s) c = Some x -> exists x', nth_error (w_coros s') c = Some x'.
Proof. intros E X. destruct (e_coros _ _ E c x X) as (x' & X' & _). eauto. Qed.

Lemma finish_ok s target w exc ret : inv s -> wf s w ->
  exists s', finish_step s target w exc ret = Ok s' /\ inv s' /\ grows s s' /\ w_mode s' = Between target /\ w_curr s' = None.
Proof.
  intros I (c & x & Hc & Hx & Ht). unfold finish_step.
  assert (FIN : forall s1, inv s1 -> grows s s1 -> let s' := set_mode (set_curr s1 None) (Between target) in
     Ok s' = Ok s' /\ inv s' /\ grows s s' /\ w_mode s' = Between target /\ w_curr s' = None).
  { intros s1 I1 G1. cbv zeta. split; auto. split.
    - apply (inv_loop s1 _ I1); fields; auto; discriminate.
    - split; auto. eapply grows_trans; [exact G1|]. split; [same_ext|]. exists []. apply adds_same; reflexivity. }
  destruct (w_task w) as [t|].
  - destruct (Ht t eq_refl) as (f & F & _). unfold get_fut. rewrite (read_ok _ _ _ F). cbn [bind].
    destruct (is_done f) eqn:D; [cbn [bind]; eexists; apply FIN; auto using grows_refl|].
    destruct exc as [e|].
    + destruct (resolve_ok s t f (Failed e) I F D) as (s1 & new & f1 & E & I1 & X1 & A1 & _); [discriminate|]. rewrite E. cbn [bind].
      eexists. apply FIN; auto. split; eauto.
    + destruct ret as [v|]; [|cbn [bind]; eexists; apply FIN; auto using grows_refl].
      destruct (resolve_ok s t f (Finished v) I F D) as (s1 & new & f1 & E & I1 & X1 & A1 & _); [discriminate|]. rewrite E. cbn [bind].
      eexists. apply FIN; auto. split; eauto.
  - cbn [bind]. eexists. apply FIN; auto using grows_refl.
Qed.

Lemma wait_on_ok s i f : inv s -> nth_error (w_futs s) i = Some f ->
  exists b s', wait_on s i = Ok (b, s') /\ inv s' /\ grows s s' /\ frame s s'.
Proof.
  intros I F. unfold wait_on. destruct (w_curr s) as [w|] eqn:Ew; [|eexists _, _; split; [reflexivity|]; auto using grows_refl, frame_refl].
  pose proof (i_curr _ I w Ew) as W. unfold get_fut at 1. rewrite (read_ok _ _ _ F). cbn [bind].
  destruct (is_done f) eqn:D; [eexists _, _; split; [reflexivity|]; auto using grows_refl, frame_refl|].
  destruct (push_cb_ok s i f w I F D W) as (cap & E & I1 & X1 & A1). rewrite E. cbn [bind].
  set (s1 := set_fut s i _) in *. destruct (w_task w) as [t|] eqn:Et.
  - pose proof W as (c & x & Hc & Hx & Ht). destruct (Ht t Et) as (g & Hg & _).
    destruct (e_futs _ _ X1 t g Hg) as (g1 & G1 & _). unfold get_fut. rewrite (read_ok _ _ _ G1). cbn [bind].
    destruct (set_wait_ok s1 t g1 (match f_task f with Some _ => Some i | None => f_wait_task g1 end) (Some i) I1 G1) as (I2 & X2 & A2).
    { intros j Hj. destruct (f_task f).
      - injection Hj as <-. pose proof (lext_len _ _ _ (e_futs _ _ X1)). assert (i < length (w_futs s)) by (apply nth_error_Some; congruence). lia.
      - exact (wf_wait _ _ (i_futs _ I1 t g1 G1) j Hj). }
    eexists _, _. split; [reflexivity|]. split; auto. split; [eapply grows_trans; split; eauto|]. repeat split.
  - eexists _, _. split; [reflexivity|]. split; auto. split; [split; eauto|]. repeat split.
Qed.

Lemma resume_ok s w c : inv s -> wf s w -> w_coro w = Some c -> post (resume s w c) (fun s' => inv s' /\ grows s s' /\ calm s s').
Proof.
  intros I W Hc. pose proof W as (c' & x & Hc' & X & Ht). rewrite Hc in Hc'. injection Hc' as <-.
  unfold resume, get_coro. rewrite (read_ok _ _ _ X). cbn [bind]. destruct (c_at x) as [|i| | |]; cbn [post]; auto.
  - destruct (move_ok s c x Active I X) as (E & I1 & X1 & A1). rewrite E. cbn [post]. split; auto. split; [split; eauto|repeat split].
  - destruct (move_ok s c x Active I X) as (E & I1 & X1 & A1). rewrite E. cbn [bind]. set (s1 := set_coro s c _) in *.
    assert (X1' : nth_error (w_coros s1) c = Some (Coro (c_code x) (c_hist x) Active)) by (unfold s1, set_coro; fields; eapply nth_upd_eq; eauto).
    assert (exists b, cancelled_task s1 w = Ok b) as [b Eb].
    { unfold cancelled_task. destruct (w_task w) as [t|]; [|eauto]. destruct (Ht t eq_refl) as (f & F & _).
      destruct (e_futs _ _ X1 t f F) as (f1 & F1 & _). unfold get_fut. rewrite (read_ok _ _ _ F1). cbn. eauto. }
    rewrite Eb. cbn [bind]. unfold get_fut, read. destruct (nth_error (w_futs s1) i) as [f|]; cbn [bind post]; auto.
    destruct (answer_ok s1 c _ (if b then RErr ECancelled else result_of f) I1 X1') as (E2 & I2 & X2 & A2). rewrite E2. cbn [post].
    split; auto. split; [eapply grows_trans; split; eauto|]. repeat split.
Qed.

(** ** Expired timers *)
Definition duework (objs : list timer) (ks : list nat) : list work := concat (map (timer_work objs) ks).
Lemma duework_app objs a b : duework objs (a ++ b) = duework objs a ++ duework objs b.
Proof. unfold duework. now rewrite map_app, concat_app. Qed.

Lemma enq_timers_ok now : forall fuel s, inv s -> ts_len (w_timers s) < fuel ->
  exists s' due, enqueue_timers fuel s now = Ok s' /\ inv s' /\ ext s s' /\
    ready s' = ready s ++ duework (ts_objs (w_timers s)) due /\
    Permutation (members (w_timers s)) (due ++ members (w_timers s')) /\ ts_objs (w_timers s') = ts_objs (w_timers s) /\
    Forall (fun k => wobj (ts_objs (w_timers s)) k <= now)%Z due /\
    Forall (fun k => now < wobj (ts_objs (w_timers s)) k)%Z (members (w_timers s')) /\
    StronglySorted (fun a b => wobj (ts_objs (w_timers s)) a <= wobj (ts_objs (w_timers s)) b)%Z due /\
    w_futs s' = w_futs s /\ w_coros s' = w_coros s /\ w_gathers s' = w_gathers s /\ w_handles s' = w_handles s /\
    calm s s' /\ w_stop s' = w_stop s.
Proof.
  induction fuel as [|fuel IH]; intros s I B; [lia|]. cbn [enqueue_timers].
  pose proof (i_timers _ I) as T.
  assert (Z : (ts_len (w_timers s) = 0 \/ (now < wh (ts_objs (w_timers s)) (ts_arr (w_timers s)) 0)%Z) ->
     exists s' due, Ok s = Ok s' /\ inv s' /\ ext s s' /\
    ready s' = ready s ++ duework (ts_objs (w_timers s)) due /\
    Permutation (members (w_timers s)) (due ++ members (w_timers s')) /\ ts_objs (w_timers s') = ts_objs (w_timers s) /\
    Forall (fun k => wobj (ts_objs (w_timers s)) k <= now)%Z due /\
    Forall (fun k => now < wobj (ts_objs (w_timers s)) k)%Z (members (w_timers s')) /\
    StronglySorted (fun a b => wobj (ts_objs (w_timers s)) a <= wobj (ts_objs (w_timers s)) b)%Z due /\
    w_futs s' = w_futs s /\ w_coros s' = w_coros s /\ w_gathers s' = w_gathers s /\ w_handles s' = w_handles s /\
    calm s s' /\ w_stop s' = w_stop s).
  { intros C. exists s, []. cbn [duework map concat app]. rewrite app_nil_r. 
    split; [reflexivity|]. split; [exact I|]. split; [apply ext_refl|]. split; [reflexivity|]. split; [reflexivity|]. split; [reflexivity|].
    split; [constructor|]. split; [|split; [constructor|auto 10 using calm_refl]].
    apply Forall_forall. intros k K. destruct (members_in _ _ T K) as (i & Bi & _ & <-). destruct C as [C|C]; [lia|].
    pose proof (heap_root _ _ _ (t_heap _ T) i Bi). lia. }
  destruct (Nat.ltb_spec 0 (ts_len (w_timers s))) as [P|P]; [|apply Z; lia].
  rewrite (when_ok _ _ _ 0 (t_valid _ T) P). cbn [bind].
  destruct (Z.leb_spec (wh (ts_objs (w_timers s)) (ts_arr (w_timers s)) 0) now) as [L|L]; [|apply Z; auto].
  clear Z. destruct (pop_ok _ T P) as (k & t' & E & T' & O & Ln & Pm & Wk & Mn). rewrite E. cbn [bind].
  assert (Hk : In k (members (w_timers s))) by (eapply Permutation_in; [symmetry; exact Pm|now left]).
  assert (exists x, nth_error (ts_objs t') k = Some x) as [x X].
  { rewrite O. pose proof (t_valid _ T) as [_ V]. specialize (V k Hk). apply nth_error_Some in V.
    destruct (nth_error (ts_objs (w_timers s)) k) as [x|]; [eauto|easy]. }
  rewrite (read_ok _ _ _ X). cbn [bind]. set (s1 := set_timers s t').
  assert (X1 : ext s s1) by same_ext.
  assert (I1 : inv s1).
  { apply (inv_step s _ I X1); unfold s1; fields; auto; try apply I.
    - intros j y Y NC. rewrite O in Y. auto.
    - intros j y K. left. eauto. }
  assert (FIN : forall s2, inv s2 -> ext s1 s2 -> ready s2 = ready s ++ timer_work (ts_objs (w_timers s)) k -> w_timers s2 = t' ->
    w_futs s2 = w_futs s -> w_coros s2 = w_coros s -> w_gathers s2 = w_gathers s -> w_handles s2 = w_handles s -> calm s s2 -> w_stop s2 = w_stop s ->
    exists s' due, enqueue_timers fuel s2 now = Ok s' /\ inv s' /\ ext s s' /\
    ready s' = ready s ++ duework (ts_objs (w_timers s)) due /\
    Permutation (members (w_timers s)) (due ++ members (w_timers s')) /\ ts_objs (w_timers s') = ts_objs (w_timers s) /\
    Forall (fun k => wobj (ts_objs (w_timers s)) k <= now)%Z due /\
    Forall (fun k => now < wobj (ts_objs (w_timers s)) k)%Z (members (w_timers s')) /\
    StronglySorted (fun a b => wobj (ts_objs (w_timers s)) a <= wobj (ts_objs (w_timers s)) b)%Z due /\
    w_futs s' = w_futs s /\ w_coros s' = w_coros s /\ w_gathers s' = w_gathers s /\ w_handles s' = w_handles s /\
    calm s s' /\ w_stop s' = w_stop s).
  { intros s2 I2 X2 R2 T2 F2 C2 G2 H2 M2 S2.
    destruct (IH s2 I2) as (s3 & due & E3 & I3 & X3 & R3 & P3 & O3 & D3 & N3 & S3 & F3 & C3 & G3 & H3 & M3 & St3); [rewrite T2; lia|].
    rewrite T2, O in *. exists s3, (k :: due). split; auto. split; auto.
    split; [eapply ext_trans; [exact X1|]; eapply ext_trans; eauto|].
    split; [rewrite R3, R2; rewrite <- app_assoc; reflexivity|].
    split; [rewrite Pm, P3; reflexivity|]. split; [congruence|].
    split; [constructor; auto; lia|]. split; auto.
    split; [constructor; auto; apply Forall_forall; intros j J; apply Mn; eapply Permutation_in; [symmetry; exact Pm|]; right;
            eapply Permutation_in; [symmetry; exact P3|]; apply in_or_app; auto|].
    rewrite F3, C3, G3, H3, St3. repeat split; auto; destruct M2 as (? & ? & ? & ?), M3 as (? & ? & ? & ?); congruence. }
  rewrite O in X. destruct (w_coro (t_work x)) as [c|] eqn:Ec.
  - destruct (i_timer _ I k x X) as [Wx Tx]; [congruence|].
    destruct (soon_ok s1 (t_work x) I1) as (n & s2 & E2 & I2 & E2' & A2 & [q Eq] & _ & _ & _ & R2); [eapply wf_ext; eauto|].
    rewrite E2. cbn [bind]. apply FIN; auto; try (rewrite Eq; reflexivity).
    + rewrite R2. unfold timer_work. rewrite X, Ec. reflexivity.
    + rewrite Eq. repeat split.
  - apply FIN; auto; try reflexivity; [apply ext_refl| |repeat split].
    unfold timer_work. rewrite X, Ec. unfold s1, ready. fields. now rewrite app_nil_r.
Qed.

(** ** A turn *)
Record turned (s s' : world) (target : option nat) (now : Z) (due : list nat) : Prop := {
  u_due : Permutation (members (w_timers s)) (due ++ members (w_timers s'));
  u_objs : ts_objs (w_timers s') = ts_objs (w_timers s);
  u_le : Forall (fun k => wobj (ts_objs (w_timers s)) k <= now)%Z due;
  u_gt : Forall (fun k => now < wobj (ts_objs (w_timers s)) k)%Z (members (w_timers s'));
  u_sorted : StronglySorted (fun a b => wobj (ts_objs (w_timers s)) a <= wobj (ts_objs (w_timers s)) b)%Z due;
  u_futs : w_futs s' = w_futs s;
  u_run : let all := ready s ++ duework (ts_objs (w_timers s)) due in
    if w_stop s then w_mode s' = Outside /\ w_ran s' = w_ran s /\ ready s' = tl all
    else match all with
         | [] => ready s' = [] /\ w_ran s' = w_ran s /\ w_mode s' = w_mode s
         | w :: rest => ready s' = rest /\ w_ran s' = w :: w_ran s /\ w_mode s' = Inside target w
         end }.

Lemma resume_rest s w c s' : resume s w c = Ok s' -> w_timers s' = w_timers s /\ w_futs s' = w_futs s /\ w_queue s' = w_queue s /\
  w_gathers s' = w_gathers s /\ w_handles s' = w_handles s /\ w_stop s' = w_stop s.
Proof.
  unfold resume. intros H. bind_inv H. destruct (c_at a); try discriminate.
  - unfold move in H. bind_inv H. injection H as <-. repeat split.
  - bind_inv H. unfold move in E0. bind_inv E0. injection E0 as <-. bind_inv H. bind_inv H. unfold answer in H. bind_inv H. injection H as <-. repeat split.
Qed.

Lemma begin_step_ok s target now : inv s ->
  post (begin_step s target now) (fun s' => inv s' /\ ext s s' /\ exists due, turned s s' target now due).
Proof.
  intros I. unfold begin_step.
  destruct (enq_timers_ok now (S (ts_len (w_timers s))) s I) as (s1 & due & E & I1 & X1 & R1 & P1 & O1 & D1 & N1 & S1 & F1 & C1 & G1 & H1 & M1 & St1); [lia|].
  rewrite E. cbn [bind]. rewrite (empty_ok _ (i_queue _ I1)). fold (ready s1).
  destruct M1 as (M1 & M2 & M3 & M4).
  destruct (ready s1) as [|w ws] eqn:Er.
  - cbn [negb bind]. rewrite St1. destruct (w_stop s) eqn:Es; cbn [post].
    + split; [|split].
      * apply (inv_loop s1 _ I1); fields; auto; discriminate.
      * eapply ext_trans; [exact X1|same_ext].
      * exists due. split; fields; auto. rewrite <- R1, Es. unfold ready in *. fields. rewrite Er. auto.
    + split; auto. split; auto. exists due. split; auto. rewrite <- R1, Es. cbv zeta iota. auto.
  - cbn [negb]. destruct (deq_ok _ w ws (i_queue _ I1) Er) as (q' & Eq & Q' & Wq & Lq & Ww). rewrite Eq. cbn [bind].
    pose proof (i_ready _ I1) as FR. rewrite Er in FR. pose proof (Forall_inv FR) as Wf.
    set (s2 := set_curr (set_queue s1 q') (Some w)).
    assert (X2 : ext s1 s2) by same_ext.
    assert (I2 : inv (set_mode s2 Outside)).
    { apply (inv_step s1 _ I1); unfold s2; fields; auto; try apply I1; try discriminate.
      - same_ext.
      - intros v V. left. rewrite Er. right. change (In v (waiting q')) in V. now rewrite Wq in V.
      - intros n B. rewrite Lq, Ww. auto.
      - intros v [= <-]. auto.
      - intros j y K. left. eauto. }
    change (w_stop s2) with (w_stop s1). rewrite St1. destruct (w_stop s) eqn:Es; cbn [post].
    + split; [|split].
      * apply (inv_loop _ (set_mode (set_running s2 false) Outside) I2); fields; auto; discriminate.
      * eapply ext_trans; [exact X1|]. eapply ext_trans; [exact X2|same_ext].
      * exists due. split; unfold s2; fields; auto. rewrite <- R1, Es. cbv zeta iota. cbn [tl]. auto.
    + pose proof Wf as (c & x & Hc & Hx & _). rewrite Hc.
      set (s3 := set_mode (set_ran s2 (w :: w_ran s2)) (Inside target w)).
      assert (I3 : inv s3).
      { apply (inv_loop (set_mode s2 Outside) _ I2); unfold s3, s2; fields; auto. now intros ? ? [= <- <-]. }
      assert (X3 : ext s2 s3) by same_ext.
      assert (X13 : ext s s3) by (eapply ext_trans; [exact X1|eapply ext_trans; eauto]).
      pose proof (resume_ok s3 w c I3) as PR. destruct (resume s3 w c) as [s4| | |] eqn:Er4; cbn [post] in *; auto.
      destruct PR as (I4 & [X4 _] & K4); auto.
      apply resume_rest in Er4. destruct Er4 as (T4 & F4 & Q4 & _). destruct K4 as (K41 & K42 & K43 & K44).
      split; auto. split; [eapply ext_trans; eauto|]. exists due.
      split; rewrite ?T4, ?F4; unfold s3, s2; fields; auto.
      rewrite <- R1, Es. cbv zeta iota. unfold ready at 1. rewrite Q4, K43, K44. unfold s3, s2. fields. rewrite Wq, M4. auto.
Qed.

(** ** Bodies *)
Lemma rind_ok s i st : inv s -> i < length (w_futs s) -> st <> Pending ->
  exists s', resolve_if_not_done s i st = Ok s' /\ inv s' /\ grows s s' /\ frame s s'.
Proof.
  intros I B NP. unfold resolve_if_not_done, get_fut.
  destruct (nth_error (w_futs s) i) as [f|] eqn:F; [|apply nth_error_None in F; lia]. rewrite (read_ok _ _ _ F). cbn [bind].
  destruct (is_done f) eqn:D; [exists s; auto using grows_refl, frame_refl|].
  destruct (resolve_ok s i f st I F D NP) as (s1 & new & f1 & E & I1 & X1 & A1 & Fr & _). exists s1. split; auto. split; auto. split; auto. split; eauto.
Qed.
Lemma gather_cb_ok s g i x k : inv s -> nth_error (w_gathers s) g = Some x -> nth_error (g_futs x) i = Some k ->
  exists s', gather_callback s g i = Ok s' /\ inv s' /\ grows s s' /\ calm s s' /\ w_coros s' = w_coros s.
Proof.
  intros I X K. pose proof (i_gathers _ I g x X) as [O F L]. unfold gather_callback.
  rewrite (read_ok _ _ _ X). cbn [bind]. rewrite (read_ok _ _ _ K). cbn [bind].
  pose proof (F k (nth_error_In _ _ K)) as Bk. unfold get_fut.
  destruct (nth_error (w_futs s) k) as [f|] eqn:Hf; [|apply nth_error_None in Hf; lia]. rewrite (read_ok _ _ _ Hf). cbn [bind].
  assert (Z : forall st, let results := match st with Finished v => upd (g_results x) i v | _ => g_results x end in
     exists s', (let s := set_gathers s (upd (w_gathers s) g (G (g_outer x) (g_futs x) results (g_remaining x - 1))) in
      if (g_remaining x =? 1)%Z then resolve_if_not_done s (g_outer x) (Finished (VTuple results)) else Ok s) = Ok s'
      /\ inv s' /\ grows s s' /\ calm s s' /\ w_coros s' = w_coros s).
  { intros st. cbv zeta. set (results := match st with Finished v => _ | _ => _ end).
    assert (LR : length results = length (g_futs x)) by (unfold results; destruct st; auto; now rewrite upd_length).
    destruct (set_gathers_ok s (upd (w_gathers s) g (G (g_outer x) (g_futs x) results (g_remaining x - 1))) I) as (I1 & X1 & A1).
    - eapply lext_upd; eauto using gext_refl. split; auto.
    - intros g' y Y. rewrite nth_upd in Y. destruct (Nat.eqb_spec g g') as [<-|D]; auto.
      destruct (_ <? _); [|discriminate]. injection Y as <-. right. split; cbn; auto.
    - destruct (g_remaining x =? 1)%Z; [|eexists; split; [reflexivity|]; split; auto; split; [split; eauto|split; [repeat split|auto]]].
      destruct (rind_ok (set_gathers s (upd (w_gathers s) g (G (g_outer x) (g_futs x) results (g_remaining x - 1)))) (g_outer x) (Finished (VTuple results)) I1) as (s2 & E & I2 & G2 & Fr2); [auto|discriminate|].
      exists s2. split; auto. split; auto. split; [eapply grows_trans; [split; eauto|exact G2]|]. apply calm_frame in Fr2 as C2.
      split; [eapply calm_trans; [|exact C2]; repeat split|]. destruct Fr2 as (_ & -> & _). reflexivity. }
  destruct (f_state f) as [| | |] eqn:St; try (exact (Z (f_state f)) || (rewrite <- St; exact (Z _)) || idtac).
  - exact (Z Pending).
  - exact (Z (Finished v)).
  - replace (g_outer x =? k) with false by (symmetry; apply Nat.eqb_neq; lia).
    destruct (rind_ok s (g_outer x) (Failed e) I O) as (s2 & E & I2 & G2 & Fr2); [discriminate|].
    exists s2. split; auto. split; auto. split; auto. apply calm_frame in Fr2 as C2. split; auto. apply Fr2.
  - exact (Z Cancelled).
Qed.
Lemma cancel_all_ok fs : forall s, inv s -> (forall i, In i fs -> i < length (w_futs s)) ->
  post (cancel_all s fs) (fun s' => inv s' /\ grows s s' /\ frame s s').
Proof.
  induction fs as [|i fs IH]; intros s I B; cbn [cancel_all]; [cbn; auto using grows_refl, frame_refl|].
  apply post_bind. eapply post_mono; [apply (cancel_ok (fuel_of s) [] s i I)|].
  - apply B. now left.
  - constructor.
  - easy.
  - unfold fuel_of. cbn. lia.
  - intros [b s1] (I1 & G1 & F1 & L1). cbn [snd] in *. eapply post_mono; [apply (IH s1 I1)|].
    + intros j J. rewrite L1. apply B. now right.
    + intros s2 (I2 & G2 & F2). split; auto. split; [eapply grows_trans; eauto|eapply frame_trans; eauto].
Qed.
Lemma gather_cancel_ok s g x : inv s -> nth_error (w_gathers s) g = Some x ->
  post (gather_cancel s g) (fun s' => inv s' /\ grows s s' /\ frame s s').
Proof.
  intros I X. pose proof (i_gathers _ I g x X) as [O F L]. unfold gather_cancel.
  rewrite (read_ok _ _ _ X). cbn [bind]. unfold get_fut.
  destruct (nth_error (w_futs s) (g_outer x)) as [f|] eqn:Hf; [|apply nth_error_None in Hf; lia]. rewrite (read_ok _ _ _ Hf). cbn [bind].
  destruct (f_state f); cbn [post]; auto using grows_refl, frame_refl. apply cancel_all_ok; auto. intros i Hi. specialize (F i Hi). lia.
Qed.

(** what a step that is not a turn does to the queue *)
Definition effect_of (a : option act) (s s' : world) : Prop :=
  match a with Some a => effect a s s' | None => exists new, adds s s' new end.
Section Code.
Context (code : nat -> list resp -> act).

Lemma set_coro_queue s c y : w_queue (set_coro s c y) = w_queue s /\ w_futs (set_coro s c y) = w_futs s /\ w_ran (set_coro s c y) = w_ran s.
Proof. repeat split. Qed.

Lemma user_step_ok s target w c x a : inv s -> wf s w -> w_mode s = Inside target w -> w_coro w = Some c -> nth_error (w_coros s) c = Some x ->
  post (user_step s target w c a) (fun s' => inv s' /\ ext s s' /\ effect a s s').
Proof.
  intros I W M Hc X. pose proof (i_mode _ I _ _ M) as Hcurr.
  assert (CALL : post (' (r, s) <- call s a ;; answer s c r) (fun s' => inv s' /\ ext s s' /\ effect a s s')).
  { apply post_bind. eapply post_mono; [apply (call_ok s a I)|]. intros [r s1] (I1 & X1 & C1 & E1). cbn [snd] in *.
    destruct (coro_ext _ _ _ _ X1 X) as [x1 Hx1]. destruct (answer_ok s1 c x1 r I1 Hx1) as (E & I2 & X2 & A2). rewrite E. cbn [post].
    split; auto. split; [eapply ext_trans; eauto|].
    destruct a; cbn [effect] in *; try (destruct E1 as [n1 E1]; eexists; eapply adds_trans; eauto). exact E1. }
  destruct a; try exact CALL; clear CALL; cbn [user_step effect].
  - (* await *)
    assert (ANS : forall r, post (answer s c r) (fun s' => inv s' /\ ext s s' /\ exists new, adds s s' new)).
    { intros r. destruct (answer_ok s c x r I X) as (E & I2 & X2 & A2). rewrite E. cbn [post]. eauto. }
    destruct (w_task w) as [t|] eqn:Et; [|apply ANS]. destruct (nth_error (w_futs s) f) as [y|] eqn:Hy; [|apply ANS].
    assert (exists b, cancelled_task s w = Ok b) as [b Eb].
    { unfold cancelled_task. rewrite Et. destruct W as (c' & x' & _ & _ & Ht). destruct (Ht t Et) as (z & Hz & _).
      unfold get_fut. rewrite (read_ok _ _ _ Hz). cbn. eauto. }
    rewrite Eb. cbn [bind]. destruct b; [apply ANS|].
    destruct (wait_on_ok s f y I Hy) as (added & s1 & E1 & I1 & [X1 [n1 A1]] & Fr1). rewrite E1. cbn [bind].
    destruct (coro_ext _ _ _ _ X1 X) as [x1 Hx1]. destruct added.
    + destruct (move_ok s1 c x1 (AtAwait f) I1 Hx1) as (E2 & I2 & X2 & A2). rewrite E2. cbn [bind].
      destruct (finish_ok _ target w None None I2) as (s3 & E3 & I3 & [X3 [n3 A3]] & _).
      { eapply wf_ext; [exact X2|]. eapply wf_ext; eauto. }
      rewrite E3. cbn [post]. split; auto. split; [eapply ext_trans; [exact X1|eapply ext_trans; eauto]|].
      eexists. eapply adds_trans; [exact X1|eapply ext_trans; eauto|exact A1|]. eapply adds_trans; eauto.
    + destruct (e_futs _ _ X1 f y Hy) as (y1 & Hy1 & _). unfold get_fut. rewrite (read_ok _ _ _ Hy1). cbn [bind].
      destruct (answer_ok s1 c x1 (result_of y1) I1 Hx1) as (E2 & I2 & X2 & A2). rewrite E2. cbn [post].
      split; auto. split; [eapply ext_trans; eauto|]. eexists. eapply adds_trans; eauto.
  - (* return *)
    destruct (move_ok s c x Returned I X) as (E2 & I2 & X2 & A2). rewrite E2. cbn [bind].
    destruct (finish_ok _ target w None (Some v) I2) as (s3 & E3 & I3 & [X3 [n3 A3]] & _); [eapply wf_ext; eauto|].
    rewrite E3. cbn [post]. split; auto. split; [eapply ext_trans; eauto|]. eexists. eapply adds_trans; eauto.
  - (* raise *)
    destruct (move_ok s c x Broken I X) as (E2 & I2 & X2 & A2). rewrite E2. cbn [bind].
    assert (FIN : forall exc, post (finish_step (set_coro s c (Coro (c_code x) (c_hist x) Broken)) target w exc None)
       (fun s' => inv s' /\ ext s s' /\ exists new, adds s s' new)).
    { intros exc. destruct (finish_ok _ target w exc None I2) as (s3 & E3 & I3 & [X3 [n3 A3]] & _); [eapply wf_ext; eauto|].
      rewrite E3. cbn [post]. split; auto. split; [eapply ext_trans; eauto|]. eexists. eapply adds_trans; eauto. }
    assert (OUT : post (Ok (set_mode (set_curr (set_coro s c (Coro (c_code x) (c_hist x) Broken)) None) Outside))
       (fun s' => inv s' /\ ext s s' /\ exists new, adds s s' new)).
    { cbn [post]. split; [|split].
      - apply (inv_loop _ _ I2); fields; auto; discriminate.
      - eapply ext_trans; [exact X2|same_ext].
      - exists []. eapply adds_trans with (n1 := []); [exact X2|same_ext|exact A2|]. apply adds_same; reflexivity. }
    destruct e; auto.
Qed.

Lemma body_step_ok s target w : inv s -> w_mode s = Inside target w ->
  post (body_step code s target w) (fun s' => inv s' /\ ext s s' /\ effect_of (action code s LBody) s s').
Proof.
  intros I M. pose proof (i_curr _ I w (i_mode _ I _ _ M)) as W. pose proof W as (c & x & Hc & X & Ht).
  unfold body_step, action. rewrite M, Hc. unfold get_coro. rewrite (read_ok _ _ _ X), X. cbn [bind].
  pose proof (i_codes _ I c x X) as WC. unfold wf_code in WC.
  destruct (c_code x) as [n|g i|g].
  - cbn [effect_of]. eapply user_step_ok; eauto.
  - destruct WC as (y & k & Y & K). destruct (gather_cb_ok s g i y k I Y K) as (s1 & E1 & I1 & [X1 [n1 A1]] & _). rewrite E1. cbn [bind effect_of].
    destruct (coro_ext _ _ _ _ X1 X) as [x1 Hx1]. destruct (move_ok s1 c x1 Returned I1 Hx1) as (E2 & I2 & X2 & A2). rewrite E2. cbn [bind].
    destruct (finish_ok _ target w None None I2) as (s3 & E3 & I3 & [X3 [n3 A3]] & _).
    { eapply wf_ext; [exact X2|]. eapply wf_ext; eauto. }
    rewrite E3. cbn [post]. split; auto. split; [eapply ext_trans; [exact X1|eapply ext_trans; eauto]|].
    eexists. eapply adds_trans; [exact X1|eapply ext_trans; eauto|exact A1|]. eapply adds_trans; eauto.
  - destruct WC as (y & Y). apply post_bind. eapply post_mono; [eapply gather_cancel_ok; eauto|].
    intros s1 (I1 & [X1 [n1 A1]] & _). cbn [effect_of].
    destruct (coro_ext _ _ _ _ X1 X) as [x1 Hx1]. destruct (move_ok s1 c x1 Returned I1 Hx1) as (E2 & I2 & X2 & A2). rewrite E2. cbn [bind].
    destruct (finish_ok _ target w None None I2) as (s3 & E3 & I3 & [X3 [n3 A3]] & _).
    { eapply wf_ext; [exact X2|]. eapply wf_ext; eauto. }
    rewrite E3. cbn [post]. split; auto. split; [eapply ext_trans; [exact X1|eapply ext_trans; eauto]|].
    eexists. eapply adds_trans; [exact X1|eapply ext_trans; eauto|exact A1|]. eapply adds_trans; eauto.
Qed.

(** ** Every step *)
Definition turning (s : world) (l : label) : Prop :=
  exists target now, w_mode s = Between target /\ l = LTurn now /\ target_done s target = false.
Definition stepped (s : world) (l : label) (s' : world) : Prop :=
  (exists target now due, w_mode s = Between target /\ l = LTurn now /\ target_done s target = false /\ turned s s' target now due)
  \/ (~ turning s l /\ effect_of (action code s l) s s').

Lemma not_turning s l m : w_mode s = m -> match m with Between _ => False | _ => True end -> ~ turning s l.
Proof. intros E1 E2 (t & n & E & _). rewrite E1 in E. rewrite E in E2. exact E2. Qed.
Lemma exec_ok s l : inv s -> post (exec code s l) (fun s' => inv s' /\ ext s s' /\ stepped s l s').
Proof.
  intros I.
  assert (Z : action code s l = None -> ~ turning s l -> post (Ok s) (fun s' => inv s' /\ ext s s' /\ stepped s l s')).
  { intros A N. cbn [post]. split; auto. split; [apply ext_refl|]. right. split; auto. rewrite A. cbn. apply (grows_refl s). }
  unfold exec. destruct (w_mode s) as [|target|target w] eqn:M; destruct l as [a|tg|now|];
    try (apply Z; [unfold action; now rewrite M|now apply (not_turning _ _ _ M)]).
  - apply post_bind. eapply post_mono; [apply (call_ok s a I)|]. intros [r s1] (I1 & X1 & C1 & E1). cbn [post snd] in *.
    split; auto. split; auto. right. split; [now apply (not_turning _ _ _ M)|]. unfold action. now rewrite M.
  - assert (NN : ~ turning s (LRun tg)) by (now apply (not_turning _ _ _ M)).
    destruct (w_running s); [apply Z; auto; unfold action; now rewrite M|]. cbn [post]. split; [|split].
    + apply (inv_loop s _ I); fields; auto; discriminate.
    + same_ext.
    + right. split; auto. unfold action. rewrite M. cbn. exists []. apply adds_same; reflexivity.
  - apply Z; [unfold action; now rewrite M|]. intros (t & n & _ & E & _). discriminate.
  - apply Z; [unfold action; now rewrite M|]. intros (t & n & _ & E & _). discriminate.
  - destruct (target_done s target) eqn:TD.
    + cbn [post]. split; [|split].
      * apply (inv_loop s _ I); fields; auto; discriminate.
      * same_ext.
      * right. split; [intros (t & n & E & _ & E'); rewrite M in E; injection E as <-; congruence|]. unfold action. rewrite M. cbn. exists []. apply adds_same; reflexivity.
    + eapply post_mono; [apply (begin_step_ok s target now I)|]. intros s' (I' & X' & due & T). split; auto. split; auto. left. exists target, now, due. auto.
  - apply Z; [unfold action; now rewrite M|]. intros (t & n & _ & E & _). discriminate.
  - eapply post_mono; [apply (body_step_ok s target w I M)|]. intros s' (I' & X' & E'). split; auto. split; auto. right. split; [now apply (not_turning _ _ _ M)|auto].
Qed.

Lemma run_inv ls : forall s s', inv s -> run code s ls = Ok s' -> inv s' /\ ext s s'.
Proof.
  induction ls as [|l ls IH]; intros s s' I H; cbn [run] in H; [injection H as <-; auto using ext_refl|].
  pose proof (exec_ok s l I) as P. destruct (exec code s l) as [s1| | |]; try discriminate. cbn [bind post] in *.
  destruct P as (I1 & X1 & _). destruct (IH s1 s' I1 H) as [I2 X2]. split; auto. eapply ext_trans; eauto.
Qed.
Lemma reach_inv s : reach code s -> inv s.
Proof. intros [ls H]. apply (run_inv ls _ _ inv_init H). Qed.
End Code.
