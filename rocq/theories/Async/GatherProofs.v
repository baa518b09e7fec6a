(** [gather]: its callbacks, results and outcome. *)
From Coq Require Import List ZArith Bool Lia Arith Permutation.
From Verif.Common Require Import Result.
From Verif.Async Require Import Model Spec QueueProofs TimerProofs InvProofs StepProofs HistProofs TaskProofs.
Import ListNotations.
Local Open Scope res_scope.

Definition of_gather (g : nat) (x : coro) : Prop := exists i, c_code x = CGather g i.
Definition returned (g i : nat) (x : coro) : bool :=
  match c_code x with CGather g' i' => (g' =? g) && (i' =? i) | _ => false end &&
  match c_at x with Returned => true | _ => false end.
Definition rets (s : world) (g i : nat) : bool := existsb (returned g i) (w_coros s).
Definition failed (f : future) : bool := match f_state f with Failed _ => true | _ => false end.
Definition value (f : future) : val := match f_state f with Finished v => v | _ => VUninit end.
Definition child_ok (s : world) (y : gather) (i : nat) : bool :=
  match nth_error (g_futs y) i with
  | Some j => match nth_error (w_futs s) j with Some f => negb (failed f) | None => false end
  | None => false
  end.
Definition okb (s : world) (g : nat) (y : gather) (i : nat) : bool := rets s g i && child_ok s y i.
Definition missing (s : world) (g : nat) (y : gather) : nat :=
  length (filter (fun i => negb (okb s g y i)) (seq 0 (length (g_futs y)))).

Record gok (s : world) (g : nat) (y : gather) : Prop := {
  o_uniq : forall i k k' x x', nth_error (w_coros s) k = Some x -> nth_error (w_coros s) k' = Some x' ->
    c_code x = CGather g i -> c_code x' = CGather g i -> k = k';
  o_all : forall i, i < length (g_futs y) -> exists k x, nth_error (w_coros s) k = Some x /\ c_code x = CGather g i;
  o_loc : forall i k x j, nth_error (w_coros s) k = Some x -> c_code x = CGather g i -> nth_error (g_futs y) i = Some j ->
    exists f, nth_error (w_futs s) j = Some f /\
      match c_at x with
      | Start => if is_done f then In (W (Some k) None) (ready s) else In (W (Some k) None) (f_cbs f)
      | Active | Returned => is_done f = true
      | _ => False
      end;
  o_res : forall i j f, nth_error (g_futs y) i = Some j -> nth_error (w_futs s) j = Some f ->
    nth_error (g_results y) i = Some (if rets s g i then value f else VUninit);
  o_rem : g_remaining y = Z.of_nat (missing s g y);
  o_out : exists f, nth_error (w_futs s) (g_outer y) = Some f /\ f_task f = None /\
    match f_state f with
    | Pending => (0 < g_remaining y)%Z /\ forall i, rets s g i = true -> child_ok s y i = true
    | Finished v => v = VTuple (g_results y) /\ g_remaining y = 0%Z
    | Failed e => exists j f', In j (g_futs y) /\ nth_error (w_futs s) j = Some f' /\ f_state f' = Failed e
    | Cancelled => False
    end }.

Lemma returned_spec g i x : returned g i x = true <-> c_code x = CGather g i /\ c_at x = Returned.
Proof.
  unfold returned. destruct (c_code x) as [n|g' i'|g']; cbn; try (split; [discriminate|intros [H _]; discriminate]).
  rewrite !andb_true_iff, !Nat.eqb_eq. destruct (c_at x); split; intros [H1 H2]; try discriminate; try (injection H1 as -> ->; auto); destruct H1 as [-> ->]; auto.
Qed.
Lemma rets_spec s g i : rets s g i = true <-> exists k x, nth_error (w_coros s) k = Some x /\ c_code x = CGather g i /\ c_at x = Returned.
Proof.
  unfold rets. rewrite existsb_exists. split.
  - intros (x & H & R). apply In_nth_error in H. destruct H as [k H]. apply returned_spec in R. exists k, x. tauto.
  - intros (k & x & H & R). exists x. split; [eapply nth_error_In; eauto|]. now apply returned_spec.
Qed.
Lemma rets_ext s s' g i : (forall k x, of_gather g x -> (nth_error (w_coros s') k = Some x <-> nth_error (w_coros s) k = Some x)) -> rets s' g i = rets s g i.
Proof.
  intros H. destruct (rets s g i) eqn:R.
  - apply rets_spec in R. apply rets_spec. destruct R as (k & x & X & C & P). exists k, x. split; auto. apply H; auto. now exists i.
  - destruct (rets s' g i) eqn:R'; auto. apply rets_spec in R'. destruct R' as (k & x & X & C & P). rewrite <- R. symmetry. apply rets_spec. exists k, x. split; auto. apply H; auto. now exists i.
Qed.
Lemma missing_ext s s' g y y' : g_futs y' = g_futs y -> (forall i, i < length (g_futs y) -> okb s' g y' i = okb s g y i) -> missing s' g y' = missing s g y.
Proof.
  intros E H. unfold missing. rewrite E. f_equal. apply filter_ext_in. intros i Hi. apply in_seq in Hi. rewrite H; auto. lia.
Qed.

(** ** What does not concern gather [g] *)
Record gquiet (g : nat) (y : gather) (s s' : world) : Prop := {
  q_ext : ext s s';
  q_coro : forall k x, of_gather g x -> (nth_error (w_coros s') k = Some x <-> nth_error (w_coros s) k = Some x);
  q_ready : forall k x, nth_error (w_coros s) k = Some x -> of_gather g x -> In (W (Some k) None) (ready s) -> In (W (Some k) None) (ready s');
  q_cbs : forall k x j f, nth_error (w_coros s) k = Some x -> of_gather g x -> nth_error (w_futs s) j = Some f -> is_done f = false -> In (W (Some k) None) (f_cbs f) ->
    exists f', nth_error (w_futs s') j = Some f' /\ if is_done f' then In (W (Some k) None) (ready s') else In (W (Some k) None) (f_cbs f');
  q_outer : forall f, nth_error (w_futs s) (g_outer y) = Some f -> exists f', nth_error (w_futs s') (g_outer y) = Some f' /\ f_state f' = f_state f }.

Lemma gquiet_trans g y a b c : gquiet g y a b -> gquiet g y b c -> gquiet g y a c.
Proof.
  intros [X1 C1 R1 B1 O1] [X2 C2 R2 B2 O2]. split.
  - eapply ext_trans; eauto.
  - intros k x G. rewrite C2, C1; tauto.
  - intros k x X G H. eapply R2; eauto. apply C1; auto.
  - intros k x j f X G F D H. destruct (B1 k x j f X G F D H) as (f1 & F1 & H1). assert (X' : nth_error (w_coros b) k = Some x) by (apply C1; auto).
    destruct (is_done f1) eqn:D1; [|eapply B2; eauto]. destruct (e_futs _ _ X2 j f1 F1) as (f2 & F2 & _ & S2). exists f2. split; auto.
    rewrite (is_done_state _ _ (S2 D1)), D1. eapply R2; eauto.
  - intros f F. destruct (O1 f F) as (f1 & F1 & S1). destruct (O2 f1 F1) as (f2 & F2 & S2). exists f2. split; congruence.
Qed.
Lemma gquiet_adds g y s s' new : ext s s' -> adds s s' new ->
  (forall k x, of_gather g x -> (nth_error (w_coros s') k = Some x <-> nth_error (w_coros s) k = Some x)) ->
  (forall f f', nth_error (w_futs s) (g_outer y) = Some f -> nth_error (w_futs s') (g_outer y) = Some f' -> f_state f' = f_state f) -> gquiet g y s s'.
Proof.
  intros X A C O. split; auto.
  - intros k x _ _ H. rewrite (a_ready _ _ _ A). apply in_or_app. auto.
  - intros k x j f _ _ F D H. destruct (a_cbs _ _ _ A j f F D) as (f' & more & F' & H'). exists f'. split; auto. destruct (is_done f').
    + destruct H' as (l1 & l2 & E). rewrite (a_ready _ _ _ A). apply in_or_app. right.
      assert (K : In (W (Some k) None) (filter plain new)). { rewrite E. rewrite !in_app_iff. right. left. apply filter_In. split; auto. apply in_or_app. auto. }
      apply filter_In in K. tauto.
    + rewrite H'. apply in_or_app. auto.
  - intros f F. destruct (e_futs _ _ X _ f F) as (f' & F' & _). exists f'. split; eauto.
Qed.

Lemma okb_ext s s' g y y' i : (forall k x, nth_error (w_coros s) k = Some x -> c_code x = CGather g i -> c_at x = Returned -> forall j, nth_error (g_futs y) i = Some j -> exists f, nth_error (w_futs s) j = Some f /\ is_done f = true) ->
  ext s s' -> g_futs y' = g_futs y -> rets s' g i = rets s g i -> okb s' g y' i = okb s g y i.
Proof.
  intros D X E R. unfold okb. rewrite R. destruct (rets s g i) eqn:Er; auto. cbn [andb]. unfold child_ok. rewrite E. apply rets_spec in Er. destruct Er as (k & x & Hx & C & P).
  destruct (nth_error (g_futs y) i) as [j|] eqn:J; auto. destruct (D k x Hx C P j eq_refl) as (f & F & Df). destruct (e_futs _ _ X j f F) as (f' & F' & _ & S). rewrite F, F'.
  unfold failed. now rewrite (S Df).
Qed.
Lemma loc_done s g y i : gok s g y -> forall k x, nth_error (w_coros s) k = Some x -> c_code x = CGather g i -> c_at x = Returned -> forall j, nth_error (g_futs y) i = Some j -> exists f, nth_error (w_futs s) j = Some f /\ is_done f = true.
Proof. intros O k x X C P j J. destruct (o_loc _ _ _ O i k x j X C J) as (f & F & H). rewrite P in H. eauto. Qed.

Lemma gok_quiet g y s s' : gok s g y -> gquiet g y s s' -> gok s' g y.
Proof.
  intros O Q. pose proof Q as [X C R B OO].
  assert (RE : forall i, rets s' g i = rets s g i) by (intros i; now apply rets_ext).
  assert (OE : forall i, okb s' g y i = okb s g y i) by (intros i; apply okb_ext; auto; now apply loc_done).
  assert (ME : missing s' g y = missing s g y) by (apply missing_ext; auto).
  split.
  - intros i k k' x x' X1 X2 C1 C2. apply (o_uniq _ _ _ O i k k' x x'); auto; apply C; auto; now exists i.
  - intros i Hi. destruct (o_all _ _ _ O i Hi) as (k & x & H & Cx). exists k, x. split; auto. apply C; auto. now exists i.
  - intros i k x j Hx Cx J. assert (G : of_gather g x) by now exists i. apply C in Hx; auto. destruct (o_loc _ _ _ O i k x j Hx Cx J) as (f & F & H).
    destruct (e_futs _ _ X j f F) as (f' & F' & _ & S). destruct (c_at x); try contradiction.
    + destruct (is_done f) eqn:D.
      * exists f'. split; auto. rewrite (is_done_state _ _ (S eq_refl)), D. eapply R; eauto.
      * eapply B; eauto.
    + exists f'. split; auto. rewrite (is_done_state _ _ (S H)). auto.
    + exists f'. split; auto. rewrite (is_done_state _ _ (S H)). auto.
  - intros i j f' J F'. rewrite RE. destruct (o_out _ _ _ O) as (fo & _).
    destruct (nth_error (w_futs s) j) as [f|] eqn:F.
    + rewrite (o_res _ _ _ O i j f J F). f_equal. destruct (rets s g i) eqn:Er; auto. apply rets_spec in Er. destruct Er as (k & x & Hx & Cx & P).
      destruct (loc_done _ _ _ _ O k x Hx Cx P j J) as (f0 & F0 & D0). rewrite F in F0. injection F0 as <-. destruct (e_futs _ _ X j f F) as (f1 & F1 & _ & S1).
      rewrite F' in F1. injection F1 as <-. unfold value. now rewrite (S1 D0).
    + exfalso. assert (Hi : i < length (g_futs y)) by (apply nth_error_Some; congruence). destruct (o_all _ _ _ O i Hi) as (k & x & Hx & Cx).
      destruct (o_loc _ _ _ O i k x j Hx Cx J) as (f & F0 & _). congruence.
  - rewrite ME. apply (o_rem _ _ _ O).
  - destruct (o_out _ _ _ O) as (f & F & T & H). destruct (OO f F) as (f' & F' & S'). destruct (e_futs _ _ X _ f F) as (f1 & F1 & T1 & _). rewrite F' in F1. injection F1 as <-.
    exists f'. split; auto. split; [congruence|]. rewrite S'. destruct (f_state f); auto.
    + destruct H as [H1 H2]. split; auto. intros i Hi. specialize (OE i). rewrite RE in Hi. specialize (H2 i Hi). unfold okb in OE. rewrite RE, Hi, H2 in OE. exact OE.
    + destruct H as (j & f1 & J & F1 & E1). destruct (e_futs _ _ X j f1 F1) as (f2 & F2 & _ & S2). exists j, f2. split; auto. split; auto. rewrite S2; auto. unfold is_done. now rewrite E1.
Qed.

(** ** Which futures get an outcome; gathers and their coroutines stay *)
Definition user (x : coro) : Prop := exists n, c_code x = CUser n.
Section Sweep.
Context (P : nat -> Prop).
Record sw (s s' : world) : Prop := {
  s_gathers : w_gathers s' = w_gathers s;
  s_coros : forall k x, ~ user x -> (nth_error (w_coros s') k = Some x <-> nth_error (w_coros s) k = Some x);
  s_futs : forall j f, nth_error (w_futs s) j = Some f -> exists f', nth_error (w_futs s') j = Some f' /\ (f_state f' = f_state f \/ P j) }.
Lemma sw_trans a b c : sw a b -> sw b c -> sw a c.
Proof.
  intros [G1 C1 F1] [G2 C2 F2]. split; [congruence|intros k x U; rewrite C2, C1; tauto|].
  intros j f F. destruct (F1 j f F) as (f1 & H1 & S1). destruct (F2 j f1 H1) as (f2 & H2 & S2). exists f2. split; auto. destruct S1, S2; auto. left. congruence.
Qed.
Lemma sw_same s s' : w_gathers s' = w_gathers s -> w_coros s' = w_coros s -> w_futs s' = w_futs s -> sw s s'.
Proof. intros G C F. split; auto; [now rewrite C|]. rewrite F. eauto. Qed.
Lemma sw_fut s i f f' : nth_error (w_futs s) i = Some f -> f_state f' = f_state f \/ P i -> sw s (set_fut s i f').
Proof.
  intros N S. split; auto; [tauto|]. intros j g G. cbn [set_fut set_futs w_futs]. destruct (Nat.eq_dec i j) as [<-|D].
  - exists f'. rewrite (nth_upd_eq _ _ _ _ N). split; auto. rewrite N in G. injection G as <-. exact S.
  - exists g. rewrite nth_upd_ne by auto. auto.
Qed.
Lemma sw_newcoro s x : user x -> sw s (set_coros s (w_coros s ++ [x])).
Proof.
  intros U. split; auto; [|intros; eauto]. intros k y NU. cbn [set_coros w_coros]. destruct (Nat.lt_ge_cases k (length (w_coros s))) as [B|B].
  - now rewrite nth_error_app1.
  - rewrite nth_error_app2 by auto. split; intros H.
    + exfalso. destruct (k - length (w_coros s)) as [|m]; [injection H as <-; auto|destruct m; discriminate].
    + exfalso. assert (k < length (w_coros s)) by (apply nth_error_Some; congruence). lia.
Qed.
Lemma sw_setcoro s c x y : nth_error (w_coros s) c = Some x -> user x -> user y -> sw s (set_coro s c y).
Proof.
  intros X U V. split; auto; [|intros; eauto]. intros k z NU. cbn [set_coro set_coros w_coros]. destruct (Nat.eq_dec c k) as [<-|D].
  - rewrite (nth_upd_eq _ _ _ _ X), X. split; intros [= ->]; tauto.
  - now rewrite nth_upd_ne.
Qed.
Lemma sw_newfut s f : sw s (set_futs s (w_futs s ++ [f])).
Proof. split; auto; [tauto|]. intros j g G. exists g. cbn [set_futs w_futs]. split; auto. rewrite nth_error_app1; auto. apply nth_error_Some. congruence. Qed.
Lemma read_inv {A} (l : list A) i x : read l i = Ok x -> nth_error l i = Some x.
Proof. unfold read. destruct (nth_error l i); congruence. Qed.

Lemma soon_sw s w n s' : call_soon_work s w = Ok (n, s') -> sw s s'.
Proof. unfold call_soon_work. intros H. bind_inv H. destruct a. injection H as <- <-. now apply sw_same. Qed.
Lemma push_sw s i w s' : push_callback s i w = Ok s' -> sw s s'.
Proof. unfold push_callback. intros H. bind_inv H. apply read_inv in E. destruct (_ <? _) in H; [|discriminate]. injection H as <-. eapply sw_fut; eauto. Qed.
Lemma sched_sw i cbs : forall s s', schedule_callbacks s i cbs = Ok s' -> sw s s'.
Proof.
  induction cbs as [|w cbs IH]; intros s s'; cbn [schedule_callbacks]; [intros [= <-]; now apply sw_same|].
  destruct (w_task w) as [t|]; intros H.
  - bind_inv H. apply read_inv in E. destruct (match f_wait_lock a with Some l => l =? i | None => false end); [|eauto].
    bind_inv H. destruct a0. apply soon_sw in E0. eapply sw_trans; [|eauto]. eapply sw_trans; [|exact E0]. eapply sw_fut; eauto.
  - bind_inv H. destruct a. apply soon_sw in E. eapply sw_trans; eauto.
Qed.
Lemma resolve_sw s i st s' : P i -> resolve s i st = Ok s' -> sw s s'.
Proof. unfold resolve. intros Pi H. bind_inv H. apply read_inv in E. apply sched_sw in H. eapply sw_trans; [|exact H]. eapply sw_fut; eauto. Qed.
Lemma add_cb_sw s i n s' : add_done_callback s i (CUser n) = Ok s' -> sw s s'.
Proof.
  unfold add_done_callback. intros H. bind_inv H. cbn [new_coro] in H. destruct (is_done a).
  - bind_inv H. destruct a0. injection H as <-. apply soon_sw in E0. eapply sw_trans; [|exact E0]. apply sw_newcoro. now exists n.
  - apply push_sw in H. eapply sw_trans; [|exact H]. apply sw_newcoro. now exists n.
Qed.
Lemma finish_sw s target w e v s' : (forall t, w_task w = Some t -> P t) -> finish_step s target w e v = Ok s' -> sw s s'.
Proof.
  intros Pw. unfold finish_step. intros H. bind_inv H. injection H as <-. apply (sw_trans _ a); [|now apply sw_same].
  destruct (w_task w); [|injection E as ->; now apply sw_same]. bind_inv E. destruct (is_done a0); [injection E as ->; now apply sw_same|].
  destruct e; [eapply resolve_sw; eauto|]. destruct v; [eapply resolve_sw; eauto|injection E as ->; now apply sw_same].
Qed.
Lemma wait_sw s i b s' : wait_on s i = Ok (b, s') -> sw s s'.
Proof.
  unfold wait_on. intros H. destruct (w_curr s); [|injection H as <- <-; now apply sw_same]. bind_inv H.
  destruct (is_done a); [injection H as <- <-; now apply sw_same|]. bind_inv H. apply push_sw in E0. eapply sw_trans; [exact E0|].
  destruct (w_task w); [|injection H as <- <-; now apply sw_same]. bind_inv H. apply read_inv in E1. injection H as <- <-. eapply sw_fut; eauto.
Qed.
Lemma move_sw s c x p s' : nth_error (w_coros s) c = Some x -> user x -> move s c p = Ok s' -> sw s s' /\ exists x', nth_error (w_coros s') c = Some x' /\ user x'.
Proof.
  unfold move, get_coro. intros X U H. rewrite (read_ok _ _ _ X) in H. cbn in H. injection H as <-. split; [eapply sw_setcoro; eauto|].
  eexists. split; [eapply nth_upd_eq; eauto|]. exact U.
Qed.
Lemma answer_sw s c x r s' : nth_error (w_coros s) c = Some x -> user x -> answer s c r = Ok s' -> sw s s'.
Proof. unfold answer, get_coro. intros X U H. rewrite (read_ok _ _ _ X) in H. cbn in H. injection H as <-. eapply sw_setcoro; eauto. Qed.
Lemma sw_user s s' c x : ext s s' -> nth_error (w_coros s) c = Some x -> user x -> exists x', nth_error (w_coros s') c = Some x' /\ user x'.
Proof. intros X H [n U]. destruct (e_coros _ _ X c x H) as (x' & H' & C & _). exists x'. split; auto. exists n. congruence. Qed.

(** calls of clean programs, but [gather] *)
Definition sw_act (a : act) : Prop :=
  match a with ASetResult i _ | ASetException i _ | ACancel i => P i | AGather _ => False | _ => True end.
Lemma call_sw s a r s' : sw_act a -> tame s a -> call s a = Ok (r, s') -> sw s s'.
Proof.
  destruct a; cbn [call new_future sw_act]; intros SA TA H; try contradiction; try solve [injection H as <- <-; now apply sw_same].
  - unfold call_soon, new_coro in H. bind_inv H. destruct a. injection H as <- <-. bind_inv E. destruct a. injection E as <- <-.
    apply soon_sw in E0. eapply sw_trans; [apply (sw_newcoro s (Coro (CUser c) [] Start)); now exists c|]. eapply sw_trans; [exact E0|now apply sw_same].
  - unfold call_later, new_coro in H. bind_inv H. destruct a. injection H as <- <-. bind_inv E. injection E as <- <-.
    eapply sw_trans; [apply (sw_newcoro s (Coro (CUser c) [] Start)); now exists c|]. now apply sw_same.
  - destruct (nth_error (w_handles s) n); [|injection H as <- <-; now apply sw_same]. bind_inv H.
    destruct (w_coro (n_work a)); [|injection H as <- <-; now apply sw_same]. bind_inv H. destruct a0. injection H as <- <-. now apply sw_same.
  - destruct (nth_error (ts_objs (w_timers s)) t); [|injection H as <- <-; now apply sw_same]. destruct (w_coro _); [|injection H as <- <-; now apply sw_same].
    bind_inv H. injection H as <- <-. now apply sw_same.
  - injection H as <- <-. apply sw_newfut.
  - bind_inv H. destruct a. injection H as <- <-. unfold create_task, new_coro, new_future in E. bind_inv E. destruct a. injection E as <- <-.
    apply soon_sw in E0. eapply sw_trans; [apply (sw_newcoro s (Coro (CUser c) [] Start)); now exists c|]. eapply sw_trans; [apply sw_newfut|exact E0].
  - destruct (nth_error (w_futs s) f); [|injection H as <- <-; now apply sw_same]. destruct (is_done f0); [injection H as <- <-; now apply sw_same|].
    bind_inv H. injection H as <- <-. eapply resolve_sw; eauto.
  - destruct (nth_error (w_futs s) f); [|injection H as <- <-; now apply sw_same]. destruct (is_done f0); [injection H as <- <-; now apply sw_same|].
    bind_inv H. injection H as <- <-. eapply resolve_sw; eauto.
  - destruct (nth_error (w_futs s) f) as [f0|] eqn:F; [|injection H as <- <-; now apply sw_same]. destruct TA as [TA _]. specialize (TA f0 F).
    bind_inv H. destruct a. injection H as <- <-. unfold fuel_of in E. cbn [cancel_future existsb] in E. unfold get_fut in E. rewrite (read_ok _ _ _ F) in E. cbn [bind] in E.
    destruct (is_done f0); [injection E as <- <-; now apply sw_same|]. bind_inv E. rewrite TA in E. injection E as <- <-. eapply resolve_sw; eauto.
  - destruct (nth_error (w_futs s) f); [|injection H as <- <-; now apply sw_same]. bind_inv H. injection H as <- <-. eapply add_cb_sw; eauto.
  - destruct (nth_error (w_futs s) f); injection H as <- <-; now apply sw_same.
  - destruct (nth_error (w_futs s) f); injection H as <- <-; now apply sw_same.
Qed.
Lemma user_sw s target w c x a s' : inv s -> nth_error (w_coros s) c = Some x -> user x -> (forall t, w_task w = Some t -> P t) -> sw_act a -> tame s a ->
  user_step s target w c a = Ok s' -> sw s s'.
Proof.
  intros I X U Pw SA TA H.
  assert (C : (' (r, s) <- call s a ;; answer s c r) = Ok s' -> sw s s').
  { intros K. bind_inv K. destruct a0 as [r s1]. pose proof (call_ok s a I) as Q. rewrite E in Q. destruct Q as (_ & Q & _). cbn [snd] in Q.
    apply call_sw in E; auto. destruct (sw_user _ _ _ _ Q X U) as (x1 & X1 & U1). eapply sw_trans; [exact E|]. eapply answer_sw; eauto. }
  destruct a; try exact (C H); clear C; cbn [user_step] in H.
  - destruct (w_task w) as [t|] eqn:Et; [|eapply answer_sw; eauto]. destruct (nth_error _ f) as [y|] eqn:Y; [|eapply answer_sw; eauto]. bind_inv H.
    destruct a; [eapply answer_sw; eauto|]. bind_inv H. destruct a as [b s1]. pose proof (wait_on_ok s f y I Y) as Q.
    assert (X1 : nth_error (w_coros s1) c = Some x).
    { unfold wait_on in E0. destruct (w_curr s); [|now injection E0 as <- <-]. bind_inv E0. destruct (is_done a); [now injection E0 as <- <-|]. bind_inv E0. unfold push_callback in E2. bind_inv E2.
      destruct (_ <? _) in E2; [|discriminate]. injection E2 as <-. destruct (w_task w0); [|now injection E0 as <- <-]. bind_inv E0. now injection E0 as <- <-. }
    apply wait_sw in E0. eapply sw_trans; [exact E0|].
    destruct b; bind_inv H; [|eapply answer_sw; eauto]. destruct (move_sw _ _ _ _ _ X1 U E1) as (M & _). apply finish_sw in H; [eapply sw_trans; eauto|]. rewrite Et. exact Pw.
  - bind_inv H. destruct (move_sw _ _ _ _ _ X U E) as (M & _). apply finish_sw in H; auto. eapply sw_trans; eauto.
  - bind_inv H. destruct (move_sw _ _ _ _ _ X U E) as (M & _). eapply sw_trans; [exact M|]. destruct e; try (eapply finish_sw; [|exact H]; auto); injection H as <-; now apply sw_same.
Qed.
End Sweep.

(** ** User code and calls from outside: no gather but a new one is touched *)
Definition outer_of (s : world) (j : nat) : Prop := exists g y, nth_error (w_gathers s) g = Some y /\ g_outer y = j.
Definition ginv (s : world) : Prop :=
  (forall g y, nth_error (w_gathers s) g = Some y -> gok s g y) /\
  (forall g g' y y', nth_error (w_gathers s) g = Some y -> nth_error (w_gathers s) g' = Some y' -> g_outer y = g_outer y' -> g = g').
Lemma gather_not_user g x : of_gather g x -> ~ user x.
Proof. intros [i H] [n U]. congruence. Qed.

Definition keeps (s s' : world) : Prop :=
  forall k x, nth_error (w_coros s) k = Some x -> ~ user x -> In (W (Some k) None) (ready s) -> In (W (Some k) None) (ready s').
Lemma handle_keeps s n r s' : inv s -> call s (ACancelHandle n) = Ok (r, s') -> keeps s s'.
Proof.
  intros I H k x X NU K. cbn [call] in H. destruct (nth_error (w_handles s) n) as [m|] eqn:Hm; [|now injection H as <- <-].
  destruct (i_handles _ I n m Hm) as [B [U1 U2]]. bind_inv H. destruct (w_coro (n_work a)) as [c|] eqn:Hc; [|now injection H as <- <-].
  assert (Wm : work_of (w_queue s) m = n_work a) by (unfold work_of; unfold get_node in E; destruct (nth_error _ m); congruence).
  destruct (canc_ok (w_queue s) m (i_queue _ I) B) as (q' & e & E' & _ & _ & R); [rewrite Wm, Hc; discriminate|].
  rewrite E' in H. cbn [bind] in H. injection H as <- <-. unfold ready in *. cbn [set_queue w_queue].
  destruct R as [(a1 & a2 & R1 & R2 & _)|(R & _)]; [|now rewrite R]. rewrite R2. rewrite R1 in K. apply in_app_or in K. apply in_or_app.
  destruct K as [K|[K|K]]; auto. exfalso. apply NU. destruct (U2 k) as (x' & l & X' & L); [now rewrite K|]. rewrite X in X'. injection X' as <-. now exists l.
Qed.

Lemma sw_quiet s s' : ext s s' -> ((exists new, adds s s' new) \/ (keeps s s' /\ w_futs s' = w_futs s)) -> sw (fun j => ~ outer_of s j) s s' ->
  forall g y, nth_error (w_gathers s) g = Some y -> gquiet g y s s'.
Proof.
  intros X A S g y Y.
  assert (C : forall k x, of_gather g x -> (nth_error (w_coros s') k = Some x <-> nth_error (w_coros s) k = Some x)) by (intros k x G; apply (s_coros _ _ _ S); now apply gather_not_user in G).
  assert (O : forall f f', nth_error (w_futs s) (g_outer y) = Some f -> nth_error (w_futs s') (g_outer y) = Some f' -> f_state f' = f_state f).
  { intros f f' F F'. destruct (s_futs _ _ _ S _ f F) as (f1 & F1 & D). rewrite F' in F1. injection F1 as <-. destruct D as [D|D]; auto. exfalso. apply D. exists g, y. auto. }
  destruct A as [[new A]|[K F]]; [eapply gquiet_adds; eauto|]. split; auto.
  - intros k x Hx G. apply (K k x); auto. eapply gather_not_user; eauto.
  - intros k x j f _ _ Hf D H. exists f. rewrite F, D. auto.
  - intros f Hf. exists f. rewrite F. auto.
Qed.
Lemma ginv_quiet s s' : ginv s -> w_gathers s' = w_gathers s -> (forall g y, nth_error (w_gathers s) g = Some y -> gquiet g y s s') -> ginv s'.
Proof.
  intros [G D] E Q. split; rewrite E; auto. intros g y Y. eapply gok_quiet; eauto.
Qed.

Definition simple (a : act) : Prop := match a with AGather (_ :: _) => False | _ => True end.
Definition no_gather (a : act) : Prop := match a with AGather _ => False | _ => True end.
Lemma clean_sw s a : clean s a -> no_gather a -> sw_act (fun j => ~ outer_of s j) a.
Proof.
  intros [T C] N. destruct a; cbn in *; auto; intros (g & y & Y & E).
  - exact (C g y Y E).
  - exact (C g y Y E).
  - destruct T as [_ T]. exact (T g y Y E).
Qed.
Lemma nil_sw s r s' : inv s -> call s (AGather []) = Ok (r, s') -> sw (fun j => ~ outer_of s j) s s'.
Proof.
  intros I H. cbn [call forallb start_gather new_future] in H. bind_inv H. destruct a. bind_inv E. injection E as <- <-. injection H as <- <-.
  eapply sw_trans; [apply sw_newfut|]. eapply resolve_sw; [|exact E0]. intros (g & y & Y & E). pose proof (wg_outer _ _ (i_gathers _ I g y Y)). lia.
Qed.
Lemma call_quiet s a r s' : inv s -> clean s a -> simple a -> call s a = Ok (r, s') ->
  w_gathers s' = w_gathers s /\ forall g y, nth_error (w_gathers s) g = Some y -> gquiet g y s s'.
Proof.
  intros I C S H.
  assert (Sw : sw (fun j => ~ outer_of s j) s s').
  { destruct a; try (eapply call_sw; [apply clean_sw; [exact C|exact Logic.I]|apply C|exact H]). destruct fs; [|contradiction]. eapply nil_sw; eauto. }
  split; [apply (s_gathers _ _ _ Sw)|]. pose proof (call_ok s a I) as P. rewrite H in P. destruct P as (_ & X & _ & E). cbn [snd] in *.
  apply sw_quiet; auto. destruct a; cbn [effect] in E; auto. right. split; [eapply handle_keeps; eauto|apply E].
Qed.
Lemma answer_quiet s c x r s' : inv s -> nth_error (w_coros s) c = Some x -> user x -> answer s c r = Ok s' ->
  w_gathers s' = w_gathers s /\ forall g y, nth_error (w_gathers s) g = Some y -> gquiet g y s s'.
Proof.
  intros I X U H. pose proof (answer_sw (fun j => ~ outer_of s j) _ _ _ _ _ X U H) as S. split; [apply (s_gathers _ _ _ S)|].
  destruct (answer_ok s c x r I X) as (E & _ & E1 & A1). rewrite H in E. injection E as ->. apply sw_quiet; eauto.
Qed.
Lemma user_quiet s target w c x a s' : inv s -> ginv s -> w_mode s = Inside target w -> w_coro w = Some c -> nth_error (w_coros s) c = Some x -> user x -> clean s a -> no_gather a ->
  user_step s target w c a = Ok s' -> w_gathers s' = w_gathers s /\ forall g y, nth_error (w_gathers s) g = Some y -> gquiet g y s s'.
Proof.
  intros I GI M Hc X U C N H. pose proof (i_curr _ I w (i_mode _ I _ _ M)) as Wf.
  assert (Sw : sw (fun j => ~ outer_of s j) s s').
  { eapply user_sw; [exact I|exact X|exact U| |exact (clean_sw s a C N)|apply C|exact H]. intros t Et (g & y & Y & E). destruct Wf as (c' & x' & _ & _ & Ht). destruct (Ht t Et) as (f & F & T).
    destruct (o_out _ _ _ (proj1 GI g y Y)) as (f' & F' & T' & _). congruence. }
  split; [apply (s_gathers _ _ _ Sw)|]. pose proof (user_step_ok s target w c x a I Wf M Hc X) as P. rewrite H in P. destruct P as (_ & E & Ef). cbn [snd] in *.
  apply sw_quiet; auto. destruct a; cbn [effect] in Ef; auto. right. split; [|apply Ef].
  cbn [user_step] in H. bind_inv H. destruct a as [r s1]. unfold answer in H. bind_inv H. injection H as <-. exact (handle_keeps s n r s1 I E0).
Qed.

(** ** A new gather *)
Definition loc (s : world) (k j : nat) : Prop :=
  exists f, nth_error (w_futs s) j = Some f /\ if is_done f then In (W (Some k) None) (ready s) else In (W (Some k) None) (f_cbs f).
Lemma loc_adds s s' new k j : ext s s' -> adds s s' new -> loc s k j -> loc s' k j.
Proof.
  intros X A (f & F & H). destruct (e_futs _ _ X j f F) as (f' & F' & _ & S). exists f'. split; auto. destruct (is_done f) eqn:D.
  - rewrite (is_done_state _ _ (S eq_refl)), D, (a_ready _ _ _ A). apply in_or_app. auto.
  - destruct (a_cbs _ _ _ A j f F D) as (f1 & more & F1 & H1). rewrite F' in F1. injection F1 as <-. destruct (is_done f').
    + destruct H1 as (l1 & l2 & E). rewrite (a_ready _ _ _ A). apply in_or_app. right.
      assert (K : In (W (Some k) None) (filter plain new)). { rewrite E. rewrite !in_app_iff. right. left. apply filter_In. split; auto. apply in_or_app. auto. }
      apply filter_In in K. tauto.
    + rewrite H1. apply in_or_app. auto.
Qed.
Lemma add_cb_loc s i f c s' : inv s -> nth_error (w_futs s) i = Some f -> wf_code s (Coro c [] Start) -> add_done_callback s i c = Ok s' -> loc s' (length (w_coros s)) i.
Proof.
  intros I F WC H. unfold add_done_callback, get_fut in H. rewrite (read_ok _ _ _ F) in H. cbn [bind new_coro] in H.
  destruct (new_coro_ok s c I WC) as (I1 & E1 & A1 & W1 & N1). cbn [new_coro snd] in *. destruct (is_done f) eqn:D.
  - destruct (soon_ok _ _ I1 W1) as (n & s1 & E & _ & X & A & [q Eq] & _ & _ & _ & R). rewrite E in H. cbn [bind] in H. injection H as <-.
    exists f. rewrite D. split; [subst s1; exact F|]. rewrite R. apply in_or_app. right. now left.
  - destruct (push_cb_ok _ i f _ I1 F D W1) as (cap & E & _). rewrite E in H. injection H as <-. eexists. split; [cbn [set_fut set_futs w_futs]; eapply nth_upd_eq; exact F|].
    unfold is_done in *. cbn [f_state f_cbs]. rewrite D. apply in_or_app. right. now left.
Qed.
Lemma add_cb_states s i c s' : add_done_callback s i c = Ok s' -> forall j f, nth_error (w_futs s) j = Some f -> exists f', nth_error (w_futs s') j = Some f' /\ f_state f' = f_state f.
Proof.
  unfold add_done_callback. intros H. bind_inv H. cbn [new_coro] in H. destruct (is_done a).
  - bind_inv H. destruct a0. injection H as <-. unfold call_soon_work in E0. bind_inv E0. destruct a0. injection E0 as <- <-. cbn. eauto.
  - unfold push_callback in H. bind_inv H. destruct (_ <? _) in H; [|discriminate]. injection H as <-. cbn [set_coros w_futs set_fut set_futs]. apply read_inv in E0. cbn [set_coros w_futs] in E0.
    intros j f F. destruct (Nat.eq_dec i j) as [<-|D].
    + rewrite (nth_upd_eq _ _ _ _ E0). eexists. split; [reflexivity|]. rewrite F in E0. now injection E0 as <-.
    + rewrite nth_upd_ne by auto. eauto.
Qed.
(** the callbacks of the first [n] futures are there *)
Record part (s : world) (g n : nat) (fs : list nat) : Prop := {
  p_uniq : forall i k k' x x', nth_error (w_coros s) k = Some x -> nth_error (w_coros s) k' = Some x' -> c_code x = CGather g i -> c_code x' = CGather g i -> k = k';
  p_all : forall i, i < n -> exists k x, nth_error (w_coros s) k = Some x /\ c_code x = CGather g i;
  p_loc : forall i k x, nth_error (w_coros s) k = Some x -> c_code x = CGather g i -> i < n /\ c_at x = Start /\ exists j, nth_error fs i = Some j /\ loc s k j }.
Lemma nth_app_last {A} (l : list A) x k y : nth_error (l ++ [x]) k = Some y -> (nth_error l k = Some y /\ k < length l) \/ (k = length l /\ y = x).
Proof.
  intros H. destruct (Nat.lt_ge_cases k (length l)) as [B|B].
  - rewrite nth_error_app1 in H by auto. auto.
  - rewrite nth_error_app2 in H by auto. right. destruct (k - length l) as [|m] eqn:E; [injection H as <-; split; auto; lia|destruct m; discriminate].
Qed.
Lemma part_step s g n fs j f s' : inv s -> part s g n fs -> nth_error fs n = Some j -> nth_error (w_futs s) j = Some f -> wf_code s (Coro (CGather g n) [] Start) ->
  add_done_callback s j (CGather g n) = Ok s' -> part s' g (S n) fs.
Proof.
  intros I [U A L] J F WC H. destruct (add_cb_ok s j f (CGather g n) I F WC) as (s1 & E & _ & X & [new Ad] & C & _). rewrite H in E. injection E as <-.
  pose proof (add_cb_loc _ _ _ _ _ I F WC H) as LN. split; rewrite C.
  - intros i k k' x x' X1 X2 C1 C2. apply nth_app_last in X1. apply nth_app_last in X2.
    destruct X1 as [[X1 B1]|[-> ->]], X2 as [[X2 B2]|[-> ->]]; auto.
    + eapply U; eauto.
    + cbn in C2. injection C2 as <-. destruct (L _ _ _ X1 C1). lia.
    + cbn in C1. injection C1 as <-. destruct (L _ _ _ X2 C2). lia.
  - intros i Hi. destruct (Nat.eq_dec i n) as [->|D].
    + exists (length (w_coros s)), (Coro (CGather g n) [] Start). rewrite nth_error_app2, Nat.sub_diag by auto. auto.
    + destruct (A i) as (k & x & Hx & Cx); [lia|]. exists k, x. split; auto. rewrite nth_error_app1; auto. apply nth_error_Some. congruence.
  - intros i k x Hx Cx. apply nth_app_last in Hx. destruct Hx as [[Hx B]|[-> ->]].
    + destruct (L _ _ _ Hx Cx) as (Hi & P & j' & J' & Lc). split; [lia|]. split; auto. exists j'. split; auto. eapply loc_adds; eauto.
    + cbn in Cx. injection Cx as <-. split; [lia|]. split; auto. eauto.
Qed.
Lemma part_cbs g fs : forall more n pre s y s', fs = pre ++ more -> length pre = n -> inv s -> nth_error (w_gathers s) g = Some y -> g_futs y = fs -> (forall i, In i fs -> i < length (w_futs s)) ->
  part s g n fs -> add_gather_callbacks s g n more = Ok s' ->
  part s' g (length fs) fs /\ inv s' /\ ext s s' /\ w_gathers s' = w_gathers s /\ (exists new, adds s s' new)
  /\ (forall k x, ~ of_gather g x -> (nth_error (w_coros s') k = Some x <-> nth_error (w_coros s) k = Some x))
  /\ (forall j f, nth_error (w_futs s) j = Some f -> exists f', nth_error (w_futs s') j = Some f' /\ f_state f' = f_state f).
Proof.
  induction more as [|j more IH]; intros n pre s y s' E L I Y FY B P H; cbn [add_gather_callbacks] in H.
  - injection H as <-. rewrite app_nil_r in E. subst fs. rewrite L. split; auto. split; auto. split; [apply ext_refl|]. split; auto. split; [apply (grows_refl s)|]. split; [tauto|eauto].
  - bind_inv H. assert (Bj : j < length (w_futs s)) by (apply B; rewrite E; apply in_or_app; right; now left).
    destruct (nth_error (w_futs s) j) as [f|] eqn:F; [|apply nth_error_None in F; lia].
    assert (J : nth_error fs n = Some j) by (rewrite E, nth_error_app2, L, Nat.sub_diag by lia; reflexivity).
    assert (WC : wf_code s (Coro (CGather g n) [] Start)) by (exists y, j; split; auto; now rewrite FY).
    destruct (add_cb_ok s j f (CGather g n) I F WC) as (s1 & E1 & I1 & X1 & [new1 A1] & C1 & G1). rewrite E0 in E1. injection E1 as <-.
    pose proof (part_step _ _ _ _ _ _ _ I P J F WC E0) as P1.
    destruct (IH (S n) (pre ++ [j]) a y s') as (P2 & I2 & X2 & G2 & [new2 A2] & C2 & S2); auto.
    + now rewrite <- app_assoc.
    + rewrite app_length. cbn. lia.
    + now rewrite G1.
    + intros i Hi. specialize (B i Hi). pose proof (lext_len _ _ _ (e_futs _ _ X1)). lia.
    + split; auto. split; auto. split; [eapply ext_trans; eauto|]. split; [congruence|]. split; [exists (new1 ++ new2); eapply adds_trans; eauto|]. split.
      * intros k x NG. rewrite C2 by auto. rewrite C1. split; intros K.
        -- apply nth_app_last in K. destruct K as [[K _]|[_ ->]]; auto. exfalso. apply NG. now exists n.
        -- rewrite nth_error_app1; auto. apply nth_error_Some. congruence.
      * intros i h Hh. pose proof (add_cb_states _ _ _ _ E0) as ST. destruct (ST i h Hh) as (h1 & H1 & T1). destruct (S2 i h1 H1) as (h2 & H2 & T2). exists h2. split; congruence.
Qed.

Lemma filter_all {A} (p : A -> bool) l : (forall x, p x = true) -> filter p l = l.
Proof. intros H. induction l as [|x l IH]; cbn; auto. rewrite H. now f_equal. Qed.
Definition fresh_gather (o : nat) (fs : list nat) : gather := G o fs (map (fun _ => VUninit) fs) (Z.of_nat (length fs)).
Lemma no_rets s g n fs i : part s g n fs -> rets s g i = false.
Proof. intros P. destruct (rets s g i) eqn:R; auto. apply rets_spec in R. destruct R as (k & x & X & C & At). destruct (p_loc _ _ _ _ P i k x X C) as (_ & S & _). congruence. Qed.
Lemma part_gok s g o fs f : part s g (length fs) fs -> nth_error (w_futs s) o = Some f -> f_task f = None -> f_state f = Pending -> fs <> [] -> gok s g (fresh_gather o fs).
Proof.
  intros P F T S NE. pose proof (fun i => no_rets s g _ fs i P) as NR. split; cbn [fresh_gather g_futs g_results g_remaining g_outer].
  - apply (p_uniq _ _ _ _ P).
  - apply (p_all _ _ _ _ P).
  - intros i k x j X C J. destruct (p_loc _ _ _ _ P i k x X C) as (_ & -> & j' & J' & f' & F' & L). rewrite J in J'. injection J' as <-. eauto.
  - intros i j f' J F'. rewrite NR. rewrite nth_error_map, J. reflexivity.
  - unfold missing. cbn [g_futs]. f_equal. rewrite <- (seq_length (length fs) 0) at 1. f_equal. symmetry. apply filter_all. intros i. unfold okb. now rewrite NR.
  - exists f. split; auto. split; auto. rewrite S. split; [destruct fs; [congruence|cbn; lia]|]. intros i H. rewrite NR in H. discriminate.
Qed.
Lemma gather_new s fs o s' : inv s -> ginv s -> (forall i, In i fs -> i < length (w_futs s)) -> fs <> [] -> start_gather s fs = Ok (o, s') ->
  o = length (w_futs s) /\ w_gathers s' = w_gathers s ++ [fresh_gather o fs] /\ ginv s' /\
  (exists f, nth_error (w_futs s') o = Some f /\ f_state f = Pending) /\
  forall j f, nth_error (w_futs s) j = Some f -> exists f', nth_error (w_futs s') j = Some f' /\ f_state f' = f_state f.
Proof.
  intros I GI B NE H. unfold start_gather in H. destruct (new_future_ok s None I) as (I1 & X1 & A1); [discriminate|].
  cbn [new_future snd] in *. set (s1 := set_futs s (w_futs s ++ [Fut Pending [] 0 None None None])) in *.
  assert (N1 : nth_error (w_futs s1) (length (w_futs s)) = Some (Fut Pending [] 0 None None None)) by (cbn; rewrite nth_error_app2, Nat.sub_diag by lia; reflexivity).
  destruct fs as [|i0 fs0]; [congruence|]. set (fs := i0 :: fs0) in *. fold (fresh_gather (length (w_futs s)) fs) in H. set (y := fresh_gather (length (w_futs s)) fs) in *.
  set (g := length (w_gathers s1)) in *.
  destruct (set_gathers_ok s1 (w_gathers s1 ++ [y]) I1) as (I2 & X2 & A2).
  { apply lext_app, gext_refl. }
  { intros g' z Z. apply nth_app_last in Z. destruct Z as [[Z _]|[_ ->]]; auto. right. split; cbn [y fresh_gather g_outer g_futs g_results].
    - cbn. rewrite app_length. cbn. lia.
    - exact B.
    - now rewrite map_length. }
  set (s2 := set_gathers s1 (w_gathers s1 ++ [y])) in *. bind_inv H. bind_inv H. injection H as <- <-. rename a into s3, a0 into s4.
  assert (Y2 : nth_error (w_gathers s2) g = Some y) by (cbn; rewrite nth_error_app2, Nat.sub_diag by lia; reflexivity).
  assert (Z0 : forall k x i, nth_error (w_coros s) k = Some x -> c_code x <> CGather g i).
  { intros k x i K C. pose proof (i_codes _ I k x K) as WC. unfold wf_code in WC. rewrite C in WC. destruct WC as (z & j & Z & _).
    assert (g < length (w_gathers s)) by (apply nth_error_Some; congruence). unfold g in *. cbn in *. lia. }
  destruct (part_cbs g fs fs 0 [] s2 y s3) as (P3 & I3 & X3 & G3 & [new3 A3] & C3 & S3); auto.
  { intros i Hi. specialize (B i Hi). cbn. rewrite app_length. lia. }
  { split; cbn [s2 s1 set_gathers set_futs w_coros]; [| |].
    - intros i k k' x x' K _ C _. exfalso. eapply Z0; eauto.
    - intros i Hi. lia.
    - intros i k x K C. exfalso. eapply Z0; eauto. }
  destruct (S3 _ _ N1) as (fo & Fo & So). cbn in So.
  assert (To : f_task fo = None). { destruct (e_futs _ _ X3 _ _ N1) as (f1 & F1 & T1 & _). rewrite Fo in F1. injection F1 as <-. exact T1. }
  assert (WC : wf_code s3 (Coro (CGatherCancel g) [] Start)) by (exists y; now rewrite G3).
  destruct (add_cb_ok s3 _ fo _ I3 Fo WC) as (s4' & E4 & I4 & X4 & [new4 A4] & C4 & G4). rewrite E0 in E4. injection E4 as <-.
  assert (GS : w_gathers s4 = w_gathers s ++ [y]) by (rewrite G4, G3; reflexivity).
  assert (Q4 : forall k x, (forall h, c_code x <> CGatherCancel h) -> (nth_error (w_coros s4) k = Some x <-> nth_error (w_coros s3) k = Some x)).
  { intros k x NC. rewrite C4. split; intros K.
    - apply nth_app_last in K. destruct K as [[K _]|[_ ->]]; auto. exfalso. eapply NC. reflexivity.
    - rewrite nth_error_app1; auto. apply nth_error_Some. congruence. }
  assert (ST : forall j f, nth_error (w_futs s) j = Some f -> exists f', nth_error (w_futs s4) j = Some f' /\ f_state f' = f_state f).
  { intros j f F. assert (F2 : nth_error (w_futs s2) j = Some f) by (cbn; rewrite nth_error_app1; auto; apply nth_error_Some; congruence).
    destruct (S3 j f F2) as (f3 & F3 & T3). destruct (add_cb_states _ _ _ _ E0 j f3 F3) as (f4 & F4 & T4). exists f4. split; congruence. }
  assert (X02 : ext s s2) by exact (ext_trans _ _ _ X1 X2). assert (X03 : ext s s3) by exact (ext_trans _ _ _ X02 X3). assert (X : ext s s4) by exact (ext_trans _ _ _ X03 X4).
  destruct (add_cb_states _ _ _ _ E0 _ fo Fo) as (fo' & Fo' & So').
  split; auto. split; auto. split; [|split; [exists fo'; split; auto; congruence|exact ST]]. split; rewrite GS.
  - intros g0 y0 Y0. apply nth_app_last in Y0. destruct Y0 as [[Y0 B0]|[-> ->]].
    + apply (gok_quiet g0 y0 s); [apply (proj1 GI); auto|]. apply (gquiet_adds g0 y0 s s4 (([] ++ new3) ++ new4)); auto.
      * apply (adds_trans s s3 s4); auto. apply (adds_trans s s2 s3); auto. apply (adds_nil_l s s1 s2); auto.
      * intros k x [i Ci]. rewrite Q4 by (intros h; congruence). rewrite C3; [reflexivity|]. intros [i' Ci']. rewrite Ci in Ci'. injection Ci' as -> ->. unfold g in B0. cbn in B0. lia.
      * intros f f' F F'. destruct (ST _ f F) as (f1 & F1 & T1). congruence.
    + assert (P4 : part s4 g (length fs) fs).
      { destruct P3 as [U A L]. split.
        - intros i k k' x x' K1 K2 C1 C2. apply Q4 in K1; [|intros h; congruence]. apply Q4 in K2; [|intros h; congruence]. eapply U; eauto.
        - intros i Hi. destruct (A i Hi) as (k & x & K & C). exists k, x. split; auto. apply Q4; auto. intros h. congruence.
        - intros i k x K C. apply Q4 in K; [|intros h; congruence]. destruct (L i k x K C) as (Bi & At & j & J & Lc). split; auto. split; auto. exists j. split; auto. exact (loc_adds _ _ _ _ _ X4 A4 Lc). }
      destruct (e_futs _ _ X4 _ _ Fo) as (f1 & F1 & T1 & _). rewrite Fo' in F1. injection F1 as <-.
      apply (part_gok s4 g (length (w_futs s)) fs fo'); auto; congruence.
  - intros g0 g1 y0 y1 Y0 Y1 E1. apply nth_app_last in Y0. apply nth_app_last in Y1.
    destruct Y0 as [[Y0 B0]|[-> ->]], Y1 as [[Y1 B1]|[-> ->]]; auto.
    + eapply (proj2 GI); eauto.
    + pose proof (wg_outer _ _ (i_gathers _ I g0 y0 Y0)). cbn in E1. lia.
    + pose proof (wg_outer _ _ (i_gathers _ I g1 y1 Y1)). cbn in E1. lia.
Qed.

Lemma call_g s a r s' : inv s -> ginv s -> clean s a -> call s a = Ok (r, s') -> ginv s'.
Proof.
  intros I GI C H. destruct (match a with AGather (_ :: _) => true | _ => false end) eqn:K.
  - destruct a; try discriminate. cbn [call] in H. destruct (forallb _ fs) eqn:FB; [|now injection H as <- <-]. bind_inv H. destruct a as [o s1]. injection H as <- <-.
    refine (proj1 (proj2 (proj2 (gather_new s fs o s1 I GI _ _ E)))).
    + intros i Hi. rewrite forallb_forall in FB. specialize (FB i Hi). now apply Nat.ltb_lt in FB.
    + destruct fs; [discriminate|congruence].
  - destruct (call_quiet s a r s' I C) as [G Q]; auto; [destruct a; try exact Logic.I; destruct fs; [exact Logic.I|discriminate]|]. eapply ginv_quiet; eauto.
Qed.
Lemma user_g s target w c x a s' : inv s -> ginv s -> w_mode s = Inside target w -> w_coro w = Some c -> nth_error (w_coros s) c = Some x -> user x -> clean s a ->
  user_step s target w c a = Ok s' -> ginv s'.
Proof.
  intros I GI M Hc X U C H. destruct (match a with AGather _ => true | _ => false end) eqn:K.
  - destruct a; try discriminate. cbn [user_step] in H. bind_inv H. destruct a as [r s1]. pose proof (call_g _ _ _ _ I GI C E) as G1.
    pose proof (call_ok s (AGather fs) I) as P. rewrite E in P. destruct P as (I1 & X1 & _). cbn [snd] in *. destruct (sw_user _ _ _ _ X1 X U) as (x1 & Hx1 & U1).
    destruct (answer_quiet _ _ _ _ _ I1 Hx1 U1 H) as [Ge Q]. eapply ginv_quiet; eauto.
  - destruct (user_quiet s target w c x a s') as [G Q]; auto; [destruct a; try exact Logic.I; discriminate|]. eapply ginv_quiet; eauto.
Qed.

(** ** A turn of the loop *)
Lemma gok_turn s s' g y c x x' : gok s g y ->
  (forall j f, nth_error (w_futs s) j = Some f -> ~ In (W (Some c) None) (f_cbs f)) ->
  w_futs s' = w_futs s -> w_coros s' = upd (w_coros s) c x' -> nth_error (w_coros s) c = Some x -> c_code x' = c_code x -> c_at x' = Active -> c_at x <> Returned ->
  (forall k, k <> c -> In (W (Some k) None) (ready s) -> In (W (Some k) None) (ready s')) -> gok s' g y.
Proof.
  intros O NB F C X Cx A NR R.
  assert (CS : forall k z, nth_error (w_coros s') k = Some z -> (k = c /\ z = x') \/ (k <> c /\ nth_error (w_coros s) k = Some z)).
  { intros k z Z. rewrite C in Z. destruct (Nat.eq_dec c k) as [<-|D]; [|right; rewrite nth_upd_ne in Z; auto]. left. rewrite (nth_upd_eq _ _ _ _ X) in Z. injection Z as <-. auto. }
  assert (RE : forall i, rets s' g i = rets s g i).
  { intros i. destruct (rets s g i) eqn:E.
    - apply rets_spec in E. destruct E as (k & z & Z & Cz & P). apply rets_spec. exists k, z. split; auto. rewrite C, nth_upd_ne; auto. intros ->. rewrite X in Z. injection Z as ->. auto.
    - destruct (rets s' g i) eqn:E'; auto. apply rets_spec in E'. destruct E' as (k & z & Z & Cz & P). destruct (CS k z Z) as [[-> ->]|[D Z']]; [congruence|].
      rewrite <- E. symmetry. apply rets_spec. eauto. }
  assert (CO : forall i, child_ok s' y i = child_ok s y i) by (intros i; unfold child_ok; now rewrite F).
  assert (OE : forall i, okb s' g y i = okb s g y i) by (intros i; unfold okb; now rewrite RE, CO).
  split.
  - intros i k k' z z' Z Z' C1 C2. destruct (CS k z Z) as [[-> ->]|[D K]], (CS k' z' Z') as [[-> ->]|[D' K']]; auto; try (apply (o_uniq _ _ _ O i) with x z'; auto; congruence); try (apply (o_uniq _ _ _ O i) with z x; auto; congruence).
    apply (o_uniq _ _ _ O i) with z z'; auto.
  - intros i Hi. destruct (o_all _ _ _ O i Hi) as (k & z & Z & Cz). rewrite C. destruct (Nat.eq_dec c k) as [<-|D].
    + exists c, x'. rewrite (nth_upd_eq _ _ _ _ X). split; congruence.
    + exists k, z. rewrite nth_upd_ne; auto.
  - intros i k z j Z Cz J. destruct (CS k z Z) as [[-> ->]|[D K]].
    + destruct (o_loc _ _ _ O i c x j X) as (f & Ff & H); [congruence|auto|]. exists f. rewrite F. split; auto. rewrite A. destruct (c_at x); auto; try contradiction.
      destruct (is_done f); auto. exfalso. eapply NB; eauto.
    + destruct (o_loc _ _ _ O i k z j K Cz J) as (f & Ff & H). exists f. rewrite F. split; auto. destruct (c_at z); auto. destruct (is_done f); auto.
  - intros i j f J Ff. rewrite RE. rewrite F in Ff. apply (o_res _ _ _ O i j f J Ff).
  - rewrite (o_rem _ _ _ O). f_equal. symmetry. apply missing_ext; auto.
  - destruct (o_out _ _ _ O) as (f & Ff & T & H). exists f. rewrite F. split; auto. split; auto. destruct (f_state f); auto. destruct H as [H1 H2]. split; auto.
    intros i Hi. rewrite RE in Hi. rewrite CO. auto.
Qed.
Lemma turn_g s target now s' : good s -> w_mode s = Between target -> ginv s -> begin_step s target now = Ok s' -> ginv s'.
Proof.
  intros (I & T & GL & NS) M GI H. unfold running in T. rewrite M in T. unfold begin_step in H.
  destruct (enq_timers_ok now (S (ts_len (w_timers s))) s I) as (s1 & due & E & I1 & X1 & R1 & P1 & O1 & D1 & N1 & S1 & F1 & C1 & G1 & H1 & M1 & St1); [lia|].
  rewrite E in H. cbn [bind] in H. rewrite (empty_ok _ (i_queue _ I1)) in H. fold (ready s1) in H.
  assert (T1 : tokw s1 []).
  { unfold tokw in *. rewrite R1, F1, C1. apply (tok_expire _ _ _ _ _ T). unfold live_timers, expired, pending_timers. fold (members (w_timers s)). fold (members (w_timers s1)). rewrite O1.
    unfold duework. rewrite <- concat_app, <- map_app, <- !flat_map_concat_map. now apply Permutation_flat_map. }
  destruct (ready s1) as [|w ws] eqn:Er.
  - cbn [negb bind] in H. rewrite St1, NS in H. injection H as <-. apply (ginv_quiet s); auto. intros g y Y.
    assert (R0 : ready s = []) by (destruct (ready s); [auto|discriminate]).
    split; auto; try (rewrite C1; tauto).
    + intros k x _ _ K. rewrite R0 in K. destruct K.
    + rewrite F1. intros k x j f _ _ Ff D K. exists f. rewrite D. auto.
    + rewrite F1. eauto.
  - cbn [negb] in H. destruct (deq_ok _ w ws (i_queue _ I1) Er) as (q' & Ed & Q & Rq & _). rewrite Ed in H. cbn [bind set_curr set_queue w_stop] in H. rewrite St1, NS in H.
    pose proof (i_ready _ I1) as FR. rewrite Er in FR. pose proof (Forall_inv FR) as Ww. pose proof Ww as (c & x & Hc & X & Ht). rewrite Hc in H.
    match type of H with context [resume ?t w c] => set (s2 := t) in H end.
    assert (W2 : wf s2 w) by exact Ww.
    assert (T2 : tok (w :: ready s2) (w_futs s2) (w_coros s2) (live_timers s2) []).
    { change (ready s2) with (waiting q'). rewrite Rq. unfold tokw in T1. rewrite Er in T1. exact T1. }
    destruct (resume_t s2 w c) as (s3 & x' & r & Es & T' & X' & Eq & Cs); auto. rewrite H in Es. injection Es as ->.
    assert (GS : w_gathers s3 = w_gathers s) by (subst s3; exact G1). destruct GI as [GI GD]. split; [|now rewrite GS]. rewrite GS. intros g y Y.
    apply (gok_turn s s3 g y c x' (Coro (c_code x') (c_hist x' ++ r) Active)); auto.
    + intros j f Ff K. pose proof (k_nodup _ _ _ _ _ T2) as ND. unfold items in ND. cbn [app map] in ND. inversion ND as [|? ? NI _]; subst.
      apply NI. rewrite Hc. apply in_map_iff. exists (W (Some c) None). split; auto. rewrite !in_app_iff. right. left. eapply cbs_in; [|exact K]. change (w_futs s2) with (w_futs s1). rewrite F1. exact Ff.
    + subst s3. exact F1.
    + subst s3. cbn [set_coros w_coros]. f_equal. exact C1.
    + rewrite <- C1. exact X'.
    + destruct Cs as [[-> _]|(i & f & -> & _)]; discriminate.
    + intros k D K. subst s3. unfold ready. cbn [set_coros w_queue]. change (w_queue s2) with q'. rewrite Rq.
      assert (K1 : In (W (Some k) None) (w :: ws)). { rewrite R1. apply in_or_app. auto. } destruct K1 as [K1|K1]; auto. rewrite K1 in Hc. cbn in Hc. congruence.
Qed.

(** ** A callback of a gather *)
Lemma rind_states s i st f s' : inv s -> nth_error (w_futs s) i = Some f -> st <> Pending -> resolve_if_not_done s i st = Ok s' ->
  (exists f', nth_error (w_futs s') i = Some f' /\ f_state f' = if is_done f then f_state f else st) /\
  (forall j h, j <> i -> nth_error (w_futs s) j = Some h -> exists h', nth_error (w_futs s') j = Some h' /\ f_state h' = f_state h) /\
  w_gathers s' = w_gathers s /\ w_coros s' = w_coros s.
Proof.
  intros I F NP H. unfold resolve_if_not_done, get_fut in H. rewrite (read_ok _ _ _ F) in H. cbn [bind] in H. destruct (is_done f) eqn:D.
  - injection H as <-. split; eauto.
  - destruct (resolve_ok s i f st I F D NP) as (s1 & new & f1 & E & _ & _ & _ & Fr & F1 & S1). rewrite H in E. injection E as <-.
    pose proof (resolve_sw (fun j => j = i) s i st s' eq_refl H) as Sw. split; [eauto|]. split; [|split; apply Fr].
    intros j h NJ Hh. destruct (s_futs _ _ _ Sw j h Hh) as (h' & H' & [Q|Q]); [eauto|contradiction].
Qed.
Record shape (s : world) (g i : nat) (y : gather) (fk fo : future) (s1 : world) (y' : gather) : Prop := {
  h_outer : g_outer y' = g_outer y;
  h_futs : g_futs y' = g_futs y;
  h_this : nth_error (w_gathers s1) g = Some y';
  h_other : forall g', g' <> g -> nth_error (w_gathers s1) g' = nth_error (w_gathers s) g';
  h_same : forall j h, j <> g_outer y -> nth_error (w_futs s) j = Some h -> exists h', nth_error (w_futs s1) j = Some h' /\ f_state h' = f_state h;
  h_coros : w_coros s1 = w_coros s;
  h_case : exists fo', nth_error (w_futs s1) (g_outer y) = Some fo' /\
    match f_state fk with
    | Failed e => g_results y' = g_results y /\ g_remaining y' = g_remaining y /\ f_state fo' = if is_done fo then f_state fo else Failed e
    | st => g_results y' = match st with Finished v => upd (g_results y) i v | _ => g_results y end /\ g_remaining y' = (g_remaining y - 1)%Z /\
            f_state fo' = if is_done fo then f_state fo else if (g_remaining y =? 1)%Z then Finished (VTuple (g_results y')) else Pending
    end }.
Lemma cb_shape s g i y k fk fo s1 : inv s -> nth_error (w_gathers s) g = Some y -> nth_error (g_futs y) i = Some k -> nth_error (w_futs s) k = Some fk ->
  nth_error (w_futs s) (g_outer y) = Some fo -> gather_callback s g i = Ok s1 -> exists y', shape s g i y fk fo s1 y'.
Proof.
  intros I Y K Fk Fo H. pose proof (i_gathers _ I g y Y) as [O F L]. pose proof (F k (nth_error_In _ _ K)) as Bk. unfold gather_callback, get_fut in H.
  rewrite (read_ok _ _ _ Y) in H. cbn [bind] in H. rewrite (read_ok _ _ _ K) in H. cbn [bind] in H. rewrite (read_ok _ _ _ Fk) in H. cbn [bind] in H.
  assert (Z : forall st r, r = match st with Finished v => upd (g_results y) i v | _ => g_results y end -> f_state fk = st -> (forall e, st <> Failed e) -> (let s0 := set_gathers s (upd (w_gathers s) g (G (g_outer y) (g_futs y) r (g_remaining y - 1))) in
      if (g_remaining y =? 1)%Z then resolve_if_not_done s0 (g_outer y) (Finished (VTuple r)) else Ok s0) = Ok s1 -> exists y', shape s g i y fk fo s1 y').
  { intros st r Er Est NF. cbv zeta. set (y' := G (g_outer y) (g_futs y) r (g_remaining y - 1)). set (s0 := set_gathers s (upd (w_gathers s) g y')). intros Hr. exists y'.
    assert (Lr : length r = length (g_futs y)) by (rewrite Er; destruct st; rewrite ?upd_length; auto).
    assert (I0 : inv s0).
    { refine (proj1 (set_gathers_ok s (upd (w_gathers s) g y') I _ _)).
      - eapply lext_upd; eauto using gext_refl. split; auto.
      - intros g' z Zg. rewrite nth_upd in Zg. destruct (Nat.eqb_spec g g') as [<-|]; auto. destruct (_ <? _); [|discriminate]. injection Zg as <-. right. split; cbn; auto. }
    assert (T0 : nth_error (w_gathers s0) g = Some y') by (cbn; eapply nth_upd_eq; eauto).
    assert (N0 : forall g', g' <> g -> nth_error (w_gathers s0) g' = nth_error (w_gathers s) g') by (intros g' D; cbn; apply nth_upd_ne; auto).
    assert (CASE : exists fo', nth_error (w_futs s1) (g_outer y) = Some fo' /\ f_state fo' = (if is_done fo then f_state fo else if (g_remaining y =? 1)%Z then Finished (VTuple r) else Pending) /\
       (forall j h, j <> g_outer y -> nth_error (w_futs s) j = Some h -> exists h', nth_error (w_futs s1) j = Some h' /\ f_state h' = f_state h) /\ w_gathers s1 = w_gathers s0 /\ w_coros s1 = w_coros s0).
    { destruct (g_remaining y =? 1)%Z.
      - destruct (rind_states s0 (g_outer y) (Finished (VTuple r)) fo s1 I0 Fo) as ((fo' & Fo' & So') & Hj & Gs & Cs); auto; [discriminate|]. exists fo'. auto.
      - injection Hr as <-. exists fo. split; auto. split; [unfold is_done; destruct (f_state fo); auto|]. split; [eauto|auto]. }
    destruct CASE as (fo' & Fo' & So' & Hj & Gs & Cs). split; auto; try (rewrite Gs; auto). exists fo'. split; auto.
    rewrite Est. destruct st; try (exfalso; eapply NF; reflexivity); cbn [y' g_results g_remaining]; auto. }
  destruct (f_state fk) as [|v|e|] eqn:Es.
  - apply (Z Pending (g_results y)); auto. discriminate.
  - apply (Z (Finished v) (upd (g_results y) i v)); auto. discriminate.
  - exists y. replace (g_outer y =? k) with false in H by (symmetry; apply Nat.eqb_neq; lia).
    destruct (rind_states s (g_outer y) (Failed e) fo s1 I Fo) as ((fo' & Fo' & So') & Hj & Gs & Cs); auto; [discriminate|].
    split; auto; try (rewrite Gs; auto). rewrite Es. exists fo'. auto.
  - apply (Z Cancelled (g_results y)); auto. discriminate.
Qed.

Lemma count_flip (p p' : nat -> bool) n i : i < n -> (forall j, j <> i -> p' j = p j) -> p i = true -> p' i = false ->
  length (filter p (seq 0 n)) = S (length (filter p' (seq 0 n))).
Proof.
  intros B E P P'. assert (S0 : seq 0 n = seq 0 i ++ i :: seq (S i) (n - S i)).
  { replace n with (i + S (n - S i)) at 1 by lia. rewrite seq_app. reflexivity. }
  rewrite S0, !filter_app. cbn [filter]. rewrite P, P', !app_length. cbn [length].
  rewrite (filter_ext_in p' p (seq 0 i)), (filter_ext_in p' p (seq (S i) (n - S i))); [lia| |]; intros j J; apply in_seq in J; apply E; lia.
Qed.
Lemma cb_g s g i y k c x s1 : inv s -> ginv s -> nth_error (w_coros s) c = Some x -> c_code x = CGather g i -> c_at x = Active ->
  nth_error (w_gathers s) g = Some y -> nth_error (g_futs y) i = Some k -> gather_callback s g i = Ok s1 -> ginv (set_coro s1 c (Coro (c_code x) (c_hist x) Returned)).
Proof.
  intros I [GI GD] X Cx At Y K H. destruct (gather_cb_ok s g i y k I Y K) as (s1' & E1 & I1 & [X1 [new A1]] & _ & C1). rewrite H in E1. injection E1 as <-.
  assert (Xc : nth_error (w_coros s1) c = Some x) by (now rewrite C1).
  destruct (set_coro_ok s1 c x (Coro (c_code x) (c_hist x) Returned) I1 Xc) as (I2 & X2 & A2); [split; auto; exists []; now rewrite app_nil_r|].
  set (s2 := set_coro s1 c (Coro (c_code x) (c_hist x) Returned)) in *.
  assert (X02 : ext s s2) by exact (ext_trans _ _ _ X1 X2). assert (A02 : adds s s2 new) by exact (adds_nil_r _ _ _ _ X1 X2 A1 A2).
  pose proof (GI g y Y) as O. destruct (o_out _ _ _ O) as (fo & Fo & To & Ho). destruct (o_loc _ _ _ O i c x k X Cx K) as (fk & Fk & Dk). rewrite At in Dk.
  destruct (cb_shape s g i y k fk fo s1 I Y K Fk Fo H) as (y' & [h1 h2 h3 h4 h5 h6 h7]).
  assert (CS : forall k' z, nth_error (w_coros s2) k' = Some z -> (k' = c /\ z = Coro (c_code x) (c_hist x) Returned) \/ (k' <> c /\ nth_error (w_coros s) k' = Some z)).
  { intros k' z Z. unfold s2 in Z. cbn [set_coro set_coros w_coros] in Z. rewrite C1 in Z. destruct (Nat.eq_dec c k') as [<-|D]; [|right; rewrite nth_upd_ne in Z; auto]. left. rewrite (nth_upd_eq _ _ _ _ X) in Z. injection Z as <-. auto. }
  assert (CN : forall k' z, k' <> c -> nth_error (w_coros s) k' = Some z -> nth_error (w_coros s2) k' = Some z).
  { intros k' z D Z. unfold s2. cbn [set_coro set_coros w_coros]. rewrite C1, nth_upd_ne; auto. }
  assert (CC : nth_error (w_coros s2) c = Some (Coro (c_code x) (c_hist x) Returned)) by (unfold s2; cbn [set_coro set_coros w_coros]; rewrite C1; eapply nth_upd_eq; eauto).
  split.
  2: { assert (OE : forall g0 y0, nth_error (w_gathers s2) g0 = Some y0 -> exists y1, nth_error (w_gathers s) g0 = Some y1 /\ g_outer y1 = g_outer y0).
       { intros g0 y0 Y0. change (w_gathers s2) with (w_gathers s1) in Y0. destruct (Nat.eq_dec g0 g) as [->|D]; [|rewrite h4 in Y0 by auto; eauto]. rewrite h3 in Y0. injection Y0 as <-. eauto. }
       intros g0 g0' y0 y0' Y0 Y0' E. destruct (OE _ _ Y0) as (z & Z & Ez). destruct (OE _ _ Y0') as (z' & Z' & Ez'). eapply GD; eauto. congruence. }
  intros g0 y0 Y0. change (w_gathers s2) with (w_gathers s1) in Y0. destruct (Nat.eq_dec g0 g) as [->|Dg].
  2: { rewrite h4 in Y0 by auto. apply (gok_quiet g0 y0 s); auto. eapply gquiet_adds; eauto.
       - intros k' z [i' Ci]. split; intros Z.
         + destruct (CS k' z Z) as [[-> ->]|[D Z']]; auto. cbn in Ci. congruence.
         + apply CN; auto. intros ->. congruence.
       - intros f f' F F'. assert (ND : g_outer y0 <> g_outer y) by (intros E; apply Dg; eapply GD; eauto). destruct (h5 _ f ND F) as (f1 & F1 & T1). change (w_futs s2) with (w_futs s1) in F'. congruence. }
  rewrite h3 in Y0. injection Y0 as <-. rename h7 into CASE. destruct CASE as (fo' & Fo' & CASE).
  pose proof (i_gathers _ I g y Y) as [Wo Wl Wlen]. pose proof (nth_error_In _ _ K) as InK.
  assert (Bi : i < length (g_futs y)) by (apply nth_error_Some; congruence).
  assert (R0 : rets s g i = false).
  { destruct (rets s g i) eqn:R; auto. apply rets_spec in R. destruct R as (k' & z & Z & Cz & P). pose proof (o_uniq _ _ _ O i k' c z x Z X Cz Cx). subst k'. rewrite X in Z. injection Z as <-. congruence. }
  assert (R2 : forall i', rets s2 g i' = if i' =? i then true else rets s g i').
  { intros i'. destruct (Nat.eqb_spec i' i) as [->|Di].
    - apply rets_spec. exists c, (Coro (c_code x) (c_hist x) Returned). auto.
    - destruct (rets s g i') eqn:R.
      + apply rets_spec in R. destruct R as (k' & z & Z & Cz & P). apply rets_spec. exists k', z. split; auto. apply CN; auto. intros ->. congruence.
      + destruct (rets s2 g i') eqn:R'; auto. apply rets_spec in R'. destruct R' as (k' & z & Z & Cz & P). destruct (CS k' z Z) as [[-> ->]|[D Z']].
        * cbn in Cz. congruence.
        * rewrite <- R. symmetry. apply rets_spec. eauto. }
  assert (ST : forall i' j f, nth_error (g_futs y) i' = Some j -> nth_error (w_futs s) j = Some f -> exists f', nth_error (w_futs s2) j = Some f' /\ f_state f' = f_state f).
  { intros i' j f J F. apply h5; auto. specialize (Wl j (nth_error_In _ _ J)). lia. }
  assert (BD : forall i' j, nth_error (g_futs y) i' = Some j -> exists f, nth_error (w_futs s) j = Some f).
  { intros i' j J. destruct (nth_error (w_futs s) j) as [f|] eqn:F; eauto. apply nth_error_None in F. specialize (Wl j (nth_error_In _ _ J)). lia. }
  assert (CO : forall i', child_ok s2 y' i' = child_ok s y i').
  { intros i'. unfold child_ok. rewrite h2. destruct (nth_error (g_futs y) i') as [j|] eqn:J; auto. destruct (BD _ _ J) as [f F]. destruct (ST _ _ _ J F) as (f' & F' & S'). rewrite F, F'. unfold failed. now rewrite S'. }
  assert (CI : child_ok s y i = negb (failed fk)) by (unfold child_ok; now rewrite K, Fk).
  assert (MI : forall i', i' <> i -> okb s2 g y' i' = okb s g y i').
  { intros i' D. unfold okb. rewrite R2, CO. apply Nat.eqb_neq in D. now rewrite D. }
  assert (MO : okb s2 g y' i = negb (failed fk)) by (unfold okb; rewrite R2, Nat.eqb_refl, CO, CI; reflexivity).
  assert (MS : okb s g y i = false) by (unfold okb; now rewrite R0).
  split.
  - intros i' k1 k2 z z' Z Z' D1 D2. destruct (CS _ _ Z) as [[-> ->]|[N1 Z1]], (CS _ _ Z') as [[-> ->]|[N2 Z2]]; auto.
    + apply (o_uniq _ _ _ O i') with x z'; auto.
    + apply (o_uniq _ _ _ O i') with z x; auto.
    + apply (o_uniq _ _ _ O i') with z z'; auto.
  - rewrite h2. intros i' Hi. destruct (o_all _ _ _ O i' Hi) as (k' & z & Z & Cz). destruct (Nat.eq_dec k' c) as [->|D].
    + rewrite X in Z. injection Z as <-. exists c, (Coro (c_code x) (c_hist x) Returned). auto.
    + exists k', z. auto.
  - rewrite h2. intros i' k' z j Z Cz J. destruct (CS _ _ Z) as [[-> ->]|[N1 Z1]].
    + cbn in Cz. rewrite Cx in Cz. injection Cz as <-. rewrite K in J. injection J as <-. destruct (ST i k fk K Fk) as (f' & F' & S'). exists f'. split; auto. cbn. now rewrite (is_done_state _ _ S').
    + destruct (o_loc _ _ _ O i' k' z j Z1 Cz J) as (f & F & L). destruct (ST i' j f J F) as (f' & F' & S'). destruct (c_at z) eqn:Az; try contradiction.
      * destruct (loc_adds s s2 new k' j X02 A02) as (f2 & F2 & L2); [exists f; auto|]. eauto.
      * exists f'. split; auto. now rewrite (is_done_state _ _ S').
      * exists f'. split; auto. now rewrite (is_done_state _ _ S').
  - rewrite h2. intros i' j f' J F'. destruct (BD _ _ J) as [f F]. destruct (ST _ _ _ J F) as (f1 & F1 & S1). rewrite F' in F1. injection F1 as <-.
    pose proof (o_res _ _ _ O i' j f J F) as RS. rewrite R2. replace (value f') with (value f) by (unfold value; now rewrite S1).
    destruct (Nat.eqb_spec i' i) as [->|Di].
    + rewrite K in J. injection J as <-. rewrite Fk in F. injection F as <-. rewrite R0 in RS. unfold value. unfold is_done in Dk. destruct (f_state fk) as [|v|e|]; try discriminate; destruct CASE as (-> & _); auto. eapply nth_upd_eq; eauto.
    + assert (RR : nth_error (g_results y') i' = nth_error (g_results y) i') by (destruct (f_state fk); destruct CASE as (-> & _); auto; apply nth_upd_ne; auto). now rewrite RR.
  - unfold is_done in Dk. destruct (f_state fk) as [|v|e|] eqn:Ef; try discriminate; destruct CASE as (_ & -> & _); rewrite (o_rem _ _ _ O).
    + unfold missing. rewrite h2. rewrite (count_flip (fun i0 => negb (okb s g y i0)) (fun i0 => negb (okb s2 g y' i0)) (length (g_futs y)) i); auto.
      * lia.
      * intros j D. now rewrite MI.
      * now rewrite MS.
      * rewrite MO. unfold failed. now rewrite Ef.
    + f_equal. symmetry. apply missing_ext; auto. intros i' Hi. destruct (Nat.eq_dec i' i) as [->|D]; auto. rewrite MO, MS. unfold failed. now rewrite Ef.
    + unfold missing. rewrite h2. rewrite (count_flip (fun i0 => negb (okb s g y i0)) (fun i0 => negb (okb s2 g y' i0)) (length (g_futs y)) i); auto.
      * lia.
      * intros j D. now rewrite MI.
      * now rewrite MS.
      * rewrite MO. unfold failed. now rewrite Ef.
  - assert (NZ : (0 < g_remaining y)%Z).
    { rewrite (o_rem _ _ _ O). unfold missing. destruct (filter (fun i0 => negb (okb s g y i0)) (seq 0 (length (g_futs y)))) eqn:EF; [|cbn; lia]. exfalso.
      assert (IN : In i (filter (fun i0 => negb (okb s g y i0)) (seq 0 (length (g_futs y))))) by (apply filter_In; split; [apply in_seq; lia|now rewrite MS]). rewrite EF in IN. destruct IN. }
    exists fo'. rewrite h1. split; [exact Fo'|]. split.
    { destruct (e_futs _ _ X02 _ _ Fo) as (f1 & F1 & T1 & _). change (w_futs s2) with (w_futs s1) in F1. rewrite Fo' in F1. injection F1 as <-. congruence. }
    assert (FAIL : forall e, (exists j f', In j (g_futs y) /\ nth_error (w_futs s) j = Some f' /\ f_state f' = Failed e) -> exists j f', In j (g_futs y') /\ nth_error (w_futs s2) j = Some f' /\ f_state f' = Failed e).
    { intros e (j & f' & J & F & S). rewrite h2. apply In_nth_error in J as J'. destruct J' as [i' J']. destruct (ST i' j f' J' F) as (f2 & F2 & S2). exists j, f2. split; auto. split; congruence. }
    unfold is_done in Dk. destruct (f_state fk) as [|v|e|] eqn:Ef; try discriminate; destruct CASE as (ER & EM & ES); rewrite ES; unfold is_done; destruct (f_state fo) as [|v0|e0|] eqn:Eo; try contradiction.
    + destruct Ho as [_ Ho]. destruct (Z.eqb_spec (g_remaining y) 1) as [E|D]; [split; auto; lia|]. split; [lia|]. intros i' R'. rewrite CO. rewrite R2 in R'. destruct (Nat.eqb_spec i' i) as [Ei|]; auto. rewrite Ei, CI. unfold failed. now rewrite Ef.
    + destruct Ho as [_ Ho]. lia.
    + auto.
    + apply FAIL. exists k, fk. auto.
    + destruct Ho as [_ Ho]. lia.
    + auto.
    + destruct Ho as [_ Ho]. destruct (Z.eqb_spec (g_remaining y) 1) as [E|D]; [split; auto; lia|]. split; [lia|]. intros i' R'. rewrite CO. rewrite R2 in R'. destruct (Nat.eqb_spec i' i) as [Ei|]; auto. rewrite Ei, CI. unfold failed. now rewrite Ef.
    + destruct Ho as [_ Ho]. lia.
    + auto.
Qed.

(** ** All steps *)
Lemma ginv_same s s' : ginv s -> w_gathers s' = w_gathers s -> w_coros s' = w_coros s -> w_futs s' = w_futs s -> w_queue s' = w_queue s -> ginv s'.
Proof.
  intros GI G C F Q. apply (ginv_quiet s); auto. intros g y Y.
  assert (R : ready s' = ready s) by (unfold ready; now rewrite Q).
  split; try (rewrite C; tauto).
  - split; rewrite ?C, ?F, ?G; apply lext_refl; auto using fext_refl, gext_refl, cext_refl.
  - now rewrite R.
  - rewrite F, R. intros k x j f _ _ Ff D K. exists f. rewrite D. auto.
  - rewrite F. eauto.
Qed.
Lemma finish_none s target w s' : finish_step s target w None None = Ok s' -> s' = set_mode (set_curr s None) (Between target).
Proof.
  unfold finish_step. intros H. bind_inv H. injection H as <-. f_equal. f_equal. destruct (w_task w); [|now injection E]. bind_inv E. destruct (is_done a0); now injection E.
Qed.
Section Code.
Context (code : nat -> list resp -> act).
Lemma body_g s target w s' : good s -> w_mode s = Inside target w -> ginv s -> (forall a, action code s LBody = Some a -> clean s a) -> body_step code s target w = Ok s' -> ginv s'.
Proof.
  intros (I & T & GL & NS) M GI CA H. pose proof (i_curr _ I w (i_mode _ I _ _ M)) as Wf. pose proof Wf as (c & x & Hc & X & Ht).
  unfold running in T. rewrite M in T. destruct (k_cur _ _ _ _ _ T w (or_introl eq_refl)) as (c' & Hc' & (x' & X' & At)). rewrite Hc in Hc'. injection Hc' as <-. rewrite X in X'. injection X' as <-.
  unfold action in CA. rewrite M, Hc, X in CA. unfold body_step in H. rewrite Hc in H. unfold get_coro in H. rewrite (read_ok _ _ _ X) in H. cbn [bind] in H.
  pose proof (i_codes _ I c x X) as WC. unfold wf_code in WC. destruct (c_code x) as [n|g i|g] eqn:Ec.
  - eapply user_g; eauto. now exists n.
  - destruct WC as (y & k & Y & K). bind_inv H. bind_inv H. apply finish_none in H. subst s'.
    destruct (gather_cb_ok s g i y k I Y K) as (s1' & E1 & I1 & _ & _ & C1). rewrite E in E1. injection E1 as <-.
    unfold move, get_coro in E0. assert (Xc : nth_error (w_coros a) c = Some x) by (now rewrite C1). rewrite (read_ok _ _ _ Xc) in E0. cbn [bind] in E0. injection E0 as <-.
    eapply ginv_same; [eapply (cb_g s g i y k c x a); eauto|reflexivity..].
  - destruct WC as (y & Y). rewrite (gather_cancel_t s g y I GL Y) in H. cbn [bind] in H. bind_inv H. apply finish_none in H. subst s'.
    unfold move, get_coro in E. rewrite (read_ok _ _ _ X) in E. cbn [bind] in E. injection E as <-.
    apply (ginv_same (set_coro s c (Coro (c_code x) (c_hist x) Returned))); [|reflexivity..]. destruct (set_coro_ok s c x (Coro (c_code x) (c_hist x) Returned) I X) as (I2 & X2 & A2); [split; auto; exists []; now rewrite app_nil_r|].
    apply (ginv_quiet s); auto. intros g0 y0 Y0. apply (gquiet_adds _ _ _ _ [] X2 A2).
    + intros k z [i Ci]. cbn [set_coro set_coros w_coros]. destruct (Nat.eq_dec c k) as [<-|D].
      * rewrite (nth_upd_eq _ _ _ _ X), X. split; intros [= <-]; cbn in Ci; congruence.
      * now rewrite nth_upd_ne.
    + intros f f' F F'. cbn in F'. congruence.
Qed.
Lemma exec_g s l s' : good s -> ginv s -> (forall a, action code s l = Some a -> clean s a) -> exec code s l = Ok s' -> ginv s'.
Proof.
  intros G GI CA H. pose proof G as (I & _). unfold exec in H. unfold action in CA. destruct (w_mode s) as [|target|target w] eqn:M; destruct l as [a|tg|now|]; try (injection H as <-; exact GI).
  - bind_inv H. destruct a0. injection H as <-. exact (call_g _ _ _ _ I GI (CA _ eq_refl) E).
  - destruct (w_running s); injection H as <-; [auto|now apply (ginv_same s)].
  - destruct (target_done s target); [injection H as <-; now apply (ginv_same s)|]. eapply turn_g; eauto.
  - eapply body_g; eauto. intros a A. unfold action in A. rewrite M in A. auto.
Qed.
Lemma run_g ls : forall s s', good s -> ginv s -> only clean code s ls -> run code s ls = Ok s' -> good s' /\ ginv s'.
Proof.
  induction ls as [|l ls IH]; intros s s' G GI O H; cbn [run only] in *; [injection H as <-; auto|]. destruct O as [A O].
  destruct (exec_t code s l G) as (s1 & E & G1). { intros a Ha. rewrite Ha in A. apply A. }
  rewrite E in *. cbn [bind] in H. apply (IH s1); auto. apply (exec_g s l s1 G GI); auto. intros a Ha. now rewrite Ha in A.
Qed.
Lemma ginv_init : ginv new_loop.
Proof. split; intros [|g]; discriminate. Qed.
Lemma clean_ginv s : clean_reach code s -> good s /\ ginv s.
Proof. intros (ls & O & H). exact (run_g ls new_loop s good_init ginv_init O H). Qed.
End Code.
