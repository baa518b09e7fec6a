(** An invariant of the event loop that holds for all programs. *)
From Coq Require Import List ZArith Bool Lia Permutation.
From Verif.Common Require Import Result.
From Verif.Async Require Import Model Spec QueueProofs TimerProofs.
Import ListNotations.
Local Open Scope res_scope.

(** ** The queue as a list *)
Definition qok (q : queue) : Prop := exists l, repr q l.

Lemma follow_seg q l : forall p fuel, seg (q_nodes q) p l None -> length l <= fuel -> follow fuel q (hd_error l) = map (work_of q) l.
Proof.
  induction l as [|i l IH]; intros p fuel S F; [destruct fuel; reflexivity|].
  destruct fuel as [|fuel]; [cbn in F; lia|]. cbn [length] in F. destruct S as (n & N & P & X & S).
  cbn [follow hd_error map]. rewrite N. unfold work_of at 1. rewrite N. f_equal.
  assert (X' : n_next n = hd_error l) by (rewrite X; now destruct (hd_error l)). rewrite X'. apply (IH (Some i)); auto. lia.
Qed.
Lemma waiting_ok q l : repr q l -> waiting q = map (work_of q) l.
Proof.
  intros R. unfold waiting. rewrite (r_head _ _ R). apply (follow_seg q l None); [apply R|].
  apply nodup_bound; [apply R|]. intros i I. now apply (repr_bound _ _ _ R).
Qed.

Lemma enq_ok q w : qok q -> w_coro w <> None ->
  exists q', enqueue q w = Ok (length (q_nodes q), q') /\ qok q' /\ waiting q' = waiting q ++ [w]
    /\ length (q_nodes q') = S (length (q_nodes q))
    /\ work_of q' (length (q_nodes q)) = w
    /\ forall i, i < length (q_nodes q) -> work_of q' i = work_of q i.
Proof.
  intros [l R] H. destruct (enqueue_ok q l w R H) as (q' & E & R' & L & W & F). exists q'.
  split; auto. split; [eexists; eauto|]. split; [|auto]. rewrite (waiting_ok _ _ R'), (waiting_ok _ _ R), map_app. cbn [map].
  rewrite W. f_equal. apply map_ext_in. intros i I. apply F. now apply (repr_bound _ _ _ R).
Qed.
Lemma deq_ok q w ws : qok q -> waiting q = w :: ws ->
  exists q', dequeue q = Ok (w, q') /\ qok q' /\ waiting q' = ws /\ length (q_nodes q') = length (q_nodes q)
    /\ forall i, work_of q' i = work_of q i.
Proof.
  intros [l R] H. rewrite (waiting_ok _ _ R) in H. destruct l as [|i l]; [discriminate|]. injection H as <- <-.
  destruct (dequeue_ok q i l R) as (q' & E & R' & L & W). exists q'. split; auto. split; [eexists; eauto|]. split; auto.
  rewrite (waiting_ok _ _ R'). now apply map_ext.
Qed.
Lemma empty_ok q : qok q -> work_empty q = match waiting q with [] => true | _ => false end.
Proof. intros [l R]. rewrite (work_empty_ok q l R), (waiting_ok _ _ R). now destruct l. Qed.
Lemma canc_ok q i : qok q -> i < length (q_nodes q) -> w_coro (work_of q i) <> None ->
  exists q' e, cancel_node q i = Ok (q', e) /\ qok q' /\ dropped q q' i /\
   ((exists ws1 ws2, waiting q = ws1 ++ work_of q i :: ws2 /\ waiting q' = ws1 ++ ws2 /\ e = false) \/
    (waiting q' = waiting q /\ e = match waiting q with [] => false | _ => true end)).
Proof.
  intros [l R] B C. rewrite (waiting_ok _ _ R). destruct (in_dec Nat.eq_dec i l) as [I|NI].
  - apply in_split in I. destruct I as (l1 & l2 & ->).
    destruct (cancel_linked_ok _ _ _ _ R) as (q' & E & R' & D). exists q', false. split; auto. split; [eexists; eauto|]. split; auto.
    left. exists (map (work_of q) l1), (map (work_of q) l2). rewrite (waiting_ok _ _ R'), !map_app. cbn [map]. split; auto. split; auto.
    destruct D as (_ & _ & D). pose proof (r_nodup _ _ R) as ND. apply nodup_mid in ND.
    f_equal; apply map_ext_in; intros j J; apply D; intros ->; tauto.
  - destruct (cancel_loose_ok _ _ _ R NI B C) as (q' & E & R' & D). eexists q', _. split; [exact E|]. split; [eexists; eauto|]. split; auto.
    right. rewrite (waiting_ok _ _ R'). split; [|now destruct l].
    destruct D as (_ & _ & D). apply map_ext_in. intros j J. apply D. intros ->. auto.
Qed.
Lemma sched_ok q c : qok q ->
  scheduled (S (length (q_nodes q))) q (q_head q) (Some c) =
  Ok (existsb (fun w => match w_coro w with Some a => a =? c | None => false end) (waiting q)).
Proof.
  intros [l R]. rewrite (scheduled_ok q l c R), (waiting_ok _ _ R). f_equal.
  induction l as [|i l IH]; auto. cbn [existsb map].
  f_equal. clear. induction l as [|i l IH]; auto. cbn [existsb map]. now rewrite IH.
Qed.

(** ** The invariant *)
Definition wf_work (futs : list future) (coros : list coro) (w : work) : Prop :=
  exists c x, w_coro w = Some c /\ nth_error coros c = Some x /\
    forall t, w_task w = Some t -> exists f, nth_error futs t = Some f /\ f_task f = Some c.
Definition wf (s : world) : work -> Prop := wf_work (w_futs s) (w_coros s).

Record wf_fut (s : world) (f : future) : Prop := {
  wf_done : is_done f = true -> f_cbs f = [];
  wf_cap : length (f_cbs f) <= f_cap f;
  wf_cbs : Forall (wf s) (f_cbs f);
  wf_coro : forall c, f_task f = Some c -> c < length (w_coros s);
  wf_wait : forall j, f_wait_task f = Some j -> j < length (w_futs s) }.
Record wf_gather (s : world) (g : gather) : Prop := {
  wg_outer : g_outer g < length (w_futs s);
  wg_futs : forall k, In k (g_futs g) -> k < g_outer g;
  wg_len : length (g_results g) = length (g_futs g) }.
Definition wf_code (s : world) (c : coro) : Prop :=
  match c_code c with
  | CUser _ => True
  | CGather g i => exists x k, nth_error (w_gathers s) g = Some x /\ nth_error (g_futs x) i = Some k
  | CGatherCancel g => exists x, nth_error (w_gathers s) g = Some x
  end.

(** what a handle names: a callback of user code, or nothing *)
Definition by_user (s : world) (w : work) : Prop :=
  w_task w = None /\ forall c, w_coro w = Some c -> exists x n, nth_error (w_coros s) c = Some x /\ c_code x = CUser n.

Record inv (s : world) : Prop := {
  i_queue : qok (w_queue s);
  i_timers : timers_ok (w_timers s);
  i_ready : Forall (wf s) (ready s);
  i_timer : forall k x, nth_error (ts_objs (w_timers s)) k = Some x -> w_coro (t_work x) <> None -> wf s (t_work x) /\ w_task (t_work x) = None;
  i_futs : forall i f, nth_error (w_futs s) i = Some f -> wf_fut s f;
  i_gathers : forall g x, nth_error (w_gathers s) g = Some x -> wf_gather s x;
  i_handles : forall h n, nth_error (w_handles s) h = Some n -> n < length (q_nodes (w_queue s)) /\ by_user s (work_of (w_queue s) n);
  i_curr : forall w, w_curr s = Some w -> wf s w;
  i_mode : forall target w, w_mode s = Inside target w -> w_curr s = Some w;
  i_codes : forall c x, nth_error (w_coros s) c = Some x -> wf_code s x }.

(** ** How the state evolves while a body runs *)
Definition fext (f f' : future) : Prop := f_task f' = f_task f /\ (is_done f = true -> f_state f' = f_state f).
Definition gext (g g' : gather) : Prop := g_outer g' = g_outer g /\ g_futs g' = g_futs g.
Definition cext (c c' : coro) : Prop := c_code c' = c_code c /\ exists r, c_hist c' = c_hist c ++ r.
Definition lext {A} (R : A -> A -> Prop) (l l' : list A) : Prop :=
  forall i x, nth_error l i = Some x -> exists x', nth_error l' i = Some x' /\ R x x'.
Record ext (s s' : world) : Prop := {
  e_futs : lext fext (w_futs s) (w_futs s');
  e_coros : lext cext (w_coros s) (w_coros s');
  e_gathers : lext gext (w_gathers s) (w_gathers s') }.

Definition plain (w : work) : bool := match w_task w with None => true | Some _ => false end.
(** [new] is added to the work that is ready *)
Record adds (s s' : world) (new : list work) : Prop := {
  a_ready : ready s' = ready s ++ new;
  a_ran : w_ran s' = w_ran s;
  a_cbs : forall i f, nth_error (w_futs s) i = Some f -> is_done f = false ->
    exists f' more, nth_error (w_futs s') i = Some f' /\
      if is_done f' then exists a b, filter plain new = a ++ filter plain (f_cbs f ++ more) ++ b
      else f_cbs f' = f_cbs f ++ more }.
Definition grows (s s' : world) : Prop := ext s s' /\ exists new, adds s s' new.

Lemma lext_refl {A} (R : A -> A -> Prop) l : (forall x, R x x) -> lext R l l.
Proof. intros H i x X. eauto. Qed.
Lemma lext_trans {A} (R : A -> A -> Prop) a b c : (forall x y z, R x y -> R y z -> R x z) -> lext R a b -> lext R b c -> lext R a c.
Proof. intros T H1 H2 i x X. destruct (H1 i x X) as (y & Y & XY). destruct (H2 i y Y) as (z & Z & YZ). eauto. Qed.
Lemma lext_len {A} (R : A -> A -> Prop) l l' : lext R l l' -> length l <= length l'.
Proof.
  intros H. destruct (le_lt_dec (length l) (length l')) as [|L]; auto.
  destruct (nth_error l (length l')) as [x|] eqn:E; [|apply nth_error_None in E; lia].
  destruct (H _ _ E) as (y & Y & _). assert (length l' < length l') by (apply nth_error_Some; congruence). lia.
Qed.
Lemma lext_app {A} (R : A -> A -> Prop) l x : (forall x, R x x) -> lext R l (l ++ x).
Proof. intros H i y Y. exists y. split; auto. rewrite nth_error_app1; auto. apply nth_error_Some. congruence. Qed.
Lemma lext_upd {A} (R : A -> A -> Prop) l i x y : (forall x, R x x) -> nth_error l i = Some x -> R x y -> lext R l (upd l i y).
Proof.
  intros H X XY j z Z. destruct (Nat.eq_dec i j) as [<-|D].
  - exists y. rewrite (nth_upd_eq _ _ _ _ X). rewrite X in Z. injection Z as <-. auto.
  - exists z. rewrite nth_upd_ne; auto.
Qed.
Lemma fext_refl f : fext f f. Proof. split; auto. Qed.
Lemma gext_refl f : gext f f. Proof. split; auto. Qed.
Lemma cext_refl f : cext f f. Proof. split; auto. exists []. now rewrite app_nil_r. Qed.
Lemma is_done_state f f' : f_state f' = f_state f -> is_done f' = is_done f.
Proof. unfold is_done. now intros ->. Qed.
Lemma fext_trans a b c : fext a b -> fext b c -> fext a c.
Proof.
  intros [T1 D1] [T2 D2]. split; [congruence|]. intros H. rewrite D2; [auto|]. rewrite (is_done_state _ _ (D1 H)). auto.
Qed.
Lemma gext_trans a b c : gext a b -> gext b c -> gext a c. Proof. intros [? ?] [? ?]. split; congruence. Qed.
Lemma cext_trans a b c : cext a b -> cext b c -> cext a c.
Proof. intros [C1 [r H1]] [C2 [r' H2]]. split; [congruence|]. exists (r ++ r'). rewrite H2, H1. now rewrite app_assoc. Qed.
Lemma ext_refl s : ext s s.
Proof. split; apply lext_refl; auto using fext_refl, gext_refl, cext_refl. Qed.
Lemma ext_trans a b c : ext a b -> ext b c -> ext a c.
Proof. intros [] []. split; eapply lext_trans; eauto using fext_trans, gext_trans, cext_trans. Qed.

Lemma adds_trans a b c n1 n2 : ext a b -> ext b c -> adds a b n1 -> adds b c n2 -> adds a c (n1 ++ n2).
Proof.
  intros E1 E2 A1 A2. split.
  - rewrite (a_ready _ _ _ A2), (a_ready _ _ _ A1). now rewrite app_assoc.
  - rewrite (a_ran _ _ _ A2). apply A1.
  - intros i f F P. destruct (a_cbs _ _ _ A1 i f F P) as (f1 & m1 & F1 & C1).
    destruct (is_done f1) eqn:D1.
    + destruct C1 as (x & y & C1). destruct (e_futs _ _ E2 i f1 F1) as (f2 & F2 & _ & S2).
      exists f2, m1. split; auto. rewrite (is_done_state _ _ (S2 D1)), D1. exists x, (y ++ filter plain n2).
      rewrite filter_app, C1. now rewrite <- !app_assoc.
    + destruct (a_cbs _ _ _ A2 i f1 F1 D1) as (f2 & m2 & F2 & C2). exists f2, (m1 ++ m2). split; auto.
      rewrite C1 in C2. destruct (is_done f2).
      * destruct C2 as (x & y & C2). exists (filter plain n1 ++ x), y. rewrite filter_app, C2. now rewrite <- !app_assoc.
      * rewrite C2. now rewrite app_assoc.
Qed.
Lemma grows_refl s : grows s s.
Proof.
  split; [apply ext_refl|]. exists []. split; auto; [now rewrite app_nil_r|].
  intros i f F P. exists f, []. rewrite P, app_nil_r. auto.
Qed.
Lemma grows_trans a b c : grows a b -> grows b c -> grows a c.
Proof.
  intros [E1 [n1 A1]] [E2 [n2 A2]]. split; [eapply ext_trans; eauto|]. exists (n1 ++ n2). eapply adds_trans; eauto.
Qed.

(** ** Monotonicity *)
Lemma wf_ext s s' w : ext s s' -> wf s w -> wf s' w.
Proof.
  intros E (c & x & C & X & T). destruct (e_coros _ _ E c x X) as (x' & X' & _).
  exists c, x'. split; auto. split; auto. intros t Ht. destruct (T t Ht) as (f & F & FT).
  destruct (e_futs _ _ E t f F) as (f' & F' & E' & _). exists f'. split; congruence.
Qed.
Lemma wf_fut_ext s s' f : ext s s' -> wf_fut s f -> wf_fut s' f.
Proof.
  intros E [D C B T W]. split; auto.
  - eapply Forall_impl; [|exact B]. intros w. now apply wf_ext.
  - intros c Hc. specialize (T c Hc). pose proof (lext_len _ _ _ (e_coros _ _ E)). lia.
  - intros j Hj. specialize (W j Hj). pose proof (lext_len _ _ _ (e_futs _ _ E)). lia.
Qed.
Lemma wf_gather_ext s s' g : ext s s' -> wf_gather s g -> wf_gather s' g.
Proof. intros E [O F L]. split; auto. pose proof (lext_len _ _ _ (e_futs _ _ E)). lia. Qed.
Lemma wf_code_ext s s' c c' : ext s s' -> c_code c' = c_code c -> wf_code s c -> wf_code s' c'.
Proof.
  intros E Ec. unfold wf_code. rewrite Ec. destruct (c_code c) as [n|g i|g]; auto.
  - intros (x & k & X & K). destruct (e_gathers _ _ E g x X) as (x' & X' & _ & F). exists x', k. rewrite F. auto.
  - intros (x & X). destruct (e_gathers _ _ E g x X) as (x' & X' & _). eauto.
Qed.

(** ** Preserving the invariant *)
Lemma inv_step s s' : inv s -> ext s s' ->
  qok (w_queue s') -> timers_ok (w_timers s') ->
  (forall w, In w (ready s') -> In w (ready s) \/ wf s' w) ->
  (forall k x, nth_error (ts_objs (w_timers s')) k = Some x -> w_coro (t_work x) <> None ->
     nth_error (ts_objs (w_timers s)) k = Some x \/ (wf s' (t_work x) /\ w_task (t_work x) = None)) ->
  (forall i f, nth_error (w_futs s') i = Some f -> nth_error (w_futs s) i = Some f \/ wf_fut s' f) ->
  (forall g x, nth_error (w_gathers s') g = Some x -> nth_error (w_gathers s) g = Some x \/ wf_gather s' x) ->
  (forall n, n < length (q_nodes (w_queue s)) -> n < length (q_nodes (w_queue s')) /\
     (work_of (w_queue s') n = work_of (w_queue s) n \/ work_of (w_queue s') n = no_work)) ->
  (forall h n, nth_error (w_handles s') h = Some n -> nth_error (w_handles s) h = Some n \/
     (n < length (q_nodes (w_queue s')) /\ by_user s' (work_of (w_queue s') n))) ->
  (forall w, w_curr s' = Some w -> w_curr s = Some w \/ wf s' w) ->
  (forall target w, w_mode s' = Inside target w -> w_curr s' = Some w) ->
  (forall c x, nth_error (w_coros s') c = Some x ->
     (exists x0, nth_error (w_coros s) c = Some x0 /\ c_code x = c_code x0) \/ wf_code s' x) ->
  inv s'.
Proof.
  intros I E Q T R TT F G N H C M K. split; auto.
  - apply Forall_forall. intros w W. destruct (R w W) as [W'|]; auto. eapply wf_ext; [eassumption|].
    pose proof (i_ready _ I) as A. rewrite Forall_forall in A. auto.
  - intros k x X NC. destruct (TT k x X NC) as [X'|]; auto. destruct (i_timer _ I k x X' NC). split; auto. eapply wf_ext; eauto.
  - intros i f X. destruct (F i f X) as [X'|]; auto. eapply wf_fut_ext; eauto. eapply i_futs; eauto.
  - intros g x X. destruct (G g x X) as [X'|]; auto. eapply wf_gather_ext; eauto. eapply i_gathers; eauto.
  - intros h n X. destruct (H h n X) as [X'|]; auto. destruct (i_handles _ I h n X') as [B [Z1 Z2]]. destruct (N n B) as [B' [-> | ->]]; split; auto; split; auto.
    + intros c Hc. destruct (Z2 c Hc) as (x & m & X0 & Cx). destruct (e_coros _ _ E c x X0) as (x' & X1 & Cx' & _). exists x', m. split; congruence.
    + intros c Hc. discriminate Hc.
  - intros w X. destruct (C w X) as [X'|]; auto. eapply wf_ext; eauto. eapply i_curr; eauto.
  - intros c x X. destruct (K c x X) as [(x0 & X0 & E0)|]; auto. eapply wf_code_ext; eauto. eapply i_codes; eauto.
Qed.

Lemma inv_init : inv new_loop.
Proof.
  assert (N : forall A i (x : A), nth_error [] i <> Some x) by (intros A [|i] x; discriminate).
  split; cbn; try discriminate; try (intros; exfalso; eapply N; eassumption).
  - exists []. apply repr_init.
  - apply timers_init.
  - constructor.
Qed.

(** Everything but the queue stays: [call_soon_work] *)
Lemma soon_ok s w : inv s -> wf s w -> exists n s', call_soon_work s w = Ok (n, s') /\ inv s'
  /\ ext s s' /\ adds s s' [w]
  /\ (exists q, s' = set_queue s q) /\ n = length (q_nodes (w_queue s)) /\ n < length (q_nodes (w_queue s')) /\ work_of (w_queue s') n = w
  /\ ready s' = ready s ++ [w].
Proof.
  intros I W. assert (NC : w_coro w <> None) by (destruct W as (c & x & -> & _); discriminate).
  destruct (enq_ok _ w (i_queue _ I) NC) as (q' & E & Q & R & L & WN & WO).
  unfold call_soon_work. rewrite E. cbn [bind]. eexists _, _. split; [reflexivity|].
  assert (X : ext s (set_queue s q')) by (split; apply lext_refl; auto using fext_refl, gext_refl, cext_refl).
  assert (RR : ready (set_queue s q') = ready s ++ [w]) by exact R.
  split; [|split; [exact X|]].
  - apply (inv_step s _ I X); cbn [set_queue w_queue w_timers w_futs w_gathers w_handles w_curr w_mode w_coros]; auto; try apply I.
    + intros v V. rewrite RR in V. apply in_app_or in V. destruct V as [V|[<-|[]]]; auto.
    + intros n B. split; [lia|]. left. auto.
    + intros c x Hx. left. exists x. auto.
  - split; [|split; [eauto|split; [reflexivity|split; [cbn; lia|split; [exact WN|exact RR]]]]]. split; auto.
    intros i f F P. exists f, []. cbn. rewrite P, app_nil_r. auto.
Qed.

Lemma new_coro_ok s c : inv s -> wf_code s (Coro c [] Start) ->
  inv (snd (new_coro s c)) /\ ext s (snd (new_coro s c)) /\ adds s (snd (new_coro s c)) []
  /\ wf (snd (new_coro s c)) (W (Some (length (w_coros s))) None)
  /\ nth_error (w_coros (snd (new_coro s c))) (length (w_coros s)) = Some (Coro c [] Start).
Proof.
  intros I WC. unfold new_coro. cbn [snd].
  set (s' := set_coros s (w_coros s ++ [Coro c [] Start])).
  assert (X : ext s s') by (split; cbn [s' set_coros w_futs w_coros w_gathers]; [|apply lext_app|]; try apply lext_refl; auto using fext_refl, gext_refl, cext_refl).
  assert (N : nth_error (w_coros s') (length (w_coros s)) = Some (Coro c [] Start)).
  { cbn [s' set_coros w_coros]. rewrite nth_error_app2 by auto. now rewrite Nat.sub_diag. }
  split; [|split; [exact X|split; [|split; [|exact N]]]].
  - apply (inv_step s _ I X); cbn [s' set_coros w_queue w_timers w_futs w_gathers w_handles w_curr w_mode w_coros]; auto; try apply I.
    intros k x K. destruct (Nat.lt_ge_cases k (length (w_coros s))) as [B|B].
    + rewrite nth_error_app1 in K by auto. left. eauto.
    + rewrite nth_error_app2 in K by auto. right. destruct (k - length (w_coros s)) as [|m]; [|destruct m; discriminate].
      injection K as <-. eapply wf_code_ext; eauto.
  - split; cbn; auto; [now rewrite app_nil_r|]. intros i f F P. exists f, []. rewrite P, app_nil_r. auto.
  - exists (length (w_coros s)). eexists. split; [reflexivity|]. split; [exact N|]. discriminate.
Qed.

Lemma new_future_ok s t : inv s -> (forall c, t = Some c -> c < length (w_coros s)) ->
  inv (snd (new_future s t)) /\ ext s (snd (new_future s t)) /\ adds s (snd (new_future s t)) [].
Proof.
  intros I WC. unfold new_future. cbn [snd].
  set (s' := set_futs s (w_futs s ++ [Fut Pending [] 0 t None None])).
  assert (X : ext s s') by (split; cbn [s' set_futs w_futs w_coros w_gathers]; [apply lext_app| |]; try apply lext_refl; auto using fext_refl, gext_refl, cext_refl).
  split; [|split; [exact X|]].
  - apply (inv_step s _ I X); cbn [s' set_futs w_queue w_timers w_futs w_gathers w_handles w_curr w_mode w_coros]; auto; try apply I.
    + intros k x K. destruct (Nat.lt_ge_cases k (length (w_futs s))) as [B|B].
      * rewrite nth_error_app1 in K by auto. auto.
      * rewrite nth_error_app2 in K by auto. right. destruct (k - length (w_futs s)) as [|m]; [|destruct m; discriminate].
        injection K as <-. split; cbn; auto; discriminate.
    + intros c x K. left. eauto.
  - split; cbn; auto; [now rewrite app_nil_r|]. intros i f F P. exists f, []. rewrite P, app_nil_r. split; auto.
    rewrite nth_error_app1; auto. apply nth_error_Some. congruence.
Qed.

(** A future is replaced *)
Lemma set_fut_inv s i f f' : inv s -> nth_error (w_futs s) i = Some f -> fext f f' -> wf_fut s f' ->
  inv (set_fut s i f') /\ ext s (set_fut s i f').
Proof.
  intros I F FE WF.
  assert (X : ext s (set_fut s i f')).
  { split; cbn [set_fut set_futs w_futs w_coros w_gathers]; [eapply lext_upd; eauto using fext_refl| |]; apply lext_refl; auto using gext_refl, cext_refl. }
  split; auto. apply (inv_step s _ I X); cbn [set_fut set_futs w_queue w_timers w_futs w_gathers w_handles w_curr w_mode w_coros]; auto; try apply I.
  - intros k x K. rewrite nth_upd in K. destruct (Nat.eqb_spec i k) as [<-|D]; auto.
    destruct (i <? length (w_futs s)); [|discriminate]. injection K as <-. right. eapply wf_fut_ext; eauto.
  - intros c x K. left. eauto.
Qed.
(** ... with the same state and callbacks *)
Lemma set_wait_ok s i f wt wl : inv s -> nth_error (w_futs s) i = Some f -> (forall j, wt = Some j -> j < length (w_futs s)) ->
  let s' := set_fut s i (Fut (f_state f) (f_cbs f) (f_cap f) (f_task f) wt wl) in inv s' /\ ext s s' /\ adds s s' [].
Proof.
  intros I F W. destruct (set_fut_inv s i f (Fut (f_state f) (f_cbs f) (f_cap f) (f_task f) wt wl) I F) as [I' X].
  - split; auto.
  - destruct (i_futs _ I i f F). split; auto.
  - split; auto. split; auto. split; auto; [unfold ready; cbn; now rewrite app_nil_r|].
    intros j g G P. cbn [set_fut set_futs w_futs]. destruct (Nat.eq_dec i j) as [<-|D].
    + rewrite (nth_upd_eq _ _ _ _ F). eexists _, []. split; [reflexivity|]. rewrite F in G. injection G as <-.
      unfold is_done in *. cbn [f_state f_cbs]. destruct (f_state f); try discriminate. now rewrite app_nil_r.
    + rewrite nth_upd_ne by auto. exists g, []. rewrite P, app_nil_r. auto.
Qed.
Lemma read_ok {A} (l : list A) i x : nth_error l i = Some x -> read l i = Ok x.
Proof. unfold read. now intros ->. Qed.

Lemma push_cb_ok s i f w : inv s -> nth_error (w_futs s) i = Some f -> is_done f = false -> wf s w ->
  exists cap, push_callback s i w = Ok (set_fut s i (Fut (f_state f) (f_cbs f ++ [w]) cap (f_task f) (f_wait_task f) (f_wait_lock f)))
   /\ let s' := set_fut s i (Fut (f_state f) (f_cbs f ++ [w]) cap (f_task f) (f_wait_task f) (f_wait_lock f)) in inv s' /\ ext s s' /\ adds s s' [].
Proof.
  intros I F P WF. pose proof (i_futs _ I i f F) as [D C B T Wt]. unfold push_callback, get_fut. rewrite (read_ok _ _ _ F). cbn [bind].
  set (m := if f_cap f =? 0 then 1 else if f_cap f <=? length (f_cbs f) then f_cap f * 2 else f_cap f).
  assert (Bm : length (f_cbs f) < m).
  { unfold m. destruct (Nat.eqb_spec (f_cap f) 0); [lia|]. destruct (Nat.leb_spec (f_cap f) (length (f_cbs f))); lia. }
  exists m. replace (length (f_cbs f) <? m) with true by (symmetry; now apply Nat.ltb_lt). split; [reflexivity|].
  clearbody m. cbv zeta.
  destruct (set_fut_inv s i f (Fut (f_state f) (f_cbs f ++ [w]) m (f_task f) (f_wait_task f) (f_wait_lock f)) I F) as [I' X].
  - split; auto.
  - split; cbn; auto.
    + unfold is_done in *. cbn. now rewrite P.
    + rewrite app_length. cbn. lia.
    + apply Forall_app. split; auto.
  - split; auto. split; auto. split; auto; [unfold ready; cbn; now rewrite app_nil_r|].
    intros j g G Pg. cbn [set_fut set_futs w_futs]. destruct (Nat.eq_dec i j) as [<-|Dj].
    + rewrite (nth_upd_eq _ _ _ _ F). eexists _, [w]. split; [reflexivity|]. rewrite F in G. injection G as <-.
      unfold is_done in *. cbn [f_state f_cbs]. now rewrite P.
    + rewrite nth_upd_ne by auto. exists g, []. rewrite Pg, app_nil_r. auto.
Qed.

(** only the queue and the futures change *)
Definition frame (s s' : world) : Prop :=
  w_timers s' = w_timers s /\ w_coros s' = w_coros s /\ w_gathers s' = w_gathers s /\ w_handles s' = w_handles s /\
  w_curr s' = w_curr s /\ w_running s' = w_running s /\ w_stop s' = w_stop s /\ w_mode s' = w_mode s /\ w_ran s' = w_ran s.
Lemma frame_refl s : frame s s. Proof. repeat split. Qed.
Lemma frame_trans a b c : frame a b -> frame b c -> frame a c.
Proof. unfold frame. intuition congruence. Qed.
Lemma frame_fut s i f : frame s (set_fut s i f). Proof. repeat split. Qed.
Lemma frame_queue s q : frame s (set_queue s q). Proof. repeat split. Qed.

Lemma adds_nil_l s s1 s' new : ext s s1 -> ext s1 s' -> adds s s1 [] -> adds s1 s' new -> adds s s' new.
Proof. intros E1 E2 A1 A2. exact (adds_trans _ _ _ [] new E1 E2 A1 A2). Qed.
Lemma adds_nil_r s s1 s' new : ext s s1 -> ext s1 s' -> adds s s1 new -> adds s1 s' [] -> adds s s' new.
Proof. intros E1 E2 A1 A2. rewrite <- (app_nil_r new). exact (adds_trans _ _ _ new [] E1 E2 A1 A2). Qed.

Lemma sched_cb_ok i cbs : forall s, inv s -> Forall (wf s) cbs ->
  exists s' new, schedule_callbacks s i cbs = Ok s' /\ inv s' /\ ext s s' /\ adds s s' new /\ filter plain new = filter plain cbs /\ frame s s'.
Proof.
  induction cbs as [|w cbs IH]; intros s I F.
  - exists s, []. cbn. destruct (grows_refl s) as [E _]. split; auto. split; auto. split; auto. split; auto using frame_refl.
    split; auto; [now rewrite app_nil_r|]. intros j f G P. exists f, []. rewrite P, app_nil_r. auto.
  - inversion F as [|? ? Ww Fc]; subst. cbn [schedule_callbacks]. destruct (w_task w) as [t|] eqn:Et.
    + destruct Ww as (c & x & Hc & Hx & Ht). destruct (Ht t Et) as (f & Hf & Hft).
      unfold get_fut. rewrite (read_ok _ _ _ Hf). cbn [bind].
      assert (Pw : plain w = false) by (unfold plain; now rewrite Et).
      destruct (match f_wait_lock f with Some l => l =? i | None => false end).
      * destruct (set_wait_ok s t f None None I Hf) as (I1 & E1 & A1); [discriminate|].
        set (s1 := set_fut s t _) in *.
        assert (W1 : wf s1 w) by (eapply wf_ext; eauto; exists c, x; auto).
        destruct (soon_ok s1 w I1 W1) as (n & s2 & E & I2 & E2 & A2 & [q Eq] & _). rewrite E. cbn [bind].
        assert (E12 : ext s s2) by (eapply ext_trans; eauto).
        destruct (IH s2 I2) as (s3 & new & E' & I3 & E3 & A3 & N3 & F3).
        { eapply Forall_impl; [|exact Fc]. intros v. now apply wf_ext. }
        exists s3, ([w] ++ new). split; auto. split; auto. split; [eapply ext_trans; eauto|]. split; [|split].
        -- eapply adds_nil_l; [exact E1|eapply ext_trans; eauto|exact A1|]. eapply adds_trans; eauto.
        -- cbn [app filter]. rewrite Pw. auto.
        -- eapply frame_trans; [apply frame_fut|]. eapply frame_trans; [|exact F3]. rewrite Eq. apply frame_queue.
      * destruct (IH s I Fc) as (s3 & new & E' & I3 & E3 & A3 & N3 & F3). exists s3, new. split; auto. split; auto. split; auto. split; auto.
        split; auto. cbn [filter]. now rewrite Pw.
    + assert (Pw : plain w = true) by (unfold plain; now rewrite Et).
      destruct (soon_ok s w I Ww) as (n & s2 & E & I2 & E2 & A2 & [q Eq] & _). rewrite E. cbn [bind].
      destruct (IH s2 I2) as (s3 & new & E' & I3 & E3 & A3 & N3 & F3).
      { eapply Forall_impl; [|exact Fc]. intros v. now apply wf_ext. }
      exists s3, ([w] ++ new). split; auto. split; auto. split; [eapply ext_trans; eauto|]. split; [|split].
      * eapply adds_trans; eauto.
      * cbn [app filter]. rewrite Pw. now f_equal.
      * eapply frame_trans; [|exact F3]. rewrite Eq. apply frame_queue.
Qed.

Lemma resolve_ok s i f st : inv s -> nth_error (w_futs s) i = Some f -> is_done f = false -> st <> Pending ->
  exists s' new f', resolve s i st = Ok s' /\ inv s' /\ ext s s' /\ adds s s' new /\ frame s s'
    /\ nth_error (w_futs s') i = Some f' /\ f_state f' = st.
Proof.
  intros I F P NP. unfold resolve, get_fut. rewrite (read_ok _ _ _ F). cbn [bind].
  set (f0 := Fut st [] 0 (f_task f) (f_wait_task f) (f_wait_lock f)).
  pose proof (i_futs _ I i f F) as [D C B T Wt].
  assert (Dn : is_done f0 = true) by (unfold is_done, f0; cbn; now destruct st).
  destruct (set_fut_inv s i f f0 I F) as [I1 E1].
  { split; auto. congruence. }
  { split; cbn; auto. }
  set (s1 := set_fut s i f0) in *.
  destruct (sched_cb_ok i (f_cbs f) s1 I1) as (s' & new & E & I' & E' & A' & N' & F').
  { eapply Forall_impl; [|exact B]. intros v. now apply wf_ext. }
  assert (N1 : nth_error (w_futs s1) i = Some f0) by (unfold s1; cbn [set_fut set_futs w_futs]; eapply nth_upd_eq; eauto).
  destruct (e_futs _ _ E' i f0 N1) as (f' & Hf' & _ & S'). specialize (S' Dn).
  exists s', new, f'. split; auto. split; auto. split; [eapply ext_trans; eauto|]. split; [|split; [eapply frame_trans; [apply frame_fut|exact F']|auto]].
  split; [rewrite (a_ready _ _ _ A'); reflexivity|rewrite (a_ran _ _ _ A'); reflexivity|].
  intros j g G Pg. destruct (Nat.eq_dec i j) as [<-|Dj].
  - rewrite F in G. injection G as <-. exists f', []. split; auto. rewrite (is_done_state _ _ S'), Dn. exists [], [].
    rewrite N'. cbn. now rewrite !app_nil_r.
  - destruct (a_cbs _ _ _ A' j g) as (g' & m & G' & C'); auto.
    + unfold s1. cbn [set_fut set_futs w_futs]. now rewrite nth_upd_ne.
    + eauto.
Qed.

Lemma add_cb_ok s i f c : inv s -> nth_error (w_futs s) i = Some f -> wf_code s (Coro c [] Start) ->
  exists s', add_done_callback s i c = Ok s' /\ inv s' /\ ext s s' /\ (exists new, adds s s' new)
   /\ w_coros s' = w_coros s ++ [Coro c [] Start] /\ w_gathers s' = w_gathers s.
Proof.
  intros I F WC. unfold add_done_callback, get_fut. rewrite (read_ok _ _ _ F). cbn [bind].
  destruct (new_coro_ok s c I WC) as (I1 & E1 & A1 & W1 & N1).
  destruct (new_coro s c) as [k s1] eqn:En. cbn [snd] in *. unfold new_coro in En. injection En as <- <-.
  destruct (is_done f) eqn:D.
  - destruct (soon_ok _ _ I1 W1) as (n & s2 & E & I2 & E2 & A2 & [q Eq] & _). rewrite E. cbn [bind].
    exists s2. split; auto. split; auto. split; [eapply ext_trans; eauto|]. split; [eexists; eapply adds_trans; eauto|]. subst s2. auto.
  - destruct (push_cb_ok _ i f _ I1 F D W1) as (cap & E & I2 & E2 & A2). rewrite E.
    eexists. split; [reflexivity|]. split; auto. split; [eapply ext_trans; eauto|]. split; [eexists; eapply adds_trans; eauto|]. auto.
Qed.

(** ** What is left when nothing is undefined *)
Definition post {A} (r : res A) (P : A -> Prop) : Prop :=
  match r with Ok a => P a | Undef => True | _ => False end.
Lemma post_bind {A B} (m : res A) (k : A -> res B) P : post m (fun a => post (k a) P) -> post (bind m k) P.
Proof. destruct m; cbn; auto. Qed.
Lemma post_mono {A} (m : res A) (P Q : A -> Prop) : post m P -> (forall a, P a -> Q a) -> post m Q.
Proof. destruct m; cbn; auto. Qed.
Lemma post_ok {A} (m : res A) P : (exists a, m = Ok a /\ P a) -> post m P.
Proof. intros (a & -> & H). exact H. Qed.

Lemma no_dup_ok s w : inv s -> wf s w -> exists s', call_soon_no_duplicate s w = Ok s' /\ inv s' /\ grows s s' /\ frame s s' /\ w_futs s' = w_futs s.
Proof.
  intros I W. unfold call_soon_no_duplicate. pose proof W as (c & x & Hc & _). rewrite Hc.
  rewrite (sched_ok _ c (i_queue _ I)). cbn [bind]. destruct (existsb _ _).
  - exists s. split; auto. split; auto. split; [apply grows_refl|]. split; auto using frame_refl.
  - destruct (soon_ok s w I W) as (n & s' & E & I' & E' & A' & [q Eq] & _). rewrite E. cbn [bind].
    exists s'. split; auto. split; auto. split; [split; eauto|]. split; [rewrite Eq; apply frame_queue|now rewrite Eq].
Qed.

Lemma cancel_ok : forall fuel held s i, inv s -> i < length (w_futs s) ->
  NoDup held -> (forall j, In j held -> j < length (w_futs s)) -> length (w_futs s) < fuel + length held ->
  post (cancel_future fuel held s i) (fun p => inv (snd p) /\ grows s (snd p) /\ frame s (snd p) /\ length (w_futs (snd p)) = length (w_futs s)).
Proof.
  induction fuel as [|fuel IH]; intros held s i I Bi ND BH BF.
  - pose proof (nodup_bound held _ ND BH). lia.
  - cbn [cancel_future]. destruct (existsb (Nat.eqb i) held) eqn:Eh; [exact Logic.I|].
    destruct (nth_error (w_futs s) i) as [f|] eqn:F; [|apply nth_error_None in F; lia].
    unfold get_fut at 1. rewrite (read_ok _ _ _ F). cbn [bind]. destruct (is_done f) eqn:D.
    { cbn. split; auto. split; [apply grows_refl|]. split; auto using frame_refl. }
    destruct (resolve_ok s i f Cancelled I F D) as (s1 & new & f1 & E1 & I1 & X1 & A1 & Fr1 & F1 & S1); [discriminate|].
    rewrite E1. cbn [bind].
    assert (L1 : length (w_futs s1) = length (w_futs s)).
    { (* resolve does not create futures *)
      revert E1. unfold resolve, get_fut. rewrite (read_ok _ _ _ F). cbn [bind]. clear.
      set (s0 := set_fut s i _). assert (L0 : length (w_futs s0) = length (w_futs s)) by (cbn; apply upd_length). clearbody s0.
      revert s0 L0. induction (f_cbs f) as [|w cbs IH]; intros s0 L0; cbn [schedule_callbacks].
      - intros [= <-]. auto.
      - destruct (w_task w) as [t|].
        + unfold get_fut, read. destruct (nth_error (w_futs s0) t) as [f'|]; [|discriminate]. cbn [bind].
          destruct (match f_wait_lock f' with Some l => l =? i | None => false end); [|now apply IH].
          unfold call_soon_work. destruct (enqueue _ w) as [[n q]| | |]; try discriminate. cbn [bind]. apply IH. cbn. now rewrite upd_length.
        + unfold call_soon_work. destruct (enqueue _ w) as [[n q]| | |]; try discriminate. cbn [bind]. apply IH. auto. }
    assert (T1 : f_task f1 = f_task f).
    { destruct (e_futs _ _ X1 i f F) as (f1' & F1' & T & _). congruence. }
    destruct (f_task f) as [c|] eqn:Et; [|cbn; split; auto; split; [split; eauto|]; auto].
    unfold get_fut at 1. rewrite (read_ok _ _ _ F1). cbn [bind].
    assert (WW : forall s', ext s s' -> wf s' (W (Some c) (Some i))).
    { intros s' X. destruct (nth_error (w_coros s) c) as [x|] eqn:Hx.
      - eapply wf_ext; [exact X|]. exists c, x. split; auto. split; auto. intros t [= <-]. eauto.
      - apply nth_error_None in Hx. pose proof (wf_coro _ _ (i_futs _ I i f F) c Et). lia. }
    assert (FIN : forall s2, inv s2 -> grows s s2 -> frame s s2 -> length (w_futs s2) = length (w_futs s) ->
        post (s <- call_soon_no_duplicate s2 (W (Some c) (Some i)) ;; Ok (true, s))
          (fun p => inv (snd p) /\ grows s (snd p) /\ frame s (snd p) /\ length (w_futs (snd p)) = length (w_futs s))).
    { intros s2 I2 G2 Fr2 L2. destruct (no_dup_ok s2 (W (Some c) (Some i)) I2) as (s3 & E3 & I3 & G3 & Fr3 & L3); [apply WW; apply G2|].
      rewrite E3. cbn. split; auto. split; [eapply grows_trans; eauto|]. split; [eapply frame_trans; eauto|]. rewrite L3. auto. }
    destruct (f_wait_task f1) as [j|] eqn:Ej.
    + apply post_bind. apply post_bind.
      eapply post_mono; [apply (IH (i :: held) s1 j I1)|].
      * pose proof (wf_wait _ _ (i_futs _ I1 i f1 F1) j Ej). lia.
      * constructor; auto. intros H. rewrite <- not_true_iff_false in Eh. apply Eh. apply existsb_exists. exists i. now rewrite Nat.eqb_refl.
      * intros k [<-|K]; [lia|]. rewrite L1. auto.
      * cbn [length]. lia.
      * intros [b s2] (I2 & G2 & Fr2 & L2). cbn [snd] in *.
        destruct (e_futs _ _ (proj1 G2) i f1 F1) as (f2 & F2 & T2 & _).
        unfold get_fut. rewrite (read_ok _ _ _ F2). cbn [bind post].
        destruct (set_wait_ok s2 i f2 None None I2 F2) as (I3 & X3 & A3); [discriminate|].
        apply FIN; auto.
        -- eapply grows_trans; [split; eauto|]. eapply grows_trans; [exact G2|]. split; eauto.
        -- eapply frame_trans; [exact Fr1|]. eapply frame_trans; [exact Fr2|]. apply frame_fut.
        -- cbn. rewrite upd_length. lia.
    + cbn [bind]. apply FIN; auto. split; eauto.
Qed.

Lemma add_gather_cbs_ok g fs : forall k s x, inv s -> nth_error (w_gathers s) g = Some x ->
  (forall j i, nth_error fs j = Some i -> nth_error (g_futs x) (k + j) = Some i) -> (forall i, In i fs -> i < length (w_futs s)) ->
  exists s', add_gather_callbacks s g k fs = Ok s' /\ inv s' /\ grows s s' /\ w_gathers s' = w_gathers s.
Proof.
  induction fs as [|i fs IH]; intros k s x I G H B; cbn [add_gather_callbacks].
  - exists s. split; auto. split; auto. split; auto using grows_refl.
  - destruct (nth_error (w_futs s) i) as [f|] eqn:F; [|apply nth_error_None in F; specialize (B i (or_introl eq_refl)); lia].
    destruct (add_cb_ok s i f (CGather g k) I F) as (s1 & E1 & I1 & X1 & A1 & C1 & G1).
    { cbn. exists x, i. split; auto. rewrite <- (Nat.add_0_r k). now apply H. }
    rewrite E1. cbn [bind]. destruct (IH (S k) s1 x I1) as (s2 & E2 & I2 & G2 & GG2).
    + now rewrite G1.
    + intros j y Y. replace (S k + j) with (k + S j) by lia. now apply H.
    + intros y Y. pose proof (lext_len _ _ _ (e_futs _ _ X1)). specialize (B y (or_intror Y)). lia.
    + exists s2. split; auto. split; auto. split; [eapply grows_trans; [split; eauto|eauto]|congruence].
Qed.

Lemma set_gathers_ok s gs : inv s -> lext gext (w_gathers s) gs -> (forall g x, nth_error gs g = Some x -> nth_error (w_gathers s) g = Some x \/ wf_gather s x) ->
  inv (set_gathers s gs) /\ ext s (set_gathers s gs) /\ adds s (set_gathers s gs) [].
Proof.
  intros I L H.
  assert (X : ext s (set_gathers s gs)) by (split; cbn [set_gathers w_futs w_coros w_gathers]; auto; apply lext_refl; auto using fext_refl, cext_refl).
  split; [|split; [exact X|]].
  - apply (inv_step s _ I X); cbn [set_gathers w_queue w_timers w_futs w_gathers w_handles w_curr w_mode w_coros]; auto; try apply I.
    + intros g x G. destruct (H g x G); auto. right. eapply wf_gather_ext; eauto.
    + intros c x K. left. eauto.
  - split; auto; [unfold ready; cbn; now rewrite app_nil_r|]. intros i f F P. exists f, []. rewrite P, app_nil_r. auto.
Qed.

Lemma start_gather_ok s fs : inv s -> (forall i, In i fs -> i < length (w_futs s)) ->
  exists s', start_gather s fs = Ok (length (w_futs s), s') /\ inv s' /\ grows s s'.
Proof.
  intros I B. unfold start_gather. destruct (new_future_ok s None I) as (I1 & X1 & A1); [discriminate|].
  unfold new_future in *. cbn [snd] in *. set (s1 := set_futs s _) in *.
  assert (F1 : nth_error (w_futs s1) (length (w_futs s)) = Some (Fut Pending [] 0 None None None)).
  { cbn [s1 set_futs w_futs]. rewrite nth_error_app2 by auto. now rewrite Nat.sub_diag. }
  destruct fs as [|i0 fs0].
  - destruct (resolve_ok s1 _ _ (Finished (VTuple [])) I1 F1) as (s2 & new & f2 & E2 & I2 & X2 & A2 & _); [reflexivity|discriminate|].
    rewrite E2. cbn [bind]. exists s2. split; auto. split; auto. eapply grows_trans; split; eauto.
  - set (fs := i0 :: fs0) in *. set (x := G (length (w_futs s)) fs (map (fun _ => VUninit) fs) (Z.of_nat (length fs))).
    destruct (set_gathers_ok s1 (w_gathers s1 ++ [x]) I1) as (I2 & X2 & A2).
    + apply lext_app. apply gext_refl.
    + intros g y Y. destruct (Nat.lt_ge_cases g (length (w_gathers s1))) as [L|L].
      * rewrite nth_error_app1 in Y by auto. auto.
      * rewrite nth_error_app2 in Y by auto. right. destruct (g - _) as [|m]; [|destruct m; discriminate]. injection Y as <-.
        split; cbn [x g_outer g_futs g_results]; auto; [|now rewrite map_length]. cbn. rewrite app_length. cbn. lia.
    + set (s2 := set_gathers s1 (w_gathers s1 ++ [x])) in *.
      assert (Gx : nth_error (w_gathers s2) (length (w_gathers s1)) = Some x).
      { cbn [s2 set_gathers w_gathers]. rewrite nth_error_app2 by auto. now rewrite Nat.sub_diag. }
      destruct (add_gather_cbs_ok (length (w_gathers s1)) fs 0 s2 x I2 Gx) as (s3 & E3 & I3 & G3 & GG3); auto.
      { intros i Hi. specialize (B i Hi). cbn. rewrite app_length. lia. }
      rewrite E3. cbn [bind].
      destruct (e_futs _ _ (proj1 G3) (length (w_futs s)) _ F1) as (f3 & F3 & _).
      destruct (add_cb_ok s3 (length (w_futs s)) f3 (CGatherCancel (length (w_gathers s1))) I3 F3) as (s4 & E4 & I4 & X4 & A4 & _).
      { cbn. exists x. now rewrite GG3. }
      rewrite E4. cbn [bind]. exists s4. split; auto. split; auto.
      eapply grows_trans; [split; eauto|]. eapply grows_trans; [split; [exact X2|eauto]|]. eapply grows_trans; [exact G3|split; eauto].
Qed.

(** ** Calls do not touch what the loop is doing *)
Definition calm (s s' : world) : Prop :=
  w_curr s' = w_curr s /\ w_running s' = w_running s /\ w_mode s' = w_mode s /\ w_ran s' = w_ran s.
Lemma calm_refl s : calm s s. Proof. repeat split. Qed.
Lemma calm_trans a b c : calm a b -> calm b c -> calm a c.
Proof. unfold calm. intuition congruence. Qed.
Lemma calm_frame s s' : frame s s' -> calm s s'. Proof. unfold frame, calm. tauto. Qed.
Ltac bind_inv H :=
  match type of H with
  | bind ?m _ = Ok _ => let E := fresh "E" in destruct m eqn:E; cbn [bind] in H; try discriminate H
  end.
Lemma soon_calm s w n s' : call_soon_work s w = Ok (n, s') -> calm s s'.
Proof. unfold call_soon_work. intros H. bind_inv H. destruct a. injection H as <- <-. repeat split. Qed.
Lemma push_calm s i w s' : push_callback s i w = Ok s' -> calm s s'.
Proof. unfold push_callback. intros H. bind_inv H. destruct (_ <? _) in H; [|discriminate]. injection H as <-. repeat split. Qed.
Lemma sched_calm i cbs : forall s s', schedule_callbacks s i cbs = Ok s' -> calm s s'.
Proof.
  induction cbs as [|w cbs IH]; intros s s'; cbn [schedule_callbacks]; [intros [= <-]; apply calm_refl|].
  destruct (w_task w) as [t|]; intros H.
  - bind_inv H. destruct (match f_wait_lock a with Some l => l =? i | None => false end); [|eauto].
    bind_inv H. destruct a0. apply soon_calm in E0. eapply calm_trans; [|eauto]. eapply calm_trans; [|exact E0]. repeat split.
  - bind_inv H. destruct a. apply soon_calm in E. eapply calm_trans; eauto.
Qed.
Lemma resolve_calm s i st s' : resolve s i st = Ok s' -> calm s s'.
Proof. unfold resolve. intros H. bind_inv H. apply sched_calm in H. eapply calm_trans; [|exact H]. repeat split. Qed.
Lemma add_cb_calm s i c s' : add_done_callback s i c = Ok s' -> calm s s'.
Proof.
  unfold add_done_callback. intros H. bind_inv H. cbn [new_coro] in H. destruct (is_done a).
  - bind_inv H. destruct a0. injection H as <-. apply soon_calm in E0. eapply calm_trans; [|exact E0]. repeat split.
  - apply push_calm in H. eapply calm_trans; [|exact H]. repeat split.
Qed.
Lemma cancel_calm fuel : forall held s i b s', cancel_future fuel held s i = Ok (b, s') -> calm s s'.
Proof.
  induction fuel as [|fuel IH]; intros held s i b s'; cbn [cancel_future]; [discriminate|].
  destruct (existsb _ _); [discriminate|]. intros H. bind_inv H. destruct (is_done a); [injection H as <- <-; apply calm_refl|].
  bind_inv H. apply resolve_calm in E0. eapply calm_trans; [exact E0|]. destruct (f_task a) as [c|]; [|injection H as <- <-; apply calm_refl].
  bind_inv H. bind_inv H. eapply (calm_trans _ a2).
  - destruct (f_wait_task a1); [|injection E2 as ->; apply calm_refl]. bind_inv E2. destruct a3. bind_inv E2. injection E2 as <-.
    apply IH in E3. eapply calm_trans; [exact E3|]. repeat split.
  - bind_inv H. injection H as <- <-. unfold call_soon_no_duplicate in E3. bind_inv E3. destruct a4; [injection E3 as <-; apply calm_refl|].
    bind_inv E3. destruct a4. injection E3 as <-. eapply soon_calm; eauto.
Qed.
Lemma gather_cbs_calm g fs : forall k s s', add_gather_callbacks s g k fs = Ok s' -> calm s s'.
Proof.
  induction fs as [|i fs IH]; intros k s s'; cbn [add_gather_callbacks]; intros H; [injection H as <-; apply calm_refl|].
  bind_inv H. apply add_cb_calm in E. eapply calm_trans; eauto.
Qed.
Lemma start_gather_calm s fs n s' : start_gather s fs = Ok (n, s') -> calm s s'.
Proof.
  unfold start_gather, new_future. intros H. destruct fs as [|i fs].
  - bind_inv H. injection H as <- <-. apply resolve_calm in E. eapply calm_trans; [|exact E]. repeat split.
  - bind_inv H. bind_inv H. injection H as <- <-. apply gather_cbs_calm in E. apply add_cb_calm in E0.
    eapply calm_trans; [|exact E0]. eapply calm_trans; [|exact E]. repeat split.
Qed.
Lemma call_calm s a r s' : call s a = Ok (r, s') -> calm s s'.
Proof.
  destruct a; cbn [call new_future]; intros H; try solve [injection H as <- <-; repeat split].
  - unfold call_soon, new_coro in H. bind_inv H. destruct a. injection H as <- <-. bind_inv E. destruct a. injection E as <- <-.
    apply soon_calm in E0. eapply calm_trans; [|eapply calm_trans; [exact E0|]]; repeat split.
  - unfold call_later, new_coro in H. bind_inv H. destruct a. injection H as <- <-. bind_inv E. injection E as <- <-. repeat split.
  - destruct (nth_error (w_handles s) n); [|injection H as <- <-; apply calm_refl]. bind_inv H.
    destruct (w_coro (n_work a)); [|injection H as <- <-; apply calm_refl]. bind_inv H. destruct a0. injection H as <- <-. repeat split.
  - destruct (nth_error _ t); [|injection H as <- <-; apply calm_refl]. destruct (w_coro _); [|injection H as <- <-; apply calm_refl].
    bind_inv H. injection H as <- <-. repeat split.
  - bind_inv H. destruct a. injection H as <- <-. unfold create_task, new_coro, new_future in E. bind_inv E. destruct a. injection E as <- <-.
    apply soon_calm in E0. eapply calm_trans; [|exact E0]. repeat split.
  - destruct (nth_error (w_futs s) f); [|injection H as <- <-; apply calm_refl]. destruct (is_done f0); [injection H as <- <-; apply calm_refl|].
    bind_inv H. injection H as <- <-. eapply resolve_calm; eauto.
  - destruct (nth_error (w_futs s) f); [|injection H as <- <-; apply calm_refl]. destruct (is_done f0); [injection H as <- <-; apply calm_refl|].
    bind_inv H. injection H as <- <-. eapply resolve_calm; eauto.
  - destruct (nth_error (w_futs s) f); [|injection H as <- <-; apply calm_refl]. bind_inv H. destruct a. injection H as <- <-. eapply cancel_calm; eauto.
  - destruct (nth_error (w_futs s) f); [|injection H as <- <-; apply calm_refl]. bind_inv H. injection H as <- <-. eapply add_cb_calm; eauto.
  - destruct (nth_error (w_futs s) f); injection H as <- <-; apply calm_refl.
  - destruct (nth_error (w_futs s) f); injection H as <- <-; apply calm_refl.
  - destruct (forallb _ fs); [|injection H as <- <-; apply calm_refl]. bind_inv H. destruct a. injection H as <- <-. eapply start_gather_calm; eauto.
Qed.

Lemma subseq_refl {A} (l : list A) : subseq l l.
Proof. induction l; constructor; auto. Qed.
Lemma subseq_mid {A} (l1 : list A) x l2 : subseq (l1 ++ l2) (l1 ++ x :: l2).
Proof. induction l1; cbn; constructor; auto. apply subseq_refl. Qed.

(** what a call does to the queue *)
Definition effect (a : act) (s s' : world) : Prop :=
  match a with
  | ACancelHandle _ => w_futs s' = w_futs s /\ w_ran s' = w_ran s /\ subseq (ready s') (ready s)
  | _ => exists new, adds s s' new
  end.

Lemma adds_same s s' : w_queue s' = w_queue s -> w_futs s' = w_futs s -> w_ran s' = w_ran s -> adds s s' [].
Proof.
  intros Q F R. split; auto; [unfold ready; rewrite Q; now rewrite app_nil_r|]. rewrite F.
  intros i f G P. exists f, []. rewrite P, app_nil_r. auto.
Qed.

Lemma call_ok s a : inv s -> post (call s a) (fun p => inv (snd p) /\ ext s (snd p) /\ calm s (snd p) /\ effect a s (snd p)).
Proof.
  intros I.
  assert (H : post (call s a) (fun p => inv (snd p) /\ ext s (snd p) /\ effect a s (snd p))).
  2: { destruct (call s a) as [[r s']| | |] eqn:E; cbn in *; auto. pose proof (call_calm _ _ _ _ E). tauto. }
  assert (Z : inv s /\ ext s s /\ exists new, adds s s new) by (split; auto; apply (grows_refl s)).
  destruct a; cbn [call effect]; try exact Z.
  - (* call_soon *)
    unfold call_soon. destruct (new_coro_ok s (CUser c) I Logic.I) as (I1 & E1 & A1 & W1 & N1).
    destruct (new_coro s (CUser c)) as [k s1] eqn:En. cbn [snd] in *. unfold new_coro in En. injection En as <- <-.
    destruct (soon_ok _ _ I1 W1) as (n & s2 & E & I2 & E2 & A2 & [q Eq] & En & Ln & Wn & Rn). rewrite E. cbn [bind post snd].
    assert (X3 : ext s2 (set_handles s2 (w_handles s2 ++ [n]))) by (split; apply lext_refl; auto using fext_refl, gext_refl, cext_refl).
    split; [|split; [eapply ext_trans; [exact E1|]; eapply ext_trans; eauto|]].
    + apply (inv_step s2 _ I2 X3); cbn [set_handles w_queue w_timers w_futs w_gathers w_handles w_curr w_mode w_coros]; auto; try apply I2.
      * intros h m M. destruct (Nat.lt_ge_cases h (length (w_handles s2))) as [L|L].
        -- rewrite nth_error_app1 in M by auto. auto.
        -- rewrite nth_error_app2 in M by auto. destruct (h - _) as [|y]; [|destruct y; discriminate]. injection M as <-.
           right. rewrite Wn. split; auto. split; auto. intros c0 [= <-]. exists (Coro (CUser c) [] Start), c. split; auto. rewrite Eq. exact N1.
      * intros k x K. left. eauto.
    + eexists. eapply adds_nil_r; [| |eapply adds_trans; [exact E1|exact E2|exact A1|exact A2]|]; [eapply ext_trans; eauto|exact X3|].
      apply adds_same; reflexivity.
  - (* call_later *)
    unfold call_later. destruct (new_coro_ok s (CUser c) I Logic.I) as (I1 & E1 & A1 & W1 & N1).
    destruct (new_coro s (CUser c)) as [k s1] eqn:En. cbn [snd] in *. unfold new_coro in En. injection En as <- <-.
    destruct (push_ok _ (Timer (W (Some (length (w_coros s))) None) deadline) (i_timers _ I1)) as (t & E & T & O & _).
    rewrite E. cbn [bind post snd]. set (s1 := set_coros s _) in *.
    assert (X2 : ext s1 (set_timers s1 t)) by (split; apply lext_refl; auto using fext_refl, gext_refl, cext_refl).
    split; [|split; [eapply ext_trans; eauto|]].
    + apply (inv_step s1 _ I1 X2); cbn [set_timers w_queue w_timers w_futs w_gathers w_handles w_curr w_mode w_coros]; auto; try apply I1.
      * intros j x X NC. rewrite O in X. destruct (Nat.lt_ge_cases j (length (ts_objs (w_timers s1)))) as [L|L].
        -- rewrite nth_error_app1 in X by auto. auto.
        -- rewrite nth_error_app2 in X by auto. destruct (j - _) as [|y]; [|destruct y; discriminate]. injection X as <-.
           right. cbn. auto.
      * intros j x K. left. eauto.
    + eexists. eapply adds_trans; [exact E1|exact X2|exact A1|]. apply adds_same; reflexivity.
  - (* Handle.cancel *)
    destruct (nth_error (w_handles s) n) as [k|] eqn:Hk.
    2:{ cbn. split; auto. split; [apply ext_refl|]. split; auto. split; auto. apply subseq_refl. }
    destruct (i_handles _ I n k Hk) as [B T]. unfold get_node.
    destruct (nth_error (q_nodes (w_queue s)) k) as [nd|] eqn:Nd; [|apply nth_error_None in Nd; lia]. cbn [bind].
    destruct (w_coro (n_work nd)) as [c|] eqn:Ec.
    2:{ cbn. split; auto. split; [apply ext_refl|]. split; auto. split; auto. apply subseq_refl. }
    assert (Wk : work_of (w_queue s) k = n_work nd) by (unfold work_of; now rewrite Nd).
    destruct (canc_ok _ k (i_queue _ I) B) as (q' & e & E & Q & D & H); [rewrite Wk, Ec; discriminate|].
    rewrite E. cbn [bind post snd].
    assert (X : ext s (set_queue s q')) by (split; apply lext_refl; auto using fext_refl, gext_refl, cext_refl).
    assert (SS : subseq (ready (set_queue s q')) (ready s)).
    { unfold ready. cbn [set_queue w_queue]. destruct H as [(w1 & w2 & -> & -> & _)|[-> _]]; [apply subseq_mid|apply subseq_refl]. }
    assert (SI : forall A (a b : list A), subseq a b -> forall x, In x a -> In x b).
    { intros A a b. induction 1; cbn; auto. intros y [|]; auto. }
    split; [|split; auto]. apply (inv_step s _ I X); cbn [set_queue w_queue w_timers w_futs w_gathers w_handles w_curr w_mode w_coros]; auto; try apply I.
    + intros w Hw. left. eapply SI; eauto.
    + intros m Bm. destruct D as (L & D1 & D2). rewrite L. split; auto. destruct (Nat.eq_dec m k) as [->|Dm]; [right; auto|left; auto].
    + intros j x K. left. eauto.
  - (* TimerHandle.cancel *)
    destruct (nth_error (ts_objs (w_timers s)) t) as [x|] eqn:Hx; [|exact Z].
    destruct (w_coro (t_work x)) as [c|]; [|exact Z].
    destruct (cancel_timer_ok _ t x (i_timers _ I) Hx) as (t' & E & T & M & O & W). rewrite E. cbn [bind post snd].
    assert (X : ext s (set_timers s t')) by (split; apply lext_refl; auto using fext_refl, gext_refl, cext_refl).
    split; [|split; auto].
    + apply (inv_step s _ I X); cbn [set_timers w_queue w_timers w_futs w_gathers w_handles w_curr w_mode w_coros]; auto; try apply I.
      * intros j y Y NC. rewrite O, nth_upd in Y. destruct (Nat.eqb_spec t j) as [<-|D]; auto.
        destruct (t <? length (ts_objs (w_timers s))); [|discriminate]. injection Y as <-. now cbn in NC.
      * intros j y K. left. eauto.
    + exists []. apply adds_same; reflexivity.
  - (* create_future *)
    destruct (new_future_ok s None I) as (I1 & X1 & A1); [discriminate|]. unfold new_future in *. cbn [snd post] in *. eauto.
  - (* create_task *)
    unfold create_task. destruct (new_coro_ok s (CUser c) I Logic.I) as (I1 & E1 & A1 & W1 & N1).
    destruct (new_coro s (CUser c)) as [k s1] eqn:En. cbn [snd] in *. unfold new_coro in En. injection En as <- <-. set (s1 := set_coros s _) in *.
    destruct (new_future_ok s1 (Some (length (w_coros s))) I1) as (I2 & X2 & A2).
    { intros k [= <-]. apply nth_error_Some. congruence. }
    unfold new_future in *. cbn [snd] in *. set (s2 := set_futs s1 _) in *.
    assert (W2 : wf s2 (W (Some (length (w_coros s))) (Some (length (w_futs s1))))).
    { exists (length (w_coros s)). eexists. split; [reflexivity|]. split; [exact N1|]. intros t [= <-]. eexists.
      cbn [s2 set_futs w_futs]. rewrite nth_error_app2 by auto. rewrite Nat.sub_diag. split; reflexivity. }
    destruct (soon_ok s2 _ I2 W2) as (n & s3 & E & I3 & E3 & A3 & _). rewrite E. cbn [bind post snd].
    split; auto. split; [eapply ext_trans; [exact E1|]; eapply ext_trans; eauto|].
    eexists. eapply adds_nil_l; [exact E1|eapply ext_trans; eauto|exact A1|]. eapply adds_trans; eauto.
  - (* set_result *)
    destruct (nth_error (w_futs s) f) as [x|] eqn:Hx; [|exact Z]. destruct (is_done x) eqn:D; [exact Z|].
    destruct (resolve_ok s f x (Finished v) I Hx D) as (s2 & new & f2 & E2 & I2 & X2 & A2 & _); [discriminate|].
    rewrite E2. cbn [bind post snd]. eauto.
  - destruct (nth_error (w_futs s) f) as [x|] eqn:Hx; [|exact Z]. destruct (is_done x) eqn:D; [exact Z|].
    destruct (resolve_ok s f x (Failed e) I Hx D) as (s2 & new & f2 & E2 & I2 & X2 & A2 & _); [discriminate|].
    rewrite E2. cbn [bind post snd]. eauto.
  - (* cancel *)
    destruct (nth_error (w_futs s) f) as [x|] eqn:Hx; [|exact Z]. apply post_bind.
    eapply post_mono; [apply (cancel_ok (fuel_of s) [] s f I)|].
    + apply nth_error_Some. congruence.
    + constructor.
    + easy.
    + unfold fuel_of. cbn. lia.
    + intros [b s'] (I' & [X' A'] & _). cbn [post snd] in *. auto.
  - (* add_done_callback *)
    destruct (nth_error (w_futs s) f) as [x|] eqn:Hx; [|exact Z].
    destruct (add_cb_ok s f x (CUser c) I Hx Logic.I) as (s' & E & I' & X' & A' & _). rewrite E. cbn [bind post snd]. auto.
  - destruct (nth_error (w_futs s) f); exact Z.
  - destruct (nth_error (w_futs s) f); exact Z.
  - (* gather *)
    destruct (forallb _ fs) eqn:B; [|exact Z].
    destruct (start_gather_ok s fs I) as (s' & E & I' & X' & A').
    { intros i Hi. rewrite forallb_forall in B. apply Nat.ltb_lt. auto. }
    rewrite E. cbn [bind post snd]. auto.
  - cbn [post snd]. assert (X : ext s (set_stop s true)) by (split; apply lext_refl; auto using fext_refl, gext_refl, cext_refl).
    split; [|split; auto].
    + apply (inv_step s _ I X); cbn [set_stop w_queue w_timers w_futs w_gathers w_handles w_curr w_mode w_coros]; auto; try apply I.
      intros j y K. left. eauto.
    + exists []. apply adds_same; reflexivity.
Qed.
