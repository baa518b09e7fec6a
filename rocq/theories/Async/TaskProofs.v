(** Tasks: where the work of a task is, in programs that do not cancel tasks. *)
From Coq Require Import List ZArith Bool Lia Arith Permutation.
From Verif.Common Require Import Result.
From Verif.Async Require Import Model Spec QueueProofs TimerProofs InvProofs StepProofs HistProofs.
Import ListNotations.
Local Open Scope res_scope.

Definition cat (cs : list coro) (c : nat) (p : point) : Prop := exists x, nth_error cs c = Some x /\ c_at x = p.
Definition cbs_of (fs : list future) : list work := concat (map f_cbs fs).
Definition items (rd : list work) (fs : list future) (tm cur : list work) : list work := rd ++ cbs_of fs ++ tm ++ cur.

Record tok (rd : list work) (fs : list future) (cs : list coro) (tm cur : list work) : Prop := {
  k_nodup : NoDup (map w_coro (items rd fs tm cur));
  k_task : forall i j f g c, nth_error fs i = Some f -> nth_error fs j = Some g -> f_task f = Some c -> f_task g = Some c -> i = j;
  k_start : forall t f c, nth_error fs t = Some f -> f_task f = Some c -> cat cs c Start -> In (W (Some c) (Some t)) rd;
  k_await : forall c i, cat cs c (AtAwait i) -> exists t f g, nth_error fs t = Some f /\ f_task f = Some c /\ nth_error fs i = Some g /\
     if is_done g then In (W (Some c) (Some t)) rd else In (W (Some c) (Some t)) (f_cbs g) /\ f_wait_lock f = Some i;
  k_rd : forall w, In w rd -> exists c, w_coro w = Some c /\ (cat cs c Start \/ exists i, cat cs c (AtAwait i) /\ w_task w <> None);
  k_cbs : forall i g w, nth_error fs i = Some g -> In w (f_cbs g) ->
     exists c, w_coro w = Some c /\ match w_task w with
       | None => cat cs c Start
       | Some t => cat cs c (AtAwait i) /\ exists f, nth_error fs t = Some f /\ f_task f = Some c /\ f_wait_lock f = Some i end;
  k_tm : forall w, In w tm -> exists c, w_coro w = Some c /\ w_task w = None /\ cat cs c Start;
  k_cur : forall w, In w cur -> exists c, w_coro w = Some c /\ cat cs c Active;
  k_active : forall c, cat cs c Active -> exists w, In w cur /\ w_coro w = Some c;
  k_live : forall t f c, nth_error fs t = Some f -> f_task f = Some c -> f_state f <> Cancelled;
  k_bound : forall t f c, nth_error fs t = Some f -> f_task f = Some c -> c < length cs }.

(** ** Lists of callbacks *)
Lemma cbs_upd fs : forall i f f', nth_error fs i = Some f -> exists rest,
  Permutation (cbs_of fs) (f_cbs f ++ rest) /\ Permutation (cbs_of (upd fs i f')) (f_cbs f' ++ rest).
Proof.
  induction fs as [|g fs IH]; intros [|i] f f' H; try discriminate; unfold cbs_of in *; cbn [upd map concat] in *.
  - injection H as ->. exists (concat (map f_cbs fs)). auto.
  - destruct (IH i f f' H) as (rest & P & P'). exists (f_cbs g ++ rest). split.
    + rewrite P, !app_assoc. apply Permutation_app_tail, Permutation_app_comm.
    + rewrite P', !app_assoc. apply Permutation_app_tail, Permutation_app_comm.
Qed.
Lemma cbs_same fs : forall fs', (forall i, option_map f_cbs (nth_error fs' i) = option_map f_cbs (nth_error fs i)) -> cbs_of fs' = cbs_of fs.
Proof.
  unfold cbs_of. induction fs as [|f fs IH]; intros [|g fs'] H; auto; try (specialize (H 0); discriminate).
  cbn [map concat]. f_equal; [specialize (H 0); cbn in H; congruence|]. apply IH. intros i. apply (H (S i)).
Qed.
Lemma cbs_snoc fs f : f_cbs f = [] -> cbs_of (fs ++ [f]) = cbs_of fs.
Proof. intros E. unfold cbs_of. rewrite map_app, concat_app. cbn. now rewrite E, !app_nil_r. Qed.
Lemma cbs_in fs i f w : nth_error fs i = Some f -> In w (f_cbs f) -> In w (cbs_of fs).
Proof. intros N I. unfold cbs_of. apply in_concat. exists (f_cbs f). split; auto. apply in_map. eapply nth_error_In; eauto. Qed.

Lemma cat_fun cs c p p' : cat cs c p -> cat cs c p' -> p = p'.
Proof. intros (x & N & <-) (y & N' & <-). congruence. Qed.
Lemma cat_app cs cs' c p : cat cs c p -> cat (cs ++ cs') c p.
Proof. intros (x & N & P). exists x. split; auto. rewrite nth_error_app1; auto. apply nth_error_Some. congruence. Qed.
Lemma cat_snoc cs x c p : cat (cs ++ [x]) c p -> cat cs c p \/ (c = length cs /\ c_at x = p).
Proof.
  intros (y & N & P). destruct (Nat.lt_ge_cases c (length cs)) as [B|B].
  - rewrite nth_error_app1 in N by auto. left. exists y. auto.
  - rewrite nth_error_app2 in N by auto. destruct (c - length cs) as [|m] eqn:E; [|destruct m; discriminate]. injection N as <-. right. split; auto. lia.
Qed.
Lemma cat_new cs c : cat (cs ++ [Coro c [] Start]) (length cs) Start.
Proof. exists (Coro c [] Start). rewrite nth_error_app2, Nat.sub_diag by lia. auto. Qed.
Lemma cat_upd cs c x c' p : nth_error cs c <> None -> cat (upd cs c x) c' p -> (c' = c /\ c_at x = p) \/ (c' <> c /\ cat cs c' p).
Proof.
  intros NN (y & N & P). rewrite nth_upd in N. destruct (Nat.eqb_spec c c') as [->|D].
  - destruct (_ <? _); [|discriminate]. injection N as <-. auto.
  - right. split; auto. exists y. auto.
Qed.
Lemma cat_upd_ne cs c x c' p : c' <> c -> cat cs c' p -> cat (upd cs c x) c' p.
Proof. intros D (y & N & P). exists y. rewrite nth_upd_ne by auto. auto. Qed.
Lemma cat_upd_eq cs c x y : nth_error cs c = Some y -> cat (upd cs c x) c (c_at x).
Proof. intros N. exists x. split; auto. eapply nth_upd_eq; eauto. Qed.

Lemma items_bound rd fs cs tm cur w : tok rd fs cs tm cur -> In w (items rd fs tm cur) -> exists c p, w_coro w = Some c /\ cat cs c p.
Proof.
  intros T H. unfold items in H. rewrite !in_app_iff in H. destruct H as [H|[H|[H|H]]].
  - destruct (k_rd _ _ _ _ _ T w H) as (c & C & [P|(i & P & _)]); eauto.
  - unfold cbs_of in H. apply in_concat in H. destruct H as (l & L & H). apply in_map_iff in L. destruct L as (g & <- & G).
    apply In_nth_error in G. destruct G as [i G]. destruct (k_cbs _ _ _ _ _ T i g w G H) as (c & C & P). destruct (w_task w); eauto. destruct P; eauto.
  - destruct (k_tm _ _ _ _ _ T w H) as (c & C & _ & P). eauto.
  - destruct (k_cur _ _ _ _ _ T w H) as (c & C & P). eauto.
Qed.
Lemma fresh_item rd fs cs tm cur : tok rd fs cs tm cur -> ~ In (Some (length cs)) (map w_coro (items rd fs tm cur)).
Proof.
  intros T H. apply in_map_iff in H. destruct H as (w & E & H). destruct (items_bound _ _ _ _ _ _ T H) as (c & p & C & x & N & _).
  rewrite C in E. injection E as ->. assert (length cs < length cs) by (apply nth_error_Some; congruence). lia.
Qed.
Lemma nodup_perm (l l' : list work) : Permutation l l' -> NoDup (map w_coro l) -> NoDup (map w_coro l').
Proof. intros P. apply Permutation_NoDup. now apply Permutation_map. Qed.
Lemma nodup_cons_perm w (l l' : list work) : Permutation (w :: l) l' -> ~ In (w_coro w) (map w_coro l) -> NoDup (map w_coro l) -> NoDup (map w_coro l').
Proof. intros P N D. eapply nodup_perm; [exact P|]. cbn. constructor; auto. Qed.

Lemma nodup_right {A} (a b : list A) : NoDup (a ++ b) -> NoDup b.
Proof. induction a as [|x a IH]; cbn; auto. intros H. inversion H; auto. Qed.
(** two items with the same coroutine are at the same place *)
Lemma nodup_app_disjoint (a b : list work) w w' : NoDup (map w_coro (a ++ b)) -> In w a -> In w' b -> w_coro w = w_coro w' -> False.
Proof.
  intros ND A B E. rewrite map_app in ND. apply in_split in A. destruct A as (a1 & a2 & ->).
  rewrite map_app in ND. cbn in ND. rewrite <- app_assoc in ND. apply NoDup_remove_2 in ND. apply ND.
  rewrite E, !in_app_iff. right. right. now apply in_map.
Qed.

(** ** Primitive changes *)
Section Prim.
Context (rd : list work) (fs : list future) (cs : list coro) (tm cur : list work) (T : tok rd fs cs tm cur).

Lemma tok_perm tm' : Permutation tm tm' -> tok rd fs cs tm' cur.
Proof.
  intros P. destruct T. split; auto.
  - eapply nodup_perm; [|eassumption]. unfold items. now rewrite P.
  - intros w H. apply k_tm0. eapply Permutation_in; [symmetry|]; eauto.
Qed.


Lemma no_task_len t f : nth_error fs t = Some f -> f_task f = Some (length cs) -> False.
Proof. intros N F. pose proof (k_bound _ _ _ _ _ T t f _ N F). lia. Qed.

(** a new callback is queued *)
Lemma tok_new_ready c : tok (rd ++ [W (Some (length cs)) None]) fs (cs ++ [Coro c [] Start]) tm cur.
Proof.
  pose proof (fresh_item _ _ _ _ _ T) as FR. pose proof no_task_len as NT. destruct T. split; auto.
  - apply (nodup_cons_perm (W (Some (length cs)) None) (items rd fs tm cur)); auto. unfold items. rewrite <- app_assoc. apply Permutation_middle.
  - intros t f k F Ft C. apply cat_snoc in C. apply in_or_app. destruct C as [C|[-> _]]; [left; eauto|exfalso; eauto].
  - intros k i C. apply cat_snoc in C. destruct C as [C|[_ C]]; [|discriminate]. destruct (k_await0 k i C) as (t & f & g & F & Ft & G & R).
    exists t, f, g. split; auto. split; auto. split; auto. destruct (is_done g); auto. apply in_or_app. auto.
  - intros w H. apply in_app_or in H. destruct H as [H|[<-|[]]].
    + destruct (k_rd0 w H) as (k & Hk & [C|(i & C & Nn)]); exists k; split; auto; [left; now apply cat_app|right; exists i; split; auto; now apply cat_app].
    + exists (length cs). split; auto. left. apply cat_new.
  - intros i g w G H. destruct (k_cbs0 i g w G H) as (k & Hk & C). exists k. split; auto. destruct (w_task w); [|now apply cat_app].
    destruct C as [C X]. split; auto. now apply cat_app.
  - intros w H. destruct (k_tm0 w H) as (k & Hk & Ht & C). exists k. split; auto. split; auto. now apply cat_app.
  - intros w H. destruct (k_cur0 w H) as (k & Hk & C). exists k. split; auto. now apply cat_app.
  - intros k C. apply cat_snoc in C. destruct C as [C|[_ C]]; [|discriminate]. eauto.
  - intros t f k F Ft. rewrite app_length. specialize (k_bound0 t f k F Ft). lia.
Qed.
(** ... for a timer *)
Lemma tok_new_timer c tm' : Permutation tm' (W (Some (length cs)) None :: tm) -> tok rd fs (cs ++ [Coro c [] Start]) tm' cur.
Proof.
  intros P. pose proof (fresh_item _ _ _ _ _ T) as FR. pose proof no_task_len as NT. destruct T. split; auto.
  - apply (nodup_cons_perm (W (Some (length cs)) None) (items rd fs tm cur)); auto. unfold items. rewrite P. cbn [app].
    rewrite !app_assoc. cbn. rewrite <- (app_assoc (rd ++ cbs_of fs)). apply Permutation_cons_app. now rewrite app_assoc.
  - intros t f k F Ft C. apply cat_snoc in C. destruct C as [C|[-> _]]; [eauto|exfalso; eauto].
  - intros k i C. apply cat_snoc in C. destruct C as [C|[_ C]]; [|discriminate]. eauto.
  - intros w H. destruct (k_rd0 w H) as (k & Hk & [C|(i & C & Nn)]); exists k; split; auto; [left; now apply cat_app|right; exists i; split; auto; now apply cat_app].
  - intros i g w G H. destruct (k_cbs0 i g w G H) as (k & Hk & C). exists k. split; auto. destruct (w_task w); [|now apply cat_app].
    destruct C as [C X]. split; auto. now apply cat_app.
  - intros w H. apply (Permutation_in _ P) in H. destruct H as [<-|H]; [exists (length cs); split; auto; split; auto; apply cat_new|].
    destruct (k_tm0 w H) as (k & Hk & Ht & C). exists k. split; auto. split; auto. now apply cat_app.
  - intros w H. destruct (k_cur0 w H) as (k & Hk & C). exists k. split; auto. now apply cat_app.
  - intros k C. apply cat_snoc in C. destruct C as [C|[_ C]]; [|discriminate]. eauto.
  - intros t f k F Ft. rewrite app_length. specialize (k_bound0 t f k F Ft). lia.
Qed.
(** ... for a pending future *)
Lemma tok_new_cb c i f f' : nth_error fs i = Some f -> is_done f = false -> f_state f' = f_state f -> f_task f' = f_task f -> f_wait_lock f' = f_wait_lock f ->
  f_cbs f' = f_cbs f ++ [W (Some (length cs)) None] -> tok rd (upd fs i f') (cs ++ [Coro c [] Start]) tm cur.
Proof.
  intros N D Es Et Ew Ec. pose proof (fresh_item _ _ _ _ _ T) as FR. pose proof no_task_len as NT. destruct T.
  assert (U : forall j g, nth_error (upd fs i f') j = Some g -> exists g0, nth_error fs j = Some g0 /\ f_state g = f_state g0 /\ f_task g = f_task g0 /\ f_wait_lock g = f_wait_lock g0 /\
     (f_cbs g = f_cbs g0 \/ (j = i /\ f_cbs g = f_cbs g0 ++ [W (Some (length cs)) None]))).
  { intros j g G. rewrite nth_upd in G. destruct (Nat.eqb_spec i j) as [<-|Dj]; [|exists g; auto 10]. destruct (_ <? _); [|discriminate]. injection G as <-. exists f. auto 10. }
  assert (V : forall j g, nth_error fs j = Some g -> exists g', nth_error (upd fs i f') j = Some g' /\ f_state g' = f_state g /\ f_task g' = f_task g /\ f_wait_lock g' = f_wait_lock g /\
     exists m, f_cbs g' = f_cbs g ++ m).
  { intros j g G. destruct (Nat.eq_dec i j) as [<-|Dj].
    - exists f'. rewrite (nth_upd_eq _ _ _ _ N). rewrite N in G. injection G as <-. eauto 10.
    - exists g. rewrite nth_upd_ne by auto. repeat (split; auto). exists []. now rewrite app_nil_r. }
  split.
  - apply (nodup_cons_perm (W (Some (length cs)) None) (items rd fs tm cur)); auto. unfold items.
    destruct (cbs_upd fs i f f' N) as (rest & P1 & P2). rewrite P1, P2, Ec, <- !app_assoc. cbn [app].
    rewrite (app_assoc rd (f_cbs f)). rewrite (app_assoc rd (f_cbs f)). apply Permutation_middle.
  - intros a b g h k G H Tg Th. destruct (U _ _ G) as (g0 & G0 & _ & E1 & _). destruct (U _ _ H) as (h0 & H0 & _ & E2 & _).
    rewrite E1 in Tg. rewrite E2 in Th. eauto.
  - intros t g k G Tg C. destruct (U _ _ G) as (g0 & G0 & _ & E1 & _). rewrite E1 in Tg. apply cat_snoc in C. destruct C as [C|[-> _]]; [eauto|exfalso; eauto].
  - intros k j C. apply cat_snoc in C. destruct C as [C|[_ C]]; [|discriminate]. destruct (k_await0 k j C) as (t & g & h & G & Tg & H & R).
    destruct (V _ _ G) as (g' & G' & _ & T' & W' & _). destruct (V _ _ H) as (h' & H' & S' & _ & _ & (m & C')).
    exists t, g', h'. split; auto. split; [congruence|]. split; auto. rewrite (is_done_state _ _ S'). destruct (is_done h); auto.
    destruct R as [R1 R2]. split; [rewrite C'; apply in_or_app; auto|congruence].
  - intros w H. destruct (k_rd0 w H) as (k & Hk & [C|(j & C & Nn)]); exists k; split; auto; [left; now apply cat_app|right; exists j; split; auto; now apply cat_app].
  - intros j g w G H. destruct (U _ _ G) as (g0 & G0 & _ & _ & _ & Ecb).
    assert (HH : In w (f_cbs g0) \/ w = W (Some (length cs)) None).
    { destruct Ecb as [Ecb|[_ Ecb]]; rewrite Ecb in H; auto. apply in_app_or in H. destruct H as [H|[H|[]]]; auto. }
    destruct HH as [H0| ->]; [|exists (length cs); split; auto; apply cat_new].
    destruct (k_cbs0 j g0 w G0 H0) as (k & Hk & C). exists k. split; auto. destruct (w_task w); [|now apply cat_app].
    destruct C as [C (x & X1 & X2 & X3)]. split; [now apply cat_app|]. destruct (V _ _ X1) as (x' & X1' & _ & X2' & X3' & _). exists x'. split; auto. split; congruence.
  - intros w H. destruct (k_tm0 w H) as (k & Hk & Ht & C). exists k. split; auto. split; auto. now apply cat_app.
  - intros w H. destruct (k_cur0 w H) as (k & Hk & C). exists k. split; auto. now apply cat_app.
  - intros k C. apply cat_snoc in C. destruct C as [C|[_ C]]; [|discriminate]. eauto.
  - intros t g k G Tg. destruct (U _ _ G) as (g0 & G0 & E0 & E1 & _). rewrite E1 in Tg. rewrite E0. eauto.
  - intros t g k G Tg. destruct (U _ _ G) as (g0 & G0 & E0 & E1 & _). rewrite E1 in Tg. rewrite app_length. specialize (k_bound0 t g0 k G0 Tg). lia.
Qed.
(** a new future *)
Lemma tok_new_future : tok rd (fs ++ [Fut Pending [] 0 None None None]) cs tm cur.
Proof.
  destruct T.
  assert (U : forall j g, nth_error (fs ++ [Fut Pending [] 0 None None None]) j = Some g -> nth_error fs j = Some g \/ g = Fut Pending [] 0 None None None).
  { intros j g G. destruct (Nat.lt_ge_cases j (length fs)) as [B|B]; [rewrite nth_error_app1 in G by auto; auto|].
    rewrite nth_error_app2 in G by auto. destruct (j - length fs) as [|m]; [injection G as <-; auto|destruct m; discriminate]. }
  assert (V : forall j g, nth_error fs j = Some g -> nth_error (fs ++ [Fut Pending [] 0 None None None]) j = Some g).
  { intros j g G. rewrite nth_error_app1; auto. apply nth_error_Some. congruence. }
  split; auto.
  - unfold items in *. now rewrite (cbs_snoc fs (Fut Pending [] 0 None None None)).
  - intros a b g h k G H Tg Th. destruct (U _ _ G) as [G0| ->]; [|discriminate]. destruct (U _ _ H) as [H0| ->]; [|discriminate]. eauto.
  - intros t g k G Tg C. destruct (U _ _ G) as [G0| ->]; [|discriminate]. eauto.
  - intros k j C. destruct (k_await0 k j C) as (t & g & h & G & Tg & H & R). exists t, g, h. auto.
  - intros j g w G H. destruct (U _ _ G) as [G0| ->]; [|easy]. destruct (k_cbs0 j g w G0 H) as (k & Hk & C). exists k. split; auto.
    destruct (w_task w); auto. destruct C as [C (x & X1 & X2)]. eauto 10.
  - intros t g k G Tg. destruct (U _ _ G) as [G0| ->]; [|discriminate]. eauto.
  - intros t g k G Tg. destruct (U _ _ G) as [G0| ->]; [|discriminate]. eauto.
Qed.
(** a new task *)
Lemma tok_new_task c : tok (rd ++ [W (Some (length cs)) (Some (length fs))]) (fs ++ [Fut Pending [] 0 (Some (length cs)) None None]) (cs ++ [Coro c [] Start]) tm cur.
Proof.
  pose proof (fresh_item _ _ _ _ _ T) as FR. pose proof no_task_len as NT. destruct T. set (nf := Fut Pending [] 0 (Some (length cs)) None None).
  assert (U : forall j g, nth_error (fs ++ [nf]) j = Some g -> nth_error fs j = Some g \/ (g = nf /\ j = length fs)).
  { intros j g G. destruct (Nat.lt_ge_cases j (length fs)) as [B|B]; [rewrite nth_error_app1 in G by auto; auto|].
    rewrite nth_error_app2 in G by auto. destruct (j - length fs) as [|m] eqn:E; [injection G as <-; right; split; auto; lia|destruct m; discriminate]. }
  assert (V : forall j g, nth_error fs j = Some g -> nth_error (fs ++ [nf]) j = Some g).
  { intros j g G. rewrite nth_error_app1; auto. apply nth_error_Some. congruence. }
  split; auto.
  - apply (nodup_cons_perm (W (Some (length cs)) (Some (length fs))) (items rd fs tm cur)); auto. unfold items. rewrite (cbs_snoc fs nf) by auto. rewrite <- app_assoc. apply Permutation_middle.
  - intros a b g h k G H Tg Th. destruct (U _ _ G) as [G0|[-> ->]]; destruct (U _ _ H) as [H0|[-> ->]]; eauto.
    + cbn in Th. injection Th as <-. exfalso; eauto.
    + cbn in Tg. injection Tg as <-. exfalso; eauto.
  - intros t g k G Tg C. apply in_or_app. destruct (U _ _ G) as [G0|[-> ->]].
    + left. apply cat_snoc in C. destruct C as [C|[-> _]]; [eauto|exfalso; eauto].
    + right. cbn in Tg. injection Tg as <-. now left.
  - intros k j C. apply cat_snoc in C. destruct C as [C|[_ C]]; [|discriminate]. destruct (k_await0 k j C) as (t & g & h & G & Tg & H & R).
    exists t, g, h. split; auto. split; auto. split; auto. destruct (is_done h); auto. apply in_or_app; auto.
  - intros w H. apply in_app_or in H. destruct H as [H|[<-|[]]].
    + destruct (k_rd0 w H) as (k & Hk & [C|(i & C & Nn)]); exists k; split; auto; [left; now apply cat_app|right; exists i; split; auto; now apply cat_app].
    + exists (length cs). split; auto. left. apply cat_new.
  - intros j g w G H. destruct (U _ _ G) as [G0|[-> ->]]; [|easy]. destruct (k_cbs0 j g w G0 H) as (k & Hk & C). exists k. split; auto.
    destruct (w_task w); [|now apply cat_app]. destruct C as [C (x & X1 & X2)]. split; [now apply cat_app|eauto 10].
  - intros w H. destruct (k_tm0 w H) as (k & Hk & Ht & C). exists k. split; auto. split; auto. now apply cat_app.
  - intros w H. destruct (k_cur0 w H) as (k & Hk & C). exists k. split; auto. now apply cat_app.
  - intros k C. apply cat_snoc in C. destruct C as [C|[_ C]]; [|discriminate]. eauto.
  - intros t g k G Tg. destruct (U _ _ G) as [G0|[-> ->]]; [eauto|discriminate].
  - intros t g k G Tg. rewrite app_length. cbn. destruct (U _ _ G) as [G0|[-> ->]]; [specialize (k_bound0 t g k G0 Tg); lia|]. cbn in Tg. injection Tg as <-. lia.
Qed.

(** a pending future is resolved: its callbacks are queued *)
Lemma tok_resolve i f fs' : nth_error fs i = Some f -> is_done f = false ->
  (forall j g, nth_error fs j = Some g -> exists g', nth_error fs' j = Some g' /\ f_task g' = f_task g
     /\ (if j =? i then is_done g' = true /\ f_cbs g' = [] /\ (f_task g <> None -> f_state g' <> Cancelled) else f_state g' = f_state g /\ f_cbs g' = f_cbs g)
     /\ (f_wait_lock g' = f_wait_lock g \/ exists w, In w (f_cbs f) /\ w_task w = Some j)) ->
  length fs' = length fs -> Permutation (cbs_of fs) (f_cbs f ++ cbs_of fs') ->
  tok (rd ++ f_cbs f) fs' cs tm cur.
Proof.
  intros N D V L P. destruct T.
  assert (U : forall j g', nth_error fs' j = Some g' -> exists g, nth_error fs j = Some g /\ f_task g' = f_task g
     /\ (if j =? i then is_done g' = true /\ f_cbs g' = [] /\ (f_task g <> None -> f_state g' <> Cancelled) else f_state g' = f_state g /\ f_cbs g' = f_cbs g)
     /\ (f_wait_lock g' = f_wait_lock g \/ exists w, In w (f_cbs f) /\ w_task w = Some j)).
  { intros j g' G'. destruct (nth_error fs j) as [g|] eqn:G; [|apply nth_error_None in G; assert (j < length fs') by (apply nth_error_Some; congruence); lia].
    destruct (V j g G) as (g1 & G1 & R). rewrite G' in G1. injection G1 as <-. eauto. }
  (* a task that waits for another future keeps its lock *)
  assert (WL : forall c j t g g', j <> i -> cat cs c (AtAwait j) -> nth_error fs t = Some g -> f_task g = Some c -> nth_error fs' t = Some g' -> f_wait_lock g' = f_wait_lock g).
  { intros c j t g g' Ne C G Tg G'. destruct (V t g G) as (g1 & G1 & _ & _ & [E|(w & Hw & Tw)]); [congruence|].
    exfalso. destruct (k_cbs0 i f w N Hw) as (c' & _ & K). rewrite Tw in K. destruct K as (K & x & X & Tx & _). rewrite G in X. injection X as <-.
    assert (c' = c) by congruence. subst c'. apply Ne. pose proof (cat_fun _ _ _ _ K C). congruence. }
  split; auto.
  - eapply nodup_perm; [|exact k_nodup0]. unfold items. rewrite P, <- !app_assoc. reflexivity.
  - intros a b g h k G H Tg Th. destruct (U _ _ G) as (g0 & G0 & E1 & _). destruct (U _ _ H) as (h0 & H0 & E2 & _). rewrite E1 in Tg. rewrite E2 in Th. eauto.
  - intros t g k G Tg C. destruct (U _ _ G) as (g0 & G0 & E1 & _). rewrite E1 in Tg. apply in_or_app. left. eauto.
  - intros k j C. destruct (k_await0 k j C) as (t & g & h & G & Tg & H & R).
    destruct (V _ _ G) as (g' & G' & T' & _). destruct (V _ _ H) as (h' & H' & _ & S' & _).
    exists t, g', h'. split; auto. split; [congruence|]. split; auto. destruct (Nat.eqb_spec j i) as [->|Ne].
    + destruct S' as (D' & _). rewrite D'. rewrite N in H. injection H as <-. rewrite D in R. apply in_or_app. right. apply R.
    + destruct S' as (S' & C'). rewrite (is_done_state _ _ S'). destruct (is_done h); [apply in_or_app; auto|]. destruct R as [R1 R2]. rewrite C'. split; auto.
      rewrite (WL k j t g g'); auto.
  - intros w H. apply in_app_or in H. destruct H as [H|H]; [auto|]. destruct (k_cbs0 i f w N H) as (k & Hk & C). exists k. split; auto.
    destruct (w_task w); [|auto]. destruct C as [C _]. right. exists i. split; auto. discriminate.
  - intros j g' w G' H. destruct (U _ _ G') as (g & G & _ & S' & _). destruct (Nat.eqb_spec j i) as [->|Ne]; [destruct S' as (_ & E & _); rewrite E in H; easy|].
    destruct S' as (_ & E). rewrite E in H. destruct (k_cbs0 j g w G H) as (k & Hk & C). exists k. split; auto. destruct (w_task w) as [t|]; auto.
    destruct C as [C (x & X1 & X2 & X3)]. split; auto. destruct (V _ _ X1) as (x' & X' & T' & _). exists x'. split; auto. split; [congruence|].
    rewrite (WL k j t x x'); auto.
  - intros t g' k G' Tg. destruct (U _ _ G') as (g & G & E & S' & _). rewrite E in Tg. destruct (Nat.eqb_spec t i) as [->|Ne].
    + destruct S' as (_ & _ & S'). apply S'. congruence.
    + destruct S' as (S' & _). rewrite S'. eauto.
  - intros t g' k G' Tg. destruct (U _ _ G') as (g & G & E & _). rewrite E in Tg. eauto.
Qed.
(** timers expire *)
Lemma tok_expire due tm' : Permutation tm (due ++ tm') -> tok (rd ++ due) fs cs tm' cur.
Proof.
  intros P. destruct T. split; auto.
  - eapply nodup_perm; [|exact k_nodup0]. unfold items. rewrite P, <- !app_assoc. apply Permutation_app_head.
    rewrite !app_assoc. do 2 apply Permutation_app_tail. apply Permutation_app_comm.
  - intros. apply in_or_app. eauto.
  - intros k j C. destruct (k_await0 k j C) as (t & g & h & G & Tg & H & R). exists t, g, h. split; auto. split; auto. split; auto.
    destruct (is_done h); auto. apply in_or_app. auto.
  - intros w H. apply in_app_or in H. destruct H as [H|H]; auto. destruct (k_tm0 w) as (k & Hk & _ & C); [eapply Permutation_in; [symmetry; exact P|]; apply in_or_app; auto|].
    exists k. auto.
  - intros w H. apply k_tm0. eapply Permutation_in; [symmetry; exact P|]. apply in_or_app; auto.
Qed.
(** timers are dropped *)
Lemma tok_drop_timer x tm' : Permutation tm (x ++ tm') -> tok rd fs cs tm' cur.
Proof.
  intros P. destruct T. split; auto.
  - assert (PP : Permutation (items rd fs tm cur) (x ++ items rd fs tm' cur)).
    { unfold items. rewrite P, <- (app_assoc x), (app_assoc rd). rewrite Permutation_app_swap_app. now rewrite <- app_assoc. }
    eapply nodup_perm in PP; [|exact k_nodup0]. rewrite map_app in PP. eapply nodup_right; eauto.
  - intros w H. apply k_tm0. eapply Permutation_in; [symmetry; exact P|]. apply in_or_app; auto.
Qed.
(** only the histories of coroutines change *)
Lemma tok_cs cs' : length cs' = length cs -> (forall c p, cat cs' c p <-> cat cs c p) -> tok rd fs cs' tm cur.
Proof.
  intros L E. destruct T. split; auto.
  - intros t f c F Ft C. apply E in C. eauto.
  - intros c i C. apply E in C. eauto.
  - intros w H. destruct (k_rd0 w H) as (c & Hc & [C|(i & C & X)]); exists c; split; auto; [left; now apply E|right; exists i; split; auto; now apply E].
  - intros i g w G H. destruct (k_cbs0 i g w G H) as (c & Hc & C). exists c. split; auto. destruct (w_task w); [|now apply E]. destruct C. split; auto. now apply E.
  - intros w H. destruct (k_tm0 w H) as (c & Hc & Ht & C). exists c. split; auto. split; auto. now apply E.
  - intros w H. destruct (k_cur0 w H) as (c & Hc & C). exists c. split; auto. now apply E.
  - intros c C. apply E in C. eauto.
  - rewrite L. eauto.
Qed.
End Prim.

(** a callback is taken out of the queue *)
Lemma tok_drop_ready a w b fs cs tm cur : tok (a ++ w :: b) fs cs tm cur -> w_task w = None -> tok (a ++ b) fs cs tm cur.
Proof.
  intros T Hw. destruct T. 
  assert (IN : forall v, In v (a ++ w :: b) -> w_task v <> None -> In v (a ++ b)).
  { intros v H Hv. apply in_app_or in H. apply in_or_app. destruct H as [H|[<-|H]]; auto. congruence. }
  assert (SUB : forall v, In v (a ++ b) -> In v (a ++ w :: b)) by (intros v H; apply in_app_or in H; apply in_or_app; cbn; tauto).
  split; auto.
  - unfold items in *. rewrite <- app_assoc in *. cbn [app] in *. rewrite map_app in *. cbn [map] in *. now apply NoDup_remove_1 in k_nodup0.
  - intros t f c F Ft C. apply IN; [eauto|discriminate].
  - intros k j C. destruct (k_await0 k j C) as (t & g & h & G & Tg & H & R). exists t, g, h. split; auto. split; auto. split; auto.
    destruct (is_done h); auto. apply IN; [auto|discriminate].
Qed.
(** the first work item starts *)
Lemma tok_begin w rest fs cs tm c x x' : tok (w :: rest) fs cs tm [] -> w_coro w = Some c -> nth_error cs c = Some x -> c_at x' = Active ->
  tok rest fs (upd cs c x') tm [w].
Proof.
  intros T Hw X A. destruct T. pose proof k_nodup0 as ND. unfold items in ND. cbn [app map] in ND. inversion ND as [|? ? NI ND']; subst.
  assert (NN : nth_error cs c <> None) by congruence.
  (* other coroutines do not move *)
  assert (DIF : forall v k, In v (rest ++ cbs_of fs ++ tm ++ []) -> w_coro v = Some k -> k <> c).
  { intros v k H Hk ->. apply NI. rewrite Hw, <- Hk. now apply in_map. }
  assert (REST : forall k t, In (W (Some k) t) (w :: rest) -> k <> c -> In (W (Some k) t) rest).
  { intros k t [->|H] Ne; auto. cbn in Hw. congruence. }
  split; auto.
  - unfold items in *. eapply nodup_perm; [|exact k_nodup0]. rewrite app_nil_r. cbn [app]. apply Permutation_sym. rewrite !app_assoc. symmetry. apply Permutation_cons_append.
  - intros t f k F Ft C. apply cat_upd in C; auto. destruct C as [[-> C]|[Ne C]]; [congruence|]. eauto.
  - intros k j C. apply cat_upd in C; auto. destruct C as [[-> C]|[Ne C]]; [congruence|]. destruct (k_await0 k j C) as (t & g & h & G & Tg & H & R).
    exists t, g, h. split; auto. split; auto. split; auto. destruct (is_done h); auto.
  - intros v H. destruct (k_rd0 v) as (k & Hk & C); [now right|]. exists k. split; auto.
    assert (k <> c) by (eapply DIF; [|exact Hk]; apply in_or_app; auto).
    destruct C as [C|(i & C & Z)]; [left; now apply cat_upd_ne|right; exists i; split; auto; now apply cat_upd_ne].
  - intros i g v G H. destruct (k_cbs0 i g v G H) as (k & Hk & C). exists k. split; auto.
    assert (k <> c) by (eapply DIF; [|exact Hk]; rewrite !in_app_iff; right; left; eapply cbs_in; eauto).
    destruct (w_task v); [destruct C; split; auto; now apply cat_upd_ne|now apply cat_upd_ne].
  - intros v H. destruct (k_tm0 v H) as (k & Hk & Ht & C). exists k. split; auto. split; auto.
    assert (k <> c) by (eapply DIF; [|exact Hk]; rewrite !in_app_iff; auto). now apply cat_upd_ne.
  - intros v [<-|[]]. exists c. split; auto. rewrite <- A. eapply cat_upd_eq; eauto.
  - intros k C. apply cat_upd in C; auto. destruct C as [[-> C]|[Ne C]]; [exists w; split; auto; now left|]. destruct (k_active0 k C) as (v & [] & _).
  - rewrite upd_length. eauto.
Qed.
(** the running work item ends *)
Lemma tok_end rd w fs cs tm c x x' : tok rd fs cs tm [w] -> w_coro w = Some c -> nth_error cs c = Some x -> c_at x' = Returned \/ c_at x' = Broken ->
  tok rd fs (upd cs c x') tm [].
Proof.
  intros T Hw X A. destruct T. pose proof k_nodup0 as ND. unfold items in ND.
  assert (NN : nth_error cs c <> None) by congruence.
  assert (DIF : forall v k, In v (rd ++ cbs_of fs ++ tm) -> w_coro v = Some k -> k <> c).
  { intros v k H Hk ->. rewrite !app_assoc in ND. rewrite <- (app_assoc rd) in ND. eapply (nodup_app_disjoint (rd ++ cbs_of fs ++ tm) [w] v w).
    - rewrite app_assoc. rewrite <- app_assoc in ND. rewrite !app_assoc in *. exact ND.
    - exact H. - now left. - congruence. }
  split; auto.
  - unfold items. rewrite app_nil_r. rewrite !app_assoc in ND. rewrite map_app in ND. cbn in ND. apply NoDup_remove_1 in ND. rewrite app_nil_r in ND. now rewrite !app_assoc.
  - intros t f k F Ft C. apply cat_upd in C; auto. destruct C as [[-> C]|[Ne C]]; [destruct A; congruence|]. eauto.
  - intros k j C. apply cat_upd in C; auto. destruct C as [[-> C]|[Ne C]]; [destruct A; congruence|]. eauto.
  - intros v H. destruct (k_rd0 v H) as (k & Hk & C). exists k. split; auto.
    assert (k <> c) by (eapply DIF; [|exact Hk]; apply in_or_app; auto).
    destruct C as [C|(i & C & Z)]; [left; now apply cat_upd_ne|right; exists i; split; auto; now apply cat_upd_ne].
  - intros i g v G H. destruct (k_cbs0 i g v G H) as (k & Hk & C). exists k. split; auto.
    assert (k <> c) by (eapply DIF; [|exact Hk]; rewrite !in_app_iff; right; left; eapply cbs_in; eauto).
    destruct (w_task v); [destruct C; split; auto; now apply cat_upd_ne|now apply cat_upd_ne].
  - intros v H. destruct (k_tm0 v H) as (k & Hk & Ht & C). exists k. split; auto. split; auto.
    assert (k <> c) by (eapply DIF; [|exact Hk]; rewrite !in_app_iff; auto). now apply cat_upd_ne.
  - intros v [].
  - intros k C. apply cat_upd in C; auto. destruct C as [[-> C]|[Ne C]]; [destruct A; congruence|]. destruct (k_active0 k C) as (v & [<-|[]] & E). congruence.
  - rewrite upd_length. eauto.
Qed.
(** the running task waits for a pending future *)
Lemma tok_wait rd fs fs' cs tm c t x x' i f f' ft ft' : tok rd fs cs tm [W (Some c) (Some t)] -> nth_error cs c = Some x -> c_at x' = AtAwait i ->
  nth_error fs i = Some f -> is_done f = false -> nth_error fs t = Some ft -> f_task ft = Some c ->
  (forall j g, nth_error fs j = Some g -> exists g', nth_error fs' j = Some g' /\ f_state g' = f_state g /\ f_task g' = f_task g
     /\ f_cbs g' = f_cbs g ++ (if j =? i then [W (Some c) (Some t)] else [])
     /\ f_wait_lock g' = if j =? t then Some i else f_wait_lock g) ->
  length fs' = length fs -> nth_error fs' i = Some f' -> nth_error fs' t = Some ft' ->
  tok rd fs' (upd cs c x') tm [].
Proof.
  intros T X A N D Nt Tt V L Ni' Nt'. destruct T. pose proof k_nodup0 as ND. unfold items in ND.
  assert (NN : nth_error cs c <> None) by congruence.
  assert (DIF : forall v k, In v (rd ++ cbs_of fs ++ tm) -> w_coro v = Some k -> k <> c).
  { intros v k H Hk ->. rewrite !app_assoc in ND. rewrite <- (app_assoc rd) in ND. eapply (nodup_app_disjoint (rd ++ cbs_of fs ++ tm) [W (Some c) (Some t)] v (W (Some c) (Some t))).
    - rewrite app_assoc. rewrite <- app_assoc in ND. rewrite !app_assoc in *. exact ND.
    - exact H. - now left. - auto. }
  assert (CA : cat cs c Active) by (destruct (k_cur0 (W (Some c) (Some t))) as (k & Hk & C); [now left|]; cbn in Hk; injection Hk as <-; auto).
  assert (U : forall j g', nth_error fs' j = Some g' -> exists g, nth_error fs j = Some g /\ f_state g' = f_state g /\ f_task g' = f_task g
     /\ f_cbs g' = f_cbs g ++ (if j =? i then [W (Some c) (Some t)] else [])
     /\ f_wait_lock g' = if j =? t then Some i else f_wait_lock g).
  { intros j g' G'. destruct (nth_error fs j) as [g|] eqn:G; [|apply nth_error_None in G; assert (j < length fs') by (apply nth_error_Some; congruence); lia].
    destruct (V j g G) as (g1 & G1 & R). rewrite G' in G1. injection G1 as <-. eauto. }
  assert (PC : Permutation (cbs_of fs') (W (Some c) (Some t) :: cbs_of fs)).
  { destruct (cbs_upd fs i f f' N) as (rest & P1 & P2). rewrite P1.
    assert (E : cbs_of fs' = cbs_of (upd fs i f')).
    { symmetry. apply cbs_same. intros j. destruct (Nat.eq_dec i j) as [<-|Ne]; [now rewrite (nth_upd_eq _ _ _ _ N), Ni'|]. rewrite nth_upd_ne by auto.
      destruct (nth_error fs j) as [g|] eqn:G.
      - destruct (V j g G) as (g' & -> & _ & _ & C & _). cbn. rewrite C. replace (j =? i) with false by (symmetry; apply Nat.eqb_neq; auto). now rewrite app_nil_r.
      - apply nth_error_None in G. rewrite <- L in G. apply nth_error_None in G. now rewrite G. }
    rewrite E, P2. destruct (V i f N) as (f1 & F1 & _ & _ & C & _). rewrite Ni' in F1. injection F1 as <-. rewrite C, Nat.eqb_refl.
    rewrite <- app_assoc. cbn. symmetry. apply Permutation_middle. }
  (* the lock of another task stays *)
  assert (WL : forall k t0 g g', k <> c -> nth_error fs t0 = Some g -> f_task g = Some k -> nth_error fs' t0 = Some g' -> f_wait_lock g' = f_wait_lock g).
  { intros k t0 g g' Ne G Tg G'. destruct (V _ _ G) as (g1 & G1 & _ & _ & _ & E). rewrite G' in G1. injection G1 as <-.
    destruct (Nat.eqb_spec t0 t) as [->|]; auto. congruence. }
  split; auto.
  - eapply nodup_perm; [|exact k_nodup0]. unfold items. rewrite PC, app_nil_r. cbn [app]. rewrite !app_assoc. rewrite <- Permutation_cons_append.
    rewrite <- !app_assoc. apply Permutation_middle.
  - intros a b g h k G H Tg Th. destruct (U _ _ G) as (g0 & G0 & _ & E1 & _). destruct (U _ _ H) as (h0 & H0 & _ & E2 & _). rewrite E1 in Tg. rewrite E2 in Th. eauto.
  - intros t0 g k G Tg C. apply cat_upd in C; auto. destruct C as [[-> C]|[Ne C]]; [congruence|]. destruct (U _ _ G) as (g0 & G0 & _ & E1 & _). rewrite E1 in Tg. eauto.
  - intros k j C. apply cat_upd in C; auto. destruct C as [[-> C]|[Ne C]].
    + rewrite A in C. injection C as <-. exists t, ft', f'. split; auto. destruct (U _ _ Nt') as (g0 & G0 & _ & E1 & _ & E2). rewrite Nt in G0. injection G0 as <-.
      split; [congruence|]. split; auto. destruct (U _ _ Ni') as (g1 & G1 & S1 & _ & C1 & _). rewrite N in G1. injection G1 as <-. rewrite (is_done_state _ _ S1), D.
      rewrite C1, Nat.eqb_refl, E2, Nat.eqb_refl. split; auto. apply in_or_app. right. now left.
    + destruct (k_await0 k j C) as (t0 & g & h & G & Tg & H & R). destruct (V _ _ G) as (g' & G' & _ & T' & _). destruct (V _ _ H) as (h' & H' & S' & _ & C' & _).
      exists t0, g', h'. split; auto. split; [congruence|]. split; auto. rewrite (is_done_state _ _ S'). destruct (is_done h); auto. destruct R as [R1 R2].
      split; [rewrite C'; apply in_or_app; auto|]. rewrite (WL k t0 g g'); auto.
  - intros v H. destruct (k_rd0 v H) as (k & Hk & C). exists k. split; auto.
    assert (k <> c) by (eapply DIF; [|exact Hk]; apply in_or_app; auto).
    destruct C as [C|(j & C & Z)]; [left; now apply cat_upd_ne|right; exists j; split; auto; now apply cat_upd_ne].
  - intros j g' v G' H. destruct (U _ _ G') as (g & G & _ & _ & C' & _). rewrite C' in H. apply in_app_or in H. destruct H as [H|H].
    + destruct (k_cbs0 j g v G H) as (k & Hk & C). exists k. split; auto.
      assert (k <> c) by (eapply DIF; [|exact Hk]; rewrite !in_app_iff; right; left; eapply cbs_in; eauto).
      destruct (w_task v) as [tv|]; [|now apply cat_upd_ne]. destruct C as [C (y & Y1 & Y2 & Y3)]. split; [now apply cat_upd_ne|].
      destruct (V _ _ Y1) as (y' & Y1' & _ & Y2' & _). exists y'. split; auto. split; [congruence|]. rewrite (WL k tv y y'); auto.
    + destruct (Nat.eqb_spec j i) as [->|]; [|easy]. destruct H as [<-|[]]. exists c. split; auto. cbn [w_task]. split; [rewrite <- A; eapply cat_upd_eq; eauto|].
      exists ft'. split; auto. destruct (U _ _ Nt') as (g0 & G0 & _ & E1 & _ & E2). rewrite Nt in G0. injection G0 as <-. rewrite Nat.eqb_refl in E2. split; congruence.
  - intros v H. destruct (k_tm0 v H) as (k & Hk & Ht & C). exists k. split; auto. split; auto.
    assert (k <> c) by (eapply DIF; [|exact Hk]; rewrite !in_app_iff; auto). now apply cat_upd_ne.
  - intros v [].
  - intros k C. apply cat_upd in C; auto. destruct C as [[-> C]|[Ne C]]; [congruence|]. destruct (k_active0 k C) as (v & [<-|[]] & E). cbn in E. congruence.
  - intros t0 g k G Tg. destruct (U _ _ G) as (g0 & G0 & E0 & E1 & _). rewrite E1 in Tg. rewrite E0. eauto.
  - intros t0 g k G Tg. destruct (U _ _ G) as (g0 & G0 & _ & E1 & _). rewrite E1 in Tg. rewrite upd_length. eauto.
Qed.

(** ** States *)
Definition live_timers (s : world) : list work := expired s (pending_timers s).
Definition tokw (s : world) (cur : list work) : Prop := tok (ready s) (w_futs s) (w_coros s) (live_timers s) cur.
Definition glive (s : world) : Prop := forall g x f, nth_error (w_gathers s) g = Some x -> nth_error (w_futs s) (g_outer x) = Some f -> f_state f <> Cancelled.
(** no future gets cancelled *)
Definition ncan (s s' : world) : Prop := forall j f', nth_error (w_futs s') j = Some f' -> f_state f' = Cancelled -> exists f, nth_error (w_futs s) j = Some f /\ f_state f = Cancelled.

Lemma tokw_eq s s' cur : tokw s cur -> w_queue s' = w_queue s -> w_futs s' = w_futs s -> w_coros s' = w_coros s -> w_timers s' = w_timers s -> tokw s' cur.
Proof. intros T Q F C M. unfold tokw, ready, live_timers, expired, pending_timers in *. now rewrite Q, F, C, M. Qed.
Lemma glive_mono s s' : glive s -> ncan s s' -> w_gathers s' = w_gathers s -> glive s'.
Proof. intros G N E g x f X F S. rewrite E in X. destruct (N _ _ F S) as (f0 & F0 & S0). exact (G g x f0 X F0 S0). Qed.
Lemma ncan_same s s' : w_futs s' = w_futs s -> ncan s s'.
Proof. intros E j f F S. rewrite E in F. eauto. Qed.
Lemma ncan_trans a b c : ncan a b -> ncan b c -> ncan a c.
Proof. intros H1 H2 j f F S. destruct (H2 j f F S) as (g & G & Sg). eauto. Qed.

Lemma sched_t i cbs : forall s, inv s -> Forall (wf s) cbs -> NoDup (map w_coro cbs) ->
  (forall w t, In w cbs -> w_task w = Some t -> exists f, nth_error (w_futs s) t = Some f /\ f_wait_lock f = Some i) ->
  exists s', schedule_callbacks s i cbs = Ok s' /\ ready s' = ready s ++ cbs /\ length (w_futs s') = length (w_futs s) /\
    forall j g, nth_error (w_futs s) j = Some g -> exists g', nth_error (w_futs s') j = Some g' /\ f_state g' = f_state g /\ f_cbs g' = f_cbs g /\ f_task g' = f_task g
      /\ (f_wait_lock g' = f_wait_lock g \/ exists w, In w cbs /\ w_task w = Some j).
Proof.
  induction cbs as [|w cbs IH]; intros s I F ND WT; cbn [schedule_callbacks].
  - exists s. split; auto. split; [now rewrite app_nil_r|]. split; auto. intros j g G. exists g. auto 10.
  - pose proof (Forall_inv F) as Ww. apply Forall_inv_tail in F. cbn in ND. inversion ND as [|? ? NI ND']; subst. destruct (w_task w) as [t|] eqn:Et.
    + destruct (WT w t (or_introl eq_refl) Et) as (f & Nf & Wl). unfold get_fut. rewrite (read_ok _ _ _ Nf). cbn [bind]. rewrite Wl, Nat.eqb_refl.
      destruct (set_wait_ok s t f None None I Nf) as (I1 & E1 & _); [discriminate|]. cbv zeta in *.
      set (f0 := Fut (f_state f) (f_cbs f) (f_cap f) (f_task f) None None) in *.
      assert (W1 : wf (set_fut s t f0) w) by (eapply wf_ext; eauto).
      destruct (soon_ok (set_fut s t f0) w I1 W1) as (n & s2 & E & I2 & E2 & _ & [q Eq] & _ & _ & _ & R2). rewrite E. cbn [bind].
      destruct (IH s2 I2) as (s' & E' & R' & L' & V'); auto.
      { eapply Forall_impl; [|exact F]. intros v Hv. eapply wf_ext; [exact E2|]. eapply wf_ext; eauto. }
      { intros v u Hv Hu. destruct (WT v u (or_intror Hv) Hu) as (g & Ng & Lg). exists g. split; auto. rewrite Eq. cbn [set_queue w_futs set_fut set_futs].
        rewrite nth_upd_ne; auto. intros <-. apply NI. apply in_map_iff. exists v. split; auto.
        rewrite Forall_forall in F. destruct (F v Hv) as (cv & xv & Cv & _ & Tv). destruct Ww as (cw & xw & Cw & _ & Tw).
        destruct (Tv t Hu) as (g1 & G1 & T1). destruct (Tw t Et) as (g2 & G2 & T2). congruence. }
      exists s'. split; auto. split; [rewrite R', R2, <- app_assoc; reflexivity|].
      split; [rewrite L', Eq; cbn; now rewrite upd_length|].
      intros j g G. assert (G1 : exists g1, nth_error (w_futs s2) j = Some g1 /\ f_state g1 = f_state g /\ f_cbs g1 = f_cbs g /\ f_task g1 = f_task g /\ (f_wait_lock g1 = f_wait_lock g \/ j = t)).
      { rewrite Eq. cbn [set_queue w_futs set_fut set_futs]. destruct (Nat.eq_dec t j) as [<-|Ne].
        - exists f0. rewrite (nth_upd_eq _ _ _ _ Nf). rewrite Nf in G. injection G as <-. auto 10.
        - exists g. rewrite nth_upd_ne by auto. auto 10. }
      destruct G1 as (g1 & G1 & S1 & C1 & T1 & L1). destruct (V' j g1 G1) as (g' & G' & S' & C' & T' & Lk'). exists g'. split; auto. split; [congruence|]. split; [congruence|]. split; [congruence|].
      destruct L1 as [L1| ->]; [|right; exists w; split; auto; now left]. destruct Lk' as [Lk'|(v & Hv & Tv)]; [left; congruence|right; exists v; split; auto; now right].
    + destruct (soon_ok s w I Ww) as (n & s2 & E & I2 & E2 & _ & [q Eq] & _ & _ & _ & R2). rewrite E. cbn [bind].
      destruct (IH s2 I2) as (s' & E' & R' & L' & V'); auto.
      { eapply Forall_impl; [|exact F]. intros v Hv. eapply wf_ext; eauto. }
      { intros v u Hv Hu. rewrite Eq. cbn. apply (WT v u); auto. now right. }
      exists s'. split; auto. split; [rewrite R', R2, <- app_assoc; reflexivity|]. split; [rewrite L', Eq; reflexivity|].
      intros j g G. destruct (V' j g) as (g' & G' & S' & C' & T' & L1); [rewrite Eq; exact G|]. exists g'. repeat (split; auto).
      destruct L1 as [L1|(v & Hv & Tv)]; auto. right. exists v. split; auto. now right.
Qed.

Lemma nodup_sub (a b c : list work) : NoDup (map w_coro (a ++ b ++ c)) -> NoDup (map w_coro b).
Proof. rewrite !map_app. intros H. apply nodup_right in H. revert H. induction (map w_coro b) as [|x l IH]; cbn; [constructor|]. intros H. inversion H; subst. constructor; [rewrite in_app_iff in *; tauto|auto]. Qed.

Lemma resolve_t s i f st cur : inv s -> tokw s cur -> nth_error (w_futs s) i = Some f -> is_done f = false -> st <> Pending -> (f_task f <> None -> st <> Cancelled) ->
  exists s', resolve s i st = Ok s' /\ inv s' /\ tokw s' cur /\ frame s s' /\ ext s s' /\ ready s' = ready s ++ f_cbs f /\
    (forall j f', nth_error (w_futs s') j = Some f' -> exists g, nth_error (w_futs s) j = Some g /\ f_state f' = if j =? i then st else f_state g).
Proof.
  intros I T N D NP NC. destruct (resolve_ok s i f st I N D NP) as (s' & new & f' & E & I' & X & A & Fr & N' & S'). exists s'. split; auto. split; auto.
  unfold resolve, get_fut in E. rewrite (read_ok _ _ _ N) in E. cbn [bind] in E. set (f0 := Fut st [] 0 (f_task f) (f_wait_task f) (f_wait_lock f)) in *.
  pose proof (i_futs _ I i f N) as [Dn Cp B Tk Wt].
  destruct (set_fut_inv s i f f0 I N) as [I1 E1].
  { split; auto. congruence. }
  { split; cbn; auto. }
  assert (Nd : NoDup (map w_coro (f_cbs f))).
  { pose proof (k_nodup _ _ _ _ _ T) as ND. unfold items in ND. destruct (cbs_upd (w_futs s) i f f0 N) as (rest & P & _).
    assert (PP : NoDup (map w_coro (ready s ++ f_cbs f ++ rest ++ live_timers s ++ cur))).
    { eapply nodup_perm; [|exact ND]. rewrite P, <- !app_assoc. reflexivity. }
    eapply nodup_sub; exact PP. }
  destruct (sched_t i (f_cbs f) (set_fut s i f0) I1) as (s2 & E2 & R2 & L2 & V2); auto.
  { eapply Forall_impl; [|exact B]. intros v. now apply wf_ext. }
  { intros w t Hw Ht. destruct (k_cbs _ _ _ _ _ T i f w N Hw) as (c & Hc & K). rewrite Ht in K. destruct K as (_ & g & G & Tg & Lg).
    cbn [set_fut set_futs w_futs]. destruct (Nat.eq_dec i t) as [<-|Ne].
    - exists f0. rewrite (nth_upd_eq _ _ _ _ N). rewrite N in G. injection G as <-. auto.
    - exists g. rewrite nth_upd_ne by auto. auto. }
  rewrite E in E2. injection E2 as <-.
  assert (LL : length (w_futs s') = length (w_futs s)) by (rewrite L2; cbn; now rewrite upd_length).
  assert (VV : forall j g, nth_error (w_futs s) j = Some g -> exists g', nth_error (w_futs s') j = Some g' /\ f_task g' = f_task g
     /\ (if j =? i then is_done g' = true /\ f_cbs g' = [] /\ f_state g' = st else f_state g' = f_state g /\ f_cbs g' = f_cbs g)
     /\ (f_wait_lock g' = f_wait_lock g \/ exists w, In w (f_cbs f) /\ w_task w = Some j)).
  { intros j g G. destruct (Nat.eqb_spec j i) as [->|Ne].
    - rewrite N in G. injection G as <-. destruct (V2 i f0) as (g' & G' & S2 & C2 & T2 & W2); [cbn; apply (nth_upd_eq _ _ _ _ N)|].
      exists g'. split; auto. split; [exact T2|]. split; auto. split; [unfold is_done; rewrite S2; cbn; destruct st; auto; congruence|]. split; [exact C2|exact S2].
    - destruct (V2 j g) as (g' & G' & S2 & C2 & T2 & W2); [cbn; rewrite nth_upd_ne by auto; exact G|]. exists g'. auto. }
  assert (RR : ready s' = ready s ++ f_cbs f) by exact R2.
  split; [|split; [exact Fr|split; [exact X|split; [exact RR|]]]].
  - unfold tokw in *. destruct Fr as (Ft & Fc & _). rewrite RR, Fc. unfold live_timers, expired, pending_timers in *. rewrite Ft.
    eapply tok_resolve; eauto.
    + intros j g G. destruct (VV j g G) as (g' & G' & T' & S2 & W2). exists g'. split; auto. split; auto. split; auto.
      destruct (Nat.eqb_spec j i) as [->|]; auto. destruct S2 as (S2 & C2 & St2). split; auto. split; auto. rewrite N in G. injection G as <-. rewrite St2. exact NC.
    + destruct (cbs_upd (w_futs s) i f f0 N) as (rest & P1 & P2). rewrite P1. apply Permutation_app_head. cbn [f_cbs f0 app] in P2. rewrite <- P2.
      erewrite (cbs_same (upd (w_futs s) i f0) (w_futs s')); [reflexivity|]. intros j. destruct (nth_error (upd (w_futs s) i f0) j) as [g|] eqn:G.
      * destruct (V2 j g G) as (g' & -> & _ & C2 & _). cbn. now rewrite C2.
      * apply nth_error_None in G. rewrite upd_length, <- LL in G. apply nth_error_None in G. now rewrite G.
  - intros j g' G'. destruct (nth_error (w_futs s) j) as [g|] eqn:G; [|apply nth_error_None in G; assert (j < length (w_futs s')) by (apply nth_error_Some; congruence); lia].
    exists g. split; auto. destruct (VV j g G) as (g1 & G1 & _ & S2 & _). rewrite G' in G1. injection G1 as <-. destruct (j =? i); [apply S2|apply S2].
Qed.
Lemma resolve_ncan s s' i st : (forall j f', nth_error (w_futs s') j = Some f' -> exists g, nth_error (w_futs s) j = Some g /\ f_state f' = if j =? i then st else f_state g) ->
  st <> Cancelled -> ncan s s'.
Proof. intros H NC j f' F' S. destruct (H j f' F') as (g & G & E). exists g. split; auto. destruct (j =? i); congruence. Qed.

Lemma rind_t s i st cur : inv s -> tokw s cur -> i < length (w_futs s) -> st <> Pending -> st <> Cancelled ->
  exists s', resolve_if_not_done s i st = Ok s' /\ inv s' /\ tokw s' cur /\ frame s s' /\ ext s s' /\ ncan s s'.
Proof.
  intros I T B NP NC. unfold resolve_if_not_done, get_fut. destruct (nth_error (w_futs s) i) as [f|] eqn:F; [|apply nth_error_None in F; lia]. rewrite (read_ok _ _ _ F). cbn [bind].
  destruct (is_done f) eqn:D; [exists s; split; auto; split; auto; split; auto; split; [apply frame_refl|]; split; [apply ext_refl|now apply ncan_same]|].
  destruct (resolve_t s i f st cur I T F D NP (fun _ => NC)) as (s' & E & I' & T' & Fr & X & _ & St). exists s'. split; auto. split; auto. split; auto. split; auto. split; auto.
  eapply resolve_ncan; eauto.
Qed.

Lemma soon_t s c cur : inv s -> tokw s cur -> let s1 := snd (new_coro s c) in wf_code s (Coro c [] Start) ->
  exists n s', call_soon_work s1 (W (Some (length (w_coros s))) None) = Ok (n, s') /\ inv s' /\ tokw s' cur /\ w_futs s' = w_futs s /\ w_gathers s' = w_gathers s /\ w_mode s' = w_mode s /\ ext s s'
   /\ ready s' = ready s ++ [W (Some (length (w_coros s))) None] /\ w_coros s' = w_coros s ++ [Coro c [] Start].
Proof.
  intros I T s1 WC. destruct (new_coro_ok s c I WC) as (I1 & E1 & _ & W1 & N1). fold s1 in I1, E1, W1, N1.
  destruct (soon_ok s1 _ I1 W1) as (n & s2 & E & I2 & E2 & _ & [q Eq] & _ & _ & _ & R2). exists n, s2. split; auto. split; auto.
  assert (CC : w_coros s2 = w_coros s ++ [Coro c [] Start]) by (rewrite Eq; reflexivity).
  assert (RR : ready s2 = ready s ++ [W (Some (length (w_coros s))) None]) by exact R2.
  split; [|rewrite Eq; repeat split; auto; [eapply ext_trans; [exact E1|]; rewrite <- Eq; exact E2..|rewrite <- Eq; exact RR]].
  unfold tokw. rewrite RR, CC. replace (w_futs s2) with (w_futs s) by (rewrite Eq; reflexivity). replace (live_timers s2) with (live_timers s) by (rewrite Eq; reflexivity).
  apply tok_new_ready. exact T.
Qed.

(** ** Calls *)
Lemma add_cb_t s i f c cur : inv s -> tokw s cur -> nth_error (w_futs s) i = Some f -> wf_code s (Coro c [] Start) ->
  exists s', add_done_callback s i c = Ok s' /\ inv s' /\ tokw s' cur /\ ext s s' /\ w_gathers s' = w_gathers s /\ w_mode s' = w_mode s
   /\ length (w_futs s') = length (w_futs s)
   /\ (forall j, option_map f_state (nth_error (w_futs s') j) = option_map f_state (nth_error (w_futs s) j)).
Proof.
  intros I T N WC. unfold add_done_callback, get_fut. rewrite (read_ok _ _ _ N). cbn [bind].
  destruct (new_coro_ok s c I WC) as (I1 & E1 & _ & W1 & N1).
  destruct (is_done f) eqn:D.
  - destruct (soon_t s c cur I T WC) as (n & s' & E & I' & T' & F' & G' & M' & X' & _). unfold new_coro in E. cbn [snd] in E. cbn [new_coro]. rewrite E. cbn [bind].
    exists s'. split; auto. split; auto. split; auto. split; auto. split; auto. split; auto. rewrite F'. auto.
  - cbn [new_coro snd] in *. set (s1 := set_coros s (w_coros s ++ [Coro c [] Start])) in *.
    destruct (push_cb_ok s1 i f _ I1 N D W1) as (cap & E & I2 & X2 & _). rewrite E. eexists. split; [reflexivity|]. split; auto. split; [|split; [eapply ext_trans; eauto|split; auto; split; auto; split]].
    + unfold tokw. cbn [set_fut set_futs w_futs w_coros]. eapply (tok_new_cb _ _ _ _ _ T c i f); eauto.
    + cbn. now rewrite upd_length.
    + intros j. cbn [set_fut set_futs w_futs]. destruct (Nat.eq_dec i j) as [<-|Ne]; [|now rewrite nth_upd_ne].
      replace (nth_error (upd (w_futs s1) i _) i) with (Some (Fut (f_state f) (f_cbs f ++ [W (Some (length (w_coros s))) None]) cap (f_task f) (f_wait_task f) (f_wait_lock f))) by (symmetry; eapply nth_upd_eq; exact N).
      rewrite N. reflexivity.
Qed.
Lemma ncan_states s s' : (forall j, option_map f_state (nth_error (w_futs s') j) = option_map f_state (nth_error (w_futs s) j)) -> ncan s s'.
Proof. intros H j f' F S. specialize (H j). rewrite F in H. cbn in H. destruct (nth_error (w_futs s) j) as [g|]; [|discriminate]. injection H as H. exists g. split; congruence. Qed.

Lemma add_gather_t g fs : forall k s cur x, inv s -> tokw s cur -> nth_error (w_gathers s) g = Some x ->
  (forall n i, nth_error fs n = Some i -> nth_error (g_futs x) (k + n) = Some i /\ i < length (w_futs s)) ->
  exists s', add_gather_callbacks s g k fs = Ok s' /\ inv s' /\ tokw s' cur /\ ext s s' /\ w_gathers s' = w_gathers s /\ w_mode s' = w_mode s
   /\ length (w_futs s') = length (w_futs s)
   /\ (forall j, option_map f_state (nth_error (w_futs s') j) = option_map f_state (nth_error (w_futs s) j)).
Proof.
  induction fs as [|i fs IH]; intros k s cur x I T X B; cbn [add_gather_callbacks].
  - exists s. split; auto. split; auto. split; auto. split; [apply ext_refl|auto].
  - destruct (B 0 i eq_refl) as [K Bi]. rewrite Nat.add_0_r in K. destruct (nth_error (w_futs s) i) as [f|] eqn:N; [|apply nth_error_None in N; lia].
    destruct (add_cb_t s i f (CGather g k) cur I T N) as (s1 & E & I1 & T1 & X1 & G1 & M1 & L1 & S1). { cbn. eauto. }
    rewrite E. cbn [bind]. destruct (IH (S k) s1 cur x I1 T1) as (s2 & E2 & I2 & T2 & X2 & G2 & M2 & L2 & S2).
    + now rewrite G1.
    + intros n j Hn. destruct (B (S n) j Hn) as [Kn Bn]. rewrite L1. split; auto. rewrite <- Kn. f_equal. lia.
    + exists s2. split; auto. split; auto. split; auto. split; [eapply ext_trans; eauto|]. split; [congruence|]. split; [congruence|]. split; [congruence|]. intros j. now rewrite S2.
Qed.

Lemma start_gather_t s fs cur : inv s -> tokw s cur -> glive s -> (forall i, In i fs -> i < length (w_futs s)) ->
  exists o s', start_gather s fs = Ok (o, s') /\ inv s' /\ tokw s' cur /\ glive s' /\ w_mode s' = w_mode s.
Proof.
  intros I T GL B. unfold start_gather. destruct (new_future_ok s None I) as (I1 & X1 & _); [discriminate|].
  cbn [new_future snd] in *. set (s1 := set_futs s (w_futs s ++ [Fut Pending [] 0 None None None])) in *.
  assert (T1 : tokw s1 cur) by (apply tok_new_future; exact T).
  assert (N1 : nth_error (w_futs s1) (length (w_futs s)) = Some (Fut Pending [] 0 None None None)) by (cbn; rewrite nth_error_app2, Nat.sub_diag by lia; reflexivity).
  assert (NC1 : ncan s s1).
  { intros j f' F S. cbn in F. destruct (Nat.lt_ge_cases j (length (w_futs s))) as [Bj|Bj]; [rewrite nth_error_app1 in F by auto; eauto|].
    rewrite nth_error_app2 in F by auto. destruct (j - length (w_futs s)) as [|m]; [injection F as <-; discriminate|destruct m; discriminate]. }
  destruct fs as [|i fs].
  - destruct (resolve_t s1 _ _ (Finished (VTuple [])) cur I1 T1 N1 eq_refl) as (s2 & E & I2 & T2 & Fr & _ & _ & St); [discriminate|congruence|].
    rewrite E. cbn [bind]. eexists _, _. split; [reflexivity|]. split; auto. split; auto. destruct Fr as (_ & _ & G & _ & _ & _ & _ & M & _). split; [|exact M].
    apply (glive_mono s s2); auto. apply (ncan_trans _ s1); auto. eapply resolve_ncan; eauto. discriminate.
  - set (l := i :: fs) in *. set (x := G (length (w_futs s)) l (map (fun _ => VUninit) l) (Z.of_nat (length l))).
    destruct (set_gathers_ok s1 (w_gathers s1 ++ [x]) I1) as (I2 & X2 & _).
    + apply lext_app, gext_refl.
    + intros g y Y. destruct (Nat.lt_ge_cases g (length (w_gathers s1))) as [Bg|Bg]; [rewrite nth_error_app1 in Y by auto; auto|].
      rewrite nth_error_app2 in Y by auto. right. destruct (g - length (w_gathers s1)) as [|m]; [injection Y as <-|destruct m; discriminate].
      split; cbn; [rewrite app_length; cbn; lia|exact B|now rewrite map_length].
    + set (s2 := set_gathers s1 (w_gathers s1 ++ [x])) in *.
      assert (T2 : tokw s2 cur) by exact T1.
      assert (NG : nth_error (w_gathers s2) (length (w_gathers s1)) = Some x) by (cbn; rewrite nth_error_app2, Nat.sub_diag by lia; reflexivity).
      destruct (add_gather_t (length (w_gathers s1)) l 0 s2 cur x I2 T2 NG) as (s3 & E3 & I3 & T3 & X3 & G3 & M3 & L3 & S3).
      { intros n j Hn. split; [exact Hn|]. cbn. rewrite app_length. apply nth_error_In in Hn. specialize (B j Hn). lia. }
      unfold bind at 1. replace (length (w_gathers s)) with (length (w_gathers s1)) by reflexivity.
      unfold l at 1. cbv beta iota. fold l. fold x. fold s2. rewrite E3.
      assert (NO : exists f3, nth_error (w_futs s3) (length (w_futs s)) = Some f3).
      { destruct (nth_error (w_futs s3) (length (w_futs s))) eqn:Z; eauto. apply nth_error_None in Z. rewrite L3 in Z. cbn in Z. rewrite app_length in Z. cbn in Z. lia. }
      destruct NO as [f3 N3].
      destruct (add_cb_t s3 (length (w_futs s)) f3 (CGatherCancel (length (w_gathers s1))) cur I3 T3 N3) as (s4 & E4 & I4 & T4 & X4 & G4 & M4 & L4 & S4).
      { cbn. rewrite G3. eauto. }
      unfold bind. fold l in E4. rewrite E4. eexists _, _. split; [reflexivity|]. split; auto. split; auto. split; [|rewrite M4, M3; reflexivity].
      intros g y f Y F S. rewrite G4, G3 in Y.
      assert (SS : option_map f_state (nth_error (w_futs s1) (g_outer y)) = Some Cancelled).
      { transitivity (option_map f_state (nth_error (w_futs s4) (g_outer y))); [rewrite S4, S3; reflexivity|]. rewrite F. cbn. now rewrite S. }
      cbn in Y. destruct (Nat.lt_ge_cases g (length (w_gathers s))) as [Bg|Bg].
      * rewrite nth_error_app1 in Y by auto. destruct (nth_error (w_futs s1) (g_outer y)) as [f1|] eqn:F1; [|discriminate]. cbn in SS. injection SS as SS.
        destruct (NC1 _ _ F1 SS) as (f0 & F0 & S0). exact (GL g y f0 Y F0 S0).
      * rewrite nth_error_app2 in Y by auto. destruct (g - length (w_gathers s)) as [|m]; [injection Y as <-|destruct m; discriminate].
        cbn [g_outer x] in SS. rewrite N1 in SS. discriminate.
Qed.


Lemma fm_ext {A B} (f g : A -> list B) l : (forall x, In x l -> f x = g x) -> flat_map f l = flat_map g l.
Proof. intros H. rewrite !flat_map_concat_map. f_equal. now apply map_ext_in. Qed.
Lemma live_upd s t x t' : nth_error (ts_objs (w_timers s)) t = Some x -> ts_objs t' = upd (ts_objs (w_timers s)) t (Timer no_work (t_when x)) -> members t' = members (w_timers s) ->
  exists l, Permutation (live_timers s) (l ++ live_timers (set_timers s t')).
Proof.
  intros N O M. unfold live_timers, expired, pending_timers. cbn [set_timers w_timers]. fold (members (w_timers s)). fold (members t'). rewrite M, O. clear M O.
  induction (members (w_timers s)) as [|k ks [l P]]; [exists []; apply Permutation_refl|]. cbn [map concat]. unfold timer_work at 1 3. destruct (Nat.eq_dec t k) as [<-|Ne].
  - rewrite (nth_upd_eq _ _ _ _ N), N. exists ((match w_coro (t_work x) with Some _ => [t_work x] | None => [] end) ++ l). cbn [w_coro t_work no_work app]. rewrite <- app_assoc. now apply Permutation_app_head.
  - rewrite nth_upd_ne by auto. exists l. rewrite P. apply Permutation_app_swap_app.
Qed.

Lemma call_t s a cur : inv s -> tokw s cur -> glive s -> tame s a ->
  exists r s', call s a = Ok (r, s') /\ tokw s' cur /\ glive s'.
Proof.
  intros I T GL TA.
  assert (Z : forall r : resp, exists r0 s', Ok (r, s) = Ok (r0, s') /\ tokw s' cur /\ glive s') by (intros r; exists r, s; auto).
  destruct a; cbn [call]; try apply Z.
  - (* call_soon *)
    destruct (soon_t s (CUser c) cur I T Logic.I) as (n & s' & E & I' & T' & F' & G' & M' & _). unfold call_soon. cbn [new_coro snd] in *. rewrite E. cbn [bind].
    eexists _, _. split; [reflexivity|]. split; [exact T'|]. apply (glive_mono s); auto. now apply ncan_same.
  - (* call_later *)
    unfold call_later, new_coro. destruct (push_ok (w_timers s) (Timer (W (Some (length (w_coros s))) None) deadline) (i_timers _ I)) as (t' & E & OK & O & P).
    cbn [set_coros w_timers]. rewrite E. cbn [bind]. eexists _, _. split; [reflexivity|]. split; [|apply (glive_mono s); auto; now apply ncan_same].
    unfold tokw. change (ready (set_timers (set_coros s (w_coros s ++ [Coro (CUser c) [] Start])) t')) with (ready s). cbn [set_timers set_coros w_futs w_coros].
    apply (tok_new_timer _ _ _ _ _ T). unfold live_timers, expired, pending_timers. cbn [set_timers set_coros w_timers]. fold (members t'). fold (members (w_timers s)).
    rewrite <- !flat_map_concat_map. rewrite (Permutation_flat_map _ P). cbn [flat_map]. rewrite O. unfold timer_work at 1. rewrite nth_error_app2, Nat.sub_diag by lia. cbn [nth_error t_work w_coro app].
    apply perm_skip. erewrite fm_ext; [reflexivity|]. intros k K. unfold timer_work. rewrite nth_error_app1; auto. destruct (t_valid _ (i_timers _ I)) as [_ V]. now apply V.
  - (* cancel of a handle *)
    destruct (nth_error (w_handles s) n) as [k|] eqn:H; [|apply Z]. destruct (i_handles _ I n k H) as [Bk [Tk _]].
    unfold get_node. destruct (nth_error (q_nodes (w_queue s)) k) as [nd|] eqn:Nn; [|apply nth_error_None in Nn; lia]. cbn [bind].
    destruct (w_coro (n_work nd)) as [c|] eqn:Hc; [|apply Z].
    assert (Wk : work_of (w_queue s) k = n_work nd) by (unfold work_of; now rewrite Nn).
    destruct (canc_ok (w_queue s) k (i_queue _ I) Bk) as (q' & e & E & Q & D & R); [rewrite Wk; congruence|]. rewrite E. cbn [bind].
    eexists _, _. split; [reflexivity|]. split; [|apply (glive_mono s); auto; now apply ncan_same].
    unfold tokw in *. change (ready (set_queue s q')) with (waiting q'). cbn [set_queue w_futs w_coros]. change (live_timers (set_queue s q')) with (live_timers s).
    destruct R as [(a & b & R1 & R2 & _)|(R & _)].
    + rewrite R2. unfold ready in T. rewrite R1 in T. eapply tok_drop_ready; eauto.
    + rewrite R. exact T.
  - (* cancel of a timer *)
    destruct (nth_error (ts_objs (w_timers s)) t) as [x|] eqn:N; [|apply Z]. destruct (w_coro (t_work x)) eqn:Hc; [|apply Z].
    destruct (cancel_timer_ok _ _ _ (i_timers _ I) N) as (t' & Ec & OK & Mb & O & _). rewrite Ec. cbn [bind]. eexists _, _. split; [reflexivity|].
    split; [|apply (glive_mono s); auto; now apply ncan_same]. destruct (live_upd s t x t' N O Mb) as [l P]. unfold tokw in *. eapply tok_drop_timer; eauto.
  - (* a future *)
    cbn [new_future]. eexists _, _. split; [reflexivity|]. split; [apply tok_new_future; exact T|]. apply (glive_mono s); auto.
    intros j f' F S. cbn in F. destruct (Nat.lt_ge_cases j (length (w_futs s))) as [Bj|Bj]; [rewrite nth_error_app1 in F by auto; eauto|].
    rewrite nth_error_app2 in F by auto. destruct (j - length (w_futs s)) as [|m]; [injection F as <-; discriminate|destruct m; discriminate].
  - (* a task *)
    unfold create_task. destruct (new_coro_ok s (CUser c) I Logic.I) as (I1 & E1 & _ & _ & N1). cbn [new_coro snd] in *. set (s1 := set_coros s (w_coros s ++ [Coro (CUser c) [] Start])) in *.
    destruct (new_future_ok s1 (Some (length (w_coros s))) I1) as (I2 & E2 & _). { intros k [= <-]. cbn. rewrite app_length. cbn. lia. }
    cbn [new_future snd] in *. set (s2 := set_futs s1 (w_futs s1 ++ [Fut Pending [] 0 (Some (length (w_coros s))) None None])) in *.
    assert (W2 : wf s2 (W (Some (length (w_coros s))) (Some (length (w_futs s))))).
    { exists (length (w_coros s)), (Coro (CUser c) [] Start). split; auto. split; [exact N1|]. intros t [= <-]. eexists. cbn. rewrite nth_error_app2, Nat.sub_diag by lia. split; reflexivity. }
    destruct (soon_ok s2 _ I2 W2) as (n & s3 & E & _ & _ & _ & [q Eq] & _ & _ & _ & R3). replace (length (w_futs s1)) with (length (w_futs s)) by reflexivity. rewrite E. cbn [bind].
    eexists _, _. split; [reflexivity|]. split.
    + unfold tokw in *. rewrite R3. rewrite Eq. cbn [set_queue w_futs w_coros]. change (live_timers (set_queue s2 q)) with (live_timers s). apply tok_new_task. exact T.
    + apply (glive_mono s); auto; [|rewrite Eq; reflexivity]. intros j f' F S. rewrite Eq in F. cbn in F. destruct (Nat.lt_ge_cases j (length (w_futs s))) as [Bj|Bj]; [rewrite nth_error_app1 in F by auto; eauto|].
      rewrite nth_error_app2 in F by auto. destruct (j - length (w_futs s)) as [|m]; [injection F as <-; discriminate|destruct m; discriminate].
  - (* set_result *)
    destruct (nth_error (w_futs s) f) as [x|] eqn:N; [|apply Z]. destruct (is_done x) eqn:D; [apply Z|].
    destruct (resolve_t s f x (Finished v) cur I T N D) as (s' & E & _ & T' & Fr & _ & _ & St); [discriminate|discriminate|]. rewrite E. cbn [bind].
    eexists _, _. split; [reflexivity|]. split; auto. apply (glive_mono s); auto; [eapply resolve_ncan; eauto; discriminate|apply Fr].
  - (* set_exception *)
    destruct (nth_error (w_futs s) f) as [x|] eqn:N; [|apply Z]. destruct (is_done x) eqn:D; [apply Z|].
    destruct (resolve_t s f x (Failed e) cur I T N D) as (s' & E & _ & T' & Fr & _ & _ & St); [discriminate|discriminate|]. rewrite E. cbn [bind].
    eexists _, _. split; [reflexivity|]. split; auto. apply (glive_mono s); auto; [eapply resolve_ncan; eauto; discriminate|apply Fr].
  - (* cancel *)
    destruct (nth_error (w_futs s) f) as [x|] eqn:N; [|apply Z]. destruct TA as [TA1 TA2]. specialize (TA1 x N).
    cbn [fuel_of cancel_future existsb]. unfold fuel_of. cbn [cancel_future existsb]. unfold get_fut. rewrite (read_ok _ _ _ N). cbn [bind]. destruct (is_done x) eqn:D; [apply Z|].
    destruct (resolve_t s f x Cancelled cur I T N D) as (s' & E & _ & T' & Fr & _ & _ & St); [discriminate|congruence|]. rewrite E. cbn [bind]. rewrite TA1. cbn [bind].
    eexists _, _. split; [reflexivity|]. split; auto. intros g y f' Y F S. replace (w_gathers s') with (w_gathers s) in Y by (symmetry; apply Fr).
    destruct (St _ _ F) as (f0 & F0 & S0). specialize (TA2 g y Y). replace (g_outer y =? f) with false in S0 by (symmetry; now apply Nat.eqb_neq). apply (GL g y f0 Y F0). congruence.
  - (* add_done_callback *)
    destruct (nth_error (w_futs s) f) as [x|] eqn:N; [|apply Z]. destruct (add_cb_t s f x (CUser c) cur I T N Logic.I) as (s' & E & _ & T' & _ & G' & _ & _ & S'). rewrite E. cbn [bind].
    eexists _, _. split; [reflexivity|]. split; auto. apply (glive_mono s); auto. now apply ncan_states.
  - destruct (nth_error (w_futs s) f); apply Z.
  - destruct (nth_error (w_futs s) f); apply Z.
  - (* gather *)
    destruct (forallb _ fs) eqn:FB; [|apply Z]. destruct (start_gather_t s fs cur I T GL) as (o & s' & E & _ & T' & G' & _).
    { intros i Hi. rewrite forallb_forall in FB. specialize (FB i Hi). now apply Nat.ltb_lt in FB. }
    rewrite E. cbn [bind]. eexists _, _. split; [reflexivity|auto].
  - destruct TA.
Qed.

(** ** Bodies *)
Lemma finish_t s target w e v cur : inv s -> wf s w -> tokw s cur -> glive s ->
  exists s', finish_step s target w e v = Ok s' /\ tokw s' cur /\ glive s' /\ w_mode s' = Between target.
Proof.
  intros I W T GL. unfold finish_step.
  assert (Z : forall s1, tokw s1 cur -> glive s1 -> exists s', Ok (set_mode (set_curr s1 None) (Between target)) = Ok s' /\ tokw s' cur /\ glive s' /\ w_mode s' = Between target).
  { intros s1 T1 G1. eexists. split; [reflexivity|]. split; [exact T1|]. split; [exact G1|reflexivity]. }
  destruct (w_task w) as [t|] eqn:Et; [|cbn [bind]; auto]. destruct W as (c & x & _ & _ & Ht). destruct (Ht t Et) as (f & Nf & _).
  unfold get_fut. rewrite (read_ok _ _ _ Nf). cbn [bind]. destruct (is_done f) eqn:D; [cbn [bind]; auto|].
  assert (RS : forall st, st <> Pending -> st <> Cancelled -> exists s', (s <- resolve s t st ;; Ok (set_mode (set_curr s None) (Between target))) = Ok s' /\ tokw s' cur /\ glive s' /\ w_mode s' = Between target).
  { intros st NP NC. destruct (resolve_t s t f st cur I T Nf D NP (fun _ => NC)) as (s1 & E & _ & T1 & Fr & _ & _ & St). rewrite E. cbn [bind]. apply Z; auto.
    apply (glive_mono s); auto; [eapply resolve_ncan; eauto|apply Fr]. }
  destruct e; [apply RS; discriminate|]. destruct v; [apply RS; discriminate|]. cbn [bind]. auto.
Qed.
Lemma gather_cb_t s g i x k cur : inv s -> tokw s cur -> glive s -> nth_error (w_gathers s) g = Some x -> nth_error (g_futs x) i = Some k ->
  exists s', gather_callback s g i = Ok s' /\ inv s' /\ tokw s' cur /\ glive s' /\ ext s s' /\ w_coros s' = w_coros s /\ w_mode s' = w_mode s.
Proof.
  intros I T GL X K. destruct (gather_cb_ok s g i x k I X K) as (s' & E & I' & [Xt _] & (_ & _ & M & _) & C). exists s'. split; auto. split; auto.
  pose proof (i_gathers _ I g x X) as [O F L]. unfold gather_callback in E.
  rewrite (read_ok _ _ _ X) in E. cbn [bind] in E. rewrite (read_ok _ _ _ K) in E. cbn [bind] in E. unfold get_fut in E.
  pose proof (F k (nth_error_In _ _ K)) as Bk.
  destruct (nth_error (w_futs s) k) as [f|] eqn:Hf; [|apply nth_error_None in Hf; lia]. rewrite (read_ok _ _ _ Hf) in E. cbn [bind] in E.
  enough (H : tokw s' cur /\ glive s') by tauto.
  assert (Z : forall r, length r = length (g_futs x) -> (let s0 := set_gathers s (upd (w_gathers s) g (G (g_outer x) (g_futs x) r (g_remaining x - 1))) in
      if (g_remaining x =? 1)%Z then resolve_if_not_done s0 (g_outer x) (Finished (VTuple r)) else Ok s0) = Ok s' -> tokw s' cur /\ glive s').
  { intros r Lr. cbv zeta. set (s0 := set_gathers s _). intros Er.
    assert (G0 : glive s0).
    { intros g' y f' Y Fy. unfold s0 in Y. cbn [set_gathers w_gathers] in Y. rewrite nth_upd in Y. destruct (Nat.eqb_spec g g') as [<-|]; [|exact (GL g' y f' Y Fy)].
      destruct (_ <? _); [|discriminate]. injection Y as <-. exact (GL g x f' X Fy). }
    destruct (g_remaining x =? 1)%Z; [|injection Er as <-; split; auto].
    destruct (set_gathers_ok s (upd (w_gathers s) g (G (g_outer x) (g_futs x) r (g_remaining x - 1))) I) as (I1 & _).
    - eapply lext_upd; eauto using gext_refl. split; auto.
    - intros g' y Y. rewrite nth_upd in Y. destruct (Nat.eqb_spec g g') as [<-|]; auto. destruct (_ <? _); [|discriminate]. injection Y as <-. right. split; cbn; auto.
    - destruct (rind_t s0 (g_outer x) (Finished (VTuple r)) cur I1 T O) as (s1 & E1 & _ & T1 & Fr & _ & NC); [discriminate|discriminate|]. rewrite Er in E1. injection E1 as <-.
      split; auto. apply (glive_mono s0); auto. apply Fr. }
  destruct (f_state f) as [|v|e|].
  - exact (Z (g_results x) L E).
  - apply (Z (upd (g_results x) i v)); [now rewrite upd_length|exact E].
  - replace (g_outer x =? k) with false in E by (symmetry; apply Nat.eqb_neq; lia).
    destruct (rind_t s (g_outer x) (Failed e) cur I T O) as (s1 & E1 & _ & T1 & Fr & _ & NC); [discriminate|discriminate|]. rewrite E in E1. injection E1 as <-.
    split; auto. apply (glive_mono s); auto. apply Fr.
  - exact (Z (g_results x) L E).
Qed.
Lemma gather_cancel_t s g x : inv s -> glive s -> nth_error (w_gathers s) g = Some x -> gather_cancel s g = Ok s.
Proof.
  intros I GL X. pose proof (i_gathers _ I g x X) as [O F L]. unfold gather_cancel. rewrite (read_ok _ _ _ X). cbn [bind]. unfold get_fut.
  destruct (nth_error (w_futs s) (g_outer x)) as [f|] eqn:Hf; [|apply nth_error_None in Hf; lia]. rewrite (read_ok _ _ _ Hf). cbn [bind].
  specialize (GL g x f X Hf). destruct (f_state f); congruence.
Qed.

Lemma upd_upd {A} (x y : A) l : forall i, upd (upd l i x) i y = upd l i y.
Proof. induction l as [|z l IH]; intros [|i]; cbn; auto. now rewrite IH. Qed.
Lemma answer_t s c x r cur : tokw s cur -> nth_error (w_coros s) c = Some x ->
  exists s', answer s c r = Ok s' /\ s' = set_coro s c (Coro (c_code x) (c_hist x ++ [r]) (c_at x)) /\ tokw s' cur.
Proof.
  intros T X. unfold answer, get_coro. rewrite (read_ok _ _ _ X). cbn [bind]. eexists. split; [reflexivity|]. split; [reflexivity|].
  unfold tokw in *. cbn [set_coro set_coros w_futs w_coros]. eapply tok_cs; [exact T|apply upd_length|]. intros k p. split.
  - intros C. apply cat_upd in C; [|congruence]. destruct C as [[-> C]|[_ C]]; auto. exists x. auto.
  - intros C. destruct (Nat.eq_dec k c) as [->|Ne]; [|now apply cat_upd_ne].
    replace p with (c_at (Coro (c_code x) (c_hist x ++ [r]) (c_at x))); [eapply cat_upd_eq; eauto|]. destruct C as (y & Y & <-). cbn. congruence.
Qed.

Section Code.
Context (code : nat -> list resp -> act).

Lemma user_t s target w c x a : inv s -> w_mode s = Inside target w -> tokw s [w] -> glive s -> w_coro w = Some c -> nth_error (w_coros s) c = Some x -> tame s a ->
  exists s', user_step s target w c a = Ok s' /\ tokw s' (running s') /\ glive s'.
Proof.
  intros I M T GL Hc X TA. pose proof (i_mode _ I _ _ M) as Cu. pose proof (i_curr _ I w Cu) as Wf.
  assert (ANS : forall r, exists s', answer s c r = Ok s' /\ tokw s' (running s') /\ glive s').
  { intros r. destruct (answer_t s c x r [w] T X) as (s' & E & -> & T'). eexists. split; [exact E|]. split; [|exact GL]. unfold running. cbn [set_coro set_coros w_mode]. now rewrite M. }
  assert (CALL : exists s', (' (r, s) <- call s a ;; answer s c r) = Ok s' /\ tokw s' (running s') /\ glive s').
  { destruct (call_t s a [w] I T GL TA) as (r & s1 & E & T1 & G1). rewrite E. cbn [bind]. pose proof (call_calm _ _ _ _ E) as (_ & _ & M1 & _).
    pose proof (call_ok s a I) as P. rewrite E in P. destruct P as (I1 & X1 & _). cbn [snd] in *.
    destruct (coro_ext _ _ _ _ X1 X) as [x1 Hx1]. destruct (answer_t s1 c x1 r [w] T1 Hx1) as (s' & E' & -> & T'). eexists. split; [exact E'|]. split; [|exact G1].
    unfold running. cbn [set_coro set_coros w_mode]. now rewrite M1, M. }
  assert (END : forall p e v, p = Returned \/ p = Broken -> exists s', (s <- move s c p ;; finish_step s target w e v) = Ok s' /\ tokw s' (running s') /\ glive s').
  { intros p e v Hp. destruct (move_ok s c x p I X) as (E & I1 & X1 & _). rewrite E. cbn [bind]. set (s1 := set_coro s c (Coro (c_code x) (c_hist x) p)) in *.
    assert (T1 : tokw s1 []) by (eapply (tok_end _ w); eauto).
    destruct (finish_t s1 target w e v [] I1) as (s' & E' & T' & G' & M'); auto; [eapply wf_ext; eauto|]. exists s'. split; auto. split; auto. unfold running. now rewrite M'. }
  destruct a; try exact CALL; cbn [user_step]; clear CALL.
  - (* await *)
    destruct (w_task w) as [t|] eqn:Et; [|apply ANS]. destruct (nth_error (w_futs s) f) as [y|] eqn:Hy; [|apply ANS].
    pose proof Wf as (c' & x' & Hc' & Hx' & Ht). rewrite Hc in Hc'. injection Hc' as <-. destruct (Ht t Et) as (ft & Nt & Tt).
    unfold cancelled_task. rewrite Et. unfold get_fut. rewrite (read_ok _ _ _ Nt). cbn [bind].
    pose proof (k_live _ _ _ _ _ T t ft c Nt Tt) as NC. replace (match f_state ft with Cancelled => true | _ => false end) with false by (destruct (f_state ft); congruence).
    assert (Hw : w = W (Some c) (Some t)) by (destruct w; cbn in *; congruence). 
    unfold wait_on. rewrite Cu. unfold get_fut. rewrite (read_ok _ _ _ Hy). cbn [bind]. destruct (is_done y) eqn:D.
    + cbn [bind]. rewrite (read_ok _ _ _ Hy). cbn [bind]. apply ANS.
    + destruct (push_cb_ok s f y w I Hy D Wf) as (cap & Ep & I1 & X1 & _). rewrite Ep. cbn [bind]. rewrite Et.
      set (y1 := Fut (f_state y) (f_cbs y ++ [w]) cap (f_task y) (f_wait_task y) (f_wait_lock y)) in *.
      set (s1 := set_fut s f y1) in *.
      assert (N1 : exists ft1, nth_error (w_futs s1) t = Some ft1 /\ f_state ft1 = f_state ft /\ f_task ft1 = f_task ft /\ f_cbs ft1 = f_cbs ft ++ (if t =? f then [w] else [])).
      { unfold s1. cbn [set_fut set_futs w_futs]. destruct (Nat.eqb_spec t f) as [->|Ne].
        - exists y1. rewrite (nth_upd_eq _ _ _ _ Hy). rewrite Nt in Hy. injection Hy as <-. auto.
        - exists ft. rewrite nth_upd_ne by auto. rewrite app_nil_r. auto. }
      destruct N1 as (ft1 & N1 & S1 & T1 & C1). rewrite (read_ok _ _ _ N1). cbn [bind].
      set (wt := match f_task y with Some _ => Some f | None => f_wait_task ft1 end).
      set (ft2 := Fut (f_state ft1) (f_cbs ft1) (f_cap ft1) (f_task ft1) wt (Some f)).
      assert (By : f < length (w_futs s)) by (apply nth_error_Some; congruence).
      destruct (set_wait_ok s1 t ft1 wt (Some f) I1 N1) as (I2 & X2 & _).
      { intros j Hj. unfold wt in Hj. pose proof (lext_len _ _ _ (e_futs _ _ X1)) as LL. destruct (f_task y); [injection Hj as <-; lia|].
        destruct (i_futs _ I1 t ft1 N1) as [_ _ _ _ Wj]. auto. }
      fold ft2 in I2, X2. set (s2 := set_fut s1 t ft2) in *.
      assert (X' : nth_error (w_coros s2) c = Some x) by exact X.
      destruct (move_ok s2 c x (AtAwait f) I2 X') as (E3 & I3 & X3 & _). rewrite E3. cbn [bind].
      set (s3 := set_coro s2 c (Coro (c_code x) (c_hist x) (AtAwait f))) in *.
      assert (T3 : tokw s3 []).
      { unfold tokw. change (ready s3) with (ready s). change (live_timers s3) with (live_timers s). change (w_coros s3) with (upd (w_coros s) c (Coro (c_code x) (c_hist x) (AtAwait f))).
        assert (Nt3 : nth_error (w_futs s3) t = Some ft2) by (unfold s3, s2; cbn [set_coro set_coros set_fut set_futs w_futs]; eapply nth_upd_eq; exact N1).
        assert (Nf3 : exists y3, nth_error (w_futs s3) f = Some y3 /\ f_state y3 = f_state y /\ f_task y3 = f_task y /\ f_cbs y3 = f_cbs y ++ [w] /\ f_wait_lock y3 = if f =? t then Some f else f_wait_lock y).
        { destruct (Nat.eqb_spec f t) as [<-|Ne].
          - exists ft2. rewrite Nt3. rewrite Nt in Hy. injection Hy as <-. rewrite Nat.eqb_refl in C1. cbn. auto.
          - exists y1. unfold s3, s2, s1. cbn [set_coro set_coros set_fut set_futs w_futs]. rewrite nth_upd_ne by auto. rewrite (nth_upd_eq _ _ _ _ Hy). auto. }
        destruct Nf3 as (y3 & N3 & Sy & Ty & Cy & Wy). subst w.
        eapply (tok_wait _ (w_futs s) _ _ _ c t x _ f y y3 ft ft2); eauto.
        - intros j g G. destruct (Nat.eq_dec j f) as [->|Nf].
          + rewrite Hy in G. injection G as <-. exists y3. rewrite Nat.eqb_refl. auto 10.
          + replace (j =? f) with false by (symmetry; now apply Nat.eqb_neq). rewrite app_nil_r. destruct (Nat.eqb_spec j t) as [->|Ntj].
            * rewrite Nt in G. injection G as <-. exists ft2. split; auto. replace (t =? f) with false in C1 by (symmetry; now apply Nat.eqb_neq). rewrite app_nil_r in C1. cbn. auto.
            * exists g. unfold s3, s2, s1. cbn [set_coro set_coros set_fut set_futs w_futs]. rewrite !nth_upd_ne by auto. auto.
        - unfold s3, s2, s1. cbn [set_coro set_coros set_fut set_futs w_futs]. now rewrite !upd_length. }
      assert (G3 : glive s3).
      { apply (glive_mono s); auto. intros j f' F S. unfold s3, s2, s1 in F. cbn [set_coro set_coros set_fut set_futs w_futs] in F.
        rewrite nth_upd in F. destruct (Nat.eqb_spec t j) as [<-|Ntj].
        - destruct (_ <? _); [|discriminate]. injection F as <-. cbn in S. exists ft. split; auto. congruence.
        - rewrite nth_upd in F. destruct (Nat.eqb_spec f j) as [<-|Nfj]; [|eauto]. destruct (_ <? _); [|discriminate]. injection F as <-. cbn in S. eauto. }
      destruct (finish_t s3 target w None None [] I3) as (s' & E' & T' & G' & M'); auto.
      { eapply wf_ext; [exact X3|]. eapply wf_ext; [exact X2|]. eapply wf_ext; [exact X1|exact Wf]. }
      exists s'. split; auto. split; auto. unfold running. now rewrite M'.
  - apply END. auto.
  - destruct e; try (apply END; auto); destruct (move_ok s c x Broken I X) as (E & I1 & X1 & _); rewrite E; cbn [bind]; eexists; (split; [reflexivity|]);
      (split; [|exact GL]); unfold running; cbn [set_mode set_curr w_mode]; eapply (tok_end _ w); eauto.
Qed.

Lemma body_t s target w : inv s -> w_mode s = Inside target w -> tokw s [w] -> glive s -> (forall a, action code s LBody = Some a -> tame s a) ->
  exists s', body_step code s target w = Ok s' /\ tokw s' (running s') /\ glive s'.
Proof.
  intros I M T GL TA. pose proof (i_curr _ I w (i_mode _ I _ _ M)) as W. pose proof W as (c & x & Hc & X & Ht).
  unfold action in TA. rewrite M, Hc, X in TA. unfold body_step. rewrite Hc. unfold get_coro. rewrite (read_ok _ _ _ X). cbn [bind].
  pose proof (i_codes _ I c x X) as WC. unfold wf_code in WC.
  assert (END : forall s1, inv s1 -> ext s s1 -> tokw s1 [w] -> glive s1 -> w_coros s1 = w_coros s -> exists s', (s <- move s1 c Returned ;; finish_step s target w None None) = Ok s' /\ tokw s' (running s') /\ glive s').
  { intros s1 I1 X1 T1 G1 C1. assert (X0 : nth_error (w_coros s1) c = Some x) by (rewrite C1; exact X).
    destruct (move_ok s1 c x Returned I1 X0) as (E & I2 & X2 & _). rewrite E. cbn [bind]. set (s2 := set_coro s1 c (Coro (c_code x) (c_hist x) Returned)) in *.
    assert (T2 : tokw s2 []) by (eapply (tok_end _ w); eauto).
    destruct (finish_t s2 target w None None [] I2) as (s' & E' & T' & G' & M'); auto; [eapply wf_ext; [exact X2|]; eapply wf_ext; eauto|]. exists s'. split; auto. split; auto. unfold running. now rewrite M'. }
  destruct (c_code x) as [n|g i|g].
  - eapply user_t; eauto.
  - destruct WC as (y & k & Y & K). destruct (gather_cb_t s g i y k [w] I T GL Y K) as (s1 & E1 & I1 & T1 & G1 & X1 & C1 & _). rewrite E1. cbn [bind]. auto.
  - destruct WC as (y & Y). rewrite (gather_cancel_t s g y I GL Y). cbn [bind]. apply END; auto. apply ext_refl.
Qed.

(** a work item resumes: it has not started, or the future it waits for is done *)
Lemma resume_t s w c : wf s w -> tok (w :: ready s) (w_futs s) (w_coros s) (live_timers s) [] -> w_coro w = Some c ->
  exists s' x r, resume s w c = Ok s' /\ tokw s' [w] /\ nth_error (w_coros s) c = Some x /\
    s' = set_coros s (upd (w_coros s) c (Coro (c_code x) (c_hist x ++ r) Active)) /\
    ((c_at x = Start /\ r = []) \/ exists i f, c_at x = AtAwait i /\ nth_error (w_futs s) i = Some f /\ is_done f = true /\ r = [result_of f]).
Proof.
  intros Wf T Hc. pose proof Wf as (c' & x & Hc' & X & Ht). rewrite Hc in Hc'. injection Hc' as <-.
  unfold resume, get_coro. rewrite (read_ok _ _ _ X). cbn [bind].
  destruct (k_rd _ _ _ _ _ T w (or_introl eq_refl)) as (k & Hk & P). rewrite Hc in Hk. injection Hk as <-.
  destruct P as [(y & Y & P)|(i & (y & Y & P) & TN)]; rewrite X in Y; injection Y as <-; rewrite P.
  - unfold move, get_coro. rewrite (read_ok _ _ _ X). cbn [bind]. eexists _, x, []. split; [reflexivity|]. split; [|split; [exact X|split; [now rewrite app_nil_r|auto]]].
    unfold tokw. eapply tok_begin; eauto.
  - unfold move, get_coro. rewrite (read_ok _ _ _ X). cbn [bind].
    destruct (k_await _ _ _ _ _ T c i) as (t & ft & f & Nt & Tt & Nf & R); [exists x; auto|].
    assert (D : is_done f = true).
    { destruct (is_done f) eqn:D; auto. exfalso. destruct R as [R _]. pose proof (k_nodup _ _ _ _ _ T) as ND. unfold items in ND. cbn [app map] in ND. inversion ND as [|? ? NI _]; subst.
      apply NI. rewrite Hc. apply in_map_iff. exists (W (Some c) (Some t)). split; auto. rewrite !in_app_iff. right. left. eapply cbs_in; eauto. }
    unfold cancelled_task. destruct (w_task w) as [t'|] eqn:Et; [|congruence]. destruct (Ht t' eq_refl) as (ft' & Nt' & Tt').
    unfold get_fut. cbn [set_coro set_coros w_futs]. rewrite (read_ok _ _ _ Nt'). cbn [bind]. rewrite (read_ok _ _ _ Nf). cbn [bind].
    pose proof (k_live _ _ _ _ _ T t' ft' c Nt' Tt') as NC. replace (match f_state ft' with Cancelled => true | _ => false end) with false by (destruct (f_state ft'); congruence).
    set (s1 := set_coro s c (Coro (c_code x) (c_hist x) Active)).
    assert (T1 : tokw s1 [w]) by (eapply tok_begin; eauto).
    destruct (answer_t s1 c (Coro (c_code x) (c_hist x) Active) (result_of f) [w] T1) as (s' & E & -> & T2); [unfold s1; cbn; eapply nth_upd_eq; eauto|].
    rewrite E. eexists _, x, [result_of f]. split; [reflexivity|]. split; [exact T2|]. split; auto. split.
    + unfold s1, set_coro, set_coros. cbn. f_equal. apply upd_upd.
    + right. exists i, f. auto.
Qed.

Lemma begin_t s target now : inv s -> w_mode s = Between target -> tokw s [] -> glive s -> w_stop s = false ->
  exists s', begin_step s target now = Ok s' /\ tokw s' (running s') /\ glive s' /\
    forall w c, w_mode s' = Inside target w -> w_coro w = Some c -> exists x r, nth_error (w_coros s) c = Some x
      /\ nth_error (w_coros s') c = Some (Coro (c_code x) (c_hist x ++ r) Active)
      /\ ((c_at x = Start /\ r = []) \/ exists i f, c_at x = AtAwait i /\ nth_error (w_futs s) i = Some f /\ is_done f = true /\ r = [result_of f]).
Proof.
  intros I M T GL NS. unfold begin_step.
  destruct (enq_timers_ok now (S (ts_len (w_timers s))) s I) as (s1 & due & E & I1 & X1 & R1 & P1 & O1 & D1 & N1 & S1 & F1 & C1 & G1 & H1 & M1 & St1); [lia|].
  rewrite E. cbn [bind]. rewrite (empty_ok _ (i_queue _ I1)). fold (ready s1). destruct M1 as (M1 & M2 & M3 & M4).
  assert (T1 : tokw s1 []).
  { unfold tokw in *. rewrite R1, F1, C1. apply (tok_expire _ _ _ _ _ T). unfold live_timers, expired, pending_timers. fold (members (w_timers s)). fold (members (w_timers s1)). rewrite O1.
    unfold duework. rewrite <- concat_app, <- map_app, <- !flat_map_concat_map. now apply Permutation_flat_map. }
  assert (GL1 : glive s1) by (apply (glive_mono s); auto; now apply ncan_same).
  destruct (ready s1) as [|w ws] eqn:Er.
  - cbn [negb bind]. rewrite St1, NS. exists s1. split; auto. split; [unfold running; rewrite M3, M; exact T1|]. split; auto. intros w c Hm. rewrite M3, M in Hm. discriminate.
  - cbn [negb]. destruct (deq_ok _ w ws (i_queue _ I1) Er) as (q' & Ed & Q & Rq & _). rewrite Ed. cbn [bind set_curr set_queue w_stop]. rewrite St1, NS.
    pose proof (i_ready _ I1) as FR. rewrite Er in FR. pose proof (Forall_inv FR) as Ww. pose proof Ww as (c & x & Hc & X & Ht). rewrite Hc.
    match goal with |- context [resume ?t w c] => set (s2 := t) end.
    assert (W2 : wf s2 w) by exact Ww.
    assert (T2 : tok (w :: ready s2) (w_futs s2) (w_coros s2) (live_timers s2) []).
    { change (ready s2) with (waiting q'). rewrite Rq. unfold tokw in T1. rewrite Er in T1. exact T1. }
    destruct (resume_t s2 w c) as (s' & x' & r & Es & T' & X' & Eq & Cs); auto. exists s'. split; auto.
    assert (Ms : w_mode s' = Inside target w) by (subst s'; reflexivity).
    split; [unfold running; now rewrite Ms|]. split; [subst s'; exact GL1|].
    intros w' c' Hm Hc'. rewrite Ms in Hm. injection Hm as <-. rewrite Hc in Hc'. injection Hc' as <-. exists x', r.
    assert (X'' : nth_error (w_coros s) c = Some x') by (rewrite <- C1; exact X').
    split; [exact X''|]. split; [subst s'; cbn [set_coros w_coros]; eapply nth_upd_eq; exact X'|].
    destruct Cs as [Cs|(i & f & A & Nf & D & Rr)]; auto. right. exists i, f. rewrite <- F1. auto.
Qed.

Definition good (s : world) : Prop := inv s /\ tokw s (running s) /\ glive s /\ w_stop s = false.

Lemma good_init : good new_loop.
Proof.
  split; [apply inv_init|]. split; [|split; [intros [|g] x f X; discriminate|reflexivity]]. unfold tokw. change (ready new_loop) with (@nil work). change (w_futs new_loop) with (@nil future).
  change (w_coros new_loop) with (@nil coro). change (live_timers new_loop) with (@nil work). change (running new_loop) with (@nil work).
  split; try constructor; intros; exfalso;
    repeat match goal with
    | H : nth_error [] ?n = Some _ |- _ => destruct n; discriminate
    | H : cat [] ?c _ |- _ => destruct H as (? & H & _)
    | H : In _ [] |- _ => destruct H
    end.
Qed.
Lemma exec_t s l : good s -> (forall a, action code s l = Some a -> tame s a) -> exists s', exec code s l = Ok s' /\ good s'.
Proof.
  intros (I & T & GL & NS) TA.
  assert (Z : exists s', Ok s = Ok s' /\ good s') by (exists s; split; auto; split; auto).
  assert (U : forall s', exec code s l = Ok s' -> inv s' /\ w_stop s' = false).
  { intros s' E. pose proof (exec_ok code s l I) as P. rewrite E in P. split; [apply P|].
    apply (exec_keeps code s l s' I E); auto. intros A. exact (TA _ A). }
  cut (exists s', exec code s l = Ok s' /\ tokw s' (running s') /\ glive s').
  { intros (s' & E & T' & G'). exists s'. split; auto. destruct (U s' E). split; auto. }
  assert (Z' : exists s', Ok s = Ok s' /\ tokw s' (running s') /\ glive s') by (exists s; auto).
  clear U Z. unfold exec. unfold action in TA. destruct (w_mode s) as [|target|target w] eqn:M; destruct l as [a|tg|now|]; auto.
  - unfold running in T. rewrite M in T. destruct (call_t s a [] I T GL (TA a eq_refl)) as (r & s1 & E & T1 & G1). rewrite E. cbn [bind].
    pose proof (call_calm _ _ _ _ E) as (_ & _ & M1 & _). exists s1. split; auto. split; auto. unfold running. now rewrite M1, M.
  - destruct (w_running s); auto. unfold running in T. rewrite M in T. eexists. split; [reflexivity|]. split; [exact T|exact GL].
  - unfold running in T. rewrite M in T. destruct (target_done s target); [eexists; split; [reflexivity|]; split; [exact T|exact GL]|].
    destruct (begin_t s target now I M T GL NS) as (s' & E & T' & G' & _). eauto.
  - unfold running in T. rewrite M in T. apply body_t; auto. intros a A. unfold action in A. rewrite M in A. apply TA. exact A.
Qed.
Lemma run_t ls : forall s, good s -> only tame code s ls -> exists s', run code s ls = Ok s' /\ good s'.
Proof.
  induction ls as [|l ls IH]; intros s G O; cbn [run only] in *; [eauto|]. destruct O as [A O].
  destruct (exec_t s l G) as (s1 & E & G1). { intros a Ha. now rewrite Ha in A. }
  rewrite E in *. cbn [bind]. auto.
Qed.
End Code.
