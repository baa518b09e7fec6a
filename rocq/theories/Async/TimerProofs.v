(** The array of timers is a priority queue. *)
From Coq Require Import List ZArith Bool Lia Permutation FinFun.
From Verif.Common Require Import Result.
From Verif.Async Require Import Model QueueProofs.
Import ListNotations.
Local Open Scope res_scope.

(** ** Arrays *)
Lemma firstn_upd {A} (l : list A) n i x : i < n -> firstn n (upd l i x) = upd (firstn n l) i x.
Proof.
  revert n i; induction l as [|y l IH]; intros [|n] [|i] H; cbn [firstn upd]; auto; try lia.
  rewrite IH by lia. reflexivity.
Qed.
Definition tr (i j k : nat) : nat := if k =? i then j else if k =? j then i else k.
Lemma tr_inj i j : Injective (tr i j).
Proof.
  intros a b. unfold tr. destruct (Nat.eqb_spec a i), (Nat.eqb_spec b i), (Nat.eqb_spec a j), (Nat.eqb_spec b j); subst; lia.
Qed.
Lemma nth_swapped {A} (l : list A) i j x y : nth_error l i = Some x -> nth_error l j = Some y ->
  forall k, nth_error (upd (upd l i y) j x) k = nth_error l (tr i j k).
Proof.
  intros X Y k. assert (i < length l) by (apply nth_error_Some; congruence). assert (j < length l) by (apply nth_error_Some; congruence).
  rewrite !nth_upd, !upd_length. unfold tr. rewrite (Nat.eqb_sym k i), (Nat.eqb_sym k j).
  replace (k <? length l) with (if j =? k then true else if i =? k then true else k <? length l)
    by (destruct (Nat.eqb_spec j k), (Nat.eqb_spec i k); subst; symmetry; auto; now apply Nat.ltb_lt).
  destruct (Nat.eqb_spec j k), (Nat.eqb_spec i k); subst; congruence.
Qed.
Lemma perm_swapped {A} (l : list A) i j x y : nth_error l i = Some x -> nth_error l j = Some y ->
  Permutation (upd (upd l i y) j x) l.
Proof.
  intros X Y. symmetry. apply Permutation_nth_error. split; [now rewrite !upd_length|].
  exists (tr i j). split; [apply tr_inj|]. now apply nth_swapped.
Qed.

(** ** Deadlines in the array *)
Definition wobj (objs : list timer) (k : nat) : Z := match nth_error objs k with Some t => t_when t | None => 0%Z end.
Definition wh (objs : list timer) (arr : list nat) (i : nat) : Z :=
  match nth_error arr i with Some k => wobj objs k | None => 0%Z end.
Definition valid (objs : list timer) (arr : list nat) (n : nat) : Prop :=
  n <= length arr /\ forall k, In k (firstn n arr) -> k < length objs.
Definition par (i : nat) : nat := (i - 1) / 2.
Lemma par_spec i : 0 < i -> i = 2 * par i + 1 \/ i = 2 * par i + 2.
Proof.
  intros H. unfold par. pose proof (Nat.div_mod_eq (i - 1) 2). pose proof (Nat.mod_upper_bound (i - 1) 2). lia.
Qed.
Lemma par_lt i : 0 < i -> par i < i.
Proof. intros H. destruct (par_spec i H); lia. Qed.

Lemma nth_firstn {A} (l : list A) n i : i < n -> nth_error (firstn n l) i = nth_error l i.
Proof. revert n i; induction l as [|y l IH]; intros [|n] [|i] H; cbn [firstn nth_error]; auto; try lia. apply IH. lia. Qed.
Lemma valid_at objs arr n i : valid objs arr n -> i < n -> exists k t, nth_error arr i = Some k /\ nth_error objs k = Some t.
Proof.
  intros [L V] H. destruct (nth_error arr i) as [k|] eqn:K; [|apply nth_error_None in K; lia].
  exists k. specialize (V k). rewrite <- (nth_firstn arr n i H) in K. apply nth_error_In in K. apply V in K.
  destruct (nth_error objs k) as [t|] eqn:T; eauto. apply nth_error_None in T. lia.
Qed.
Lemma when_ok objs arr n i : valid objs arr n -> i < n -> when objs arr i = Ok (wh objs arr i).
Proof.
  intros V H. destruct (valid_at _ _ _ _ V H) as (k & t & K & T). unfold when, wh, wobj, read. rewrite K. cbn [bind]. now rewrite T.
Qed.
Lemma swap_ok objs arr n i j : valid objs arr n -> i < n -> j < n ->
  exists arr', swap arr i j = Ok arr' /\ valid objs arr' n /\ length arr' = length arr
    /\ Permutation (firstn n arr') (firstn n arr) /\ forall k, wh objs arr' k = wh objs arr (tr i j k).
Proof.
  intros V Hi Hj. destruct (valid_at _ _ _ _ V Hi) as (x & tx & X & _). destruct (valid_at _ _ _ _ V Hj) as (y & ty & Y & _).
  destruct V as [L V]. exists (upd (upd arr i y) j x).
  assert (P : Permutation (firstn n (upd (upd arr i y) j x)) (firstn n arr)).
  { rewrite !firstn_upd by auto. apply perm_swapped; now rewrite nth_firstn. }
  split; [|split; [|split; [now rewrite !upd_length|split; [exact P|]]]].
  - unfold swap, read, write. rewrite X, Y. cbn [bind].
    replace (i <? length arr) with true by (symmetry; apply Nat.ltb_lt; lia). cbn [bind]. rewrite upd_length.
    now replace (j <? length arr) with true by (symmetry; apply Nat.ltb_lt; lia).
  - split; [now rewrite !upd_length|]. intros k K. apply V. eapply Permutation_in; eassumption.
  - intros k. unfold wh. now rewrite (nth_swapped arr i j x y X Y).
Qed.

Definition heap (objs : list timer) (arr : list nat) (n : nat) : Prop :=
  forall j, 0 < j < n -> (wh objs arr (par j) <= wh objs arr j)%Z.

Lemma tr_cases i j k : (k = i /\ tr i j k = j) \/ (k <> i /\ k = j /\ tr i j k = i) \/ (k <> i /\ k <> j /\ tr i j k = k).
Proof. unfold tr. destruct (Nat.eqb_spec k i), (Nat.eqb_spec k j); auto. Qed.

Lemma sift_up_ok objs n : forall fuel arr i, i < fuel -> i < n -> valid objs arr n ->
  (forall j, 0 < j < n -> j <> i -> (wh objs arr (par j) <= wh objs arr j)%Z) ->
  (forall j, 0 < j < n -> 0 < i -> par j = i -> (wh objs arr (par i) <= wh objs arr j)%Z) ->
  exists arr', sift_up fuel objs arr i = Ok arr' /\ valid objs arr' n /\ length arr' = length arr
    /\ Permutation (firstn n arr') (firstn n arr) /\ heap objs arr' n.
Proof.
  induction fuel as [|fuel IH]; intros arr i F Hi V H1 H2; [lia|]. cbn [sift_up].
  destruct (Nat.ltb_spec 0 i) as [Pi|Zi].
  2: { exists arr. split; auto. split; auto. split; auto. split; auto. intros j J. apply H1; auto. lia. }
  fold (par i). assert (Bp : par i < i) by (apply par_lt; lia).
  rewrite (when_ok objs arr n (par i)), (when_ok objs arr n i) by (auto; lia). cbn [bind].
  destruct (Z.leb_spec (wh objs arr (par i)) (wh objs arr i)) as [Le|Lt].
  - exists arr. split; auto. split; auto. split; auto. split; auto. intros j J.
    destruct (Nat.eq_dec j i) as [->|D]; auto.
  - destruct (swap_ok objs arr n (par i) i V) as (arr' & E & V' & L' & P' & W'); try lia.
    rewrite E. cbn [bind].
    destruct (IH arr' (par i)) as (a & Ea & Va & La & Pa & Ha); try lia; auto.
    + intros j J D. rewrite !W'.
      destruct (tr_cases (par i) i j) as [[? ->]|[(D1 & -> & ->)|(D1 & D2 & ->)]]; [lia| |].
      * destruct (tr_cases (par i) i (par i)) as [[? ->]|[(D3 & ? & ->)|(D3 & D4 & ->)]]; try lia.
      * destruct (tr_cases (par i) i (par j)) as [[E3 ->]|[(D3 & E3 & ->)|(D3 & D4 & ->)]].
        -- specialize (H1 j J D2). rewrite E3 in H1. lia.
        -- apply H2; auto.
        -- apply H1; auto.
    + intros j J Pp Ej. rewrite !W'.
      destruct (tr_cases (par i) i (par (par i))) as [[E3 ->]|[(D3 & E3 & ->)|(D3 & D4 & ->)]].
      * exfalso. assert (par (par i) < par i) by (apply par_lt; lia). lia.
      * exfalso. assert (par (par i) < par i) by (apply par_lt; lia). lia.
      * assert (A : (wh objs arr (par (par i)) <= wh objs arr (par i))%Z) by (apply H1; lia).
        destruct (tr_cases (par i) i j) as [[E5 ->]|[(D5 & -> & ->)|(D5 & D6 & ->)]].
        -- exfalso. assert (par (par i) < par i) by (apply par_lt; lia). subst j. lia.
        -- auto.
        -- specialize (H1 j J D6). rewrite Ej in H1. lia.
    + exists a. split; auto. split; auto. split; [congruence|]. split; auto. now transitivity (firstn n arr').
Qed.

Lemma par_child j i : 0 < j -> (par j = i <-> j = 2 * i + 1 \/ j = 2 * i + 2).
Proof. intros H. destruct (par_spec j H); lia. Qed.

Lemma sift_down_ok objs n : forall fuel arr i, n - i <= fuel -> i < n -> valid objs arr n ->
  (forall j, 0 < j < n -> par j <> i -> (wh objs arr (par j) <= wh objs arr j)%Z) ->
  (forall j, 0 < j < n -> 0 < i -> par j = i -> (wh objs arr (par i) <= wh objs arr j)%Z) ->
  exists arr', sift_down fuel objs arr n i = Ok arr' /\ valid objs arr' n /\ length arr' = length arr
    /\ Permutation (firstn n arr') (firstn n arr) /\ heap objs arr' n.
Proof.
  induction fuel as [|fuel IH]; intros arr i F Hi V H1 H2; [lia|]. cbn [sift_down].
  set (w := wh objs arr).
  assert (exists m, (smallest <- (if 2 * i + 1 <? n then
                     a <- when objs arr (2 * i + 1) ;; b <- when objs arr i ;;
                     Ok (if (a <? b)%Z then 2 * i + 1 else i)
                   else Ok i) ;;
      (if 2 * i + 2 <? n then
                     a <- when objs arr (2 * i + 2) ;; b <- when objs arr smallest ;;
                     Ok (if (a <? b)%Z then 2 * i + 2 else smallest)
                   else Ok smallest)) = Ok m /\ m < n /\ (m = i \/ m = 2 * i + 1 \/ m = 2 * i + 2) /\
      (w m <= w i)%Z /\ (2 * i + 1 < n -> (w m <= w (2 * i + 1)%nat)%Z) /\ (2 * i + 2 < n -> (w m <= w (2 * i + 2)%nat)%Z) /\
      (m <> i -> (w m < w i)%Z)) as (m & Em & Bm & Cm & M0 & M1 & M2 & M3).
  { assert (exists m, (if 2 * i + 1 <? n then
                     a <- when objs arr (2 * i + 1) ;; b <- when objs arr i ;;
                     Ok (if (a <? b)%Z then 2 * i + 1 else i)
                   else Ok i) = Ok m /\ m < n /\ (m = i \/ m = 2 * i + 1) /\ (w m <= w i)%Z /\ (2 * i + 1 < n -> (w m <= w (2 * i + 1)%nat)%Z)
                   /\ (m <> i -> (w m < w i)%Z)) as (m & Em & Bm & Cm & M0 & M1 & M3).
    { destruct (Nat.ltb_spec (2 * i + 1) n).
      - rewrite (when_ok objs arr n (2 * i + 1)), (when_ok objs arr n i) by auto. cbn [bind].
        fold (w (2 * i + 1)) (w i). destruct (Z.ltb_spec (w (2 * i + 1)) (w i)); eexists; split; try reflexivity; repeat split; try lia; auto.
      - exists i. repeat split; try lia; auto. }
    rewrite Em. cbn [bind]. destruct (Nat.ltb_spec (2 * i + 2) n).
    - rewrite (when_ok objs arr n (2 * i + 2)), (when_ok objs arr n m) by auto. cbn [bind].
      fold (w (2 * i + 2)) (w m). destruct (Z.ltb_spec (w (2 * i + 2)) (w m)); eexists; (split; [reflexivity|]); repeat split; try lia; auto.
    - exists m. repeat split; try lia; auto. }
  unfold w in *. clear w.
  match goal with |- exists arr', bind ?A ?B = _ /\ _ => set (first := A) in *; clearbody first end.
  destruct first as [m1| | |]; try discriminate. cbn [bind] in *. rewrite Em. cbn [bind].
  destruct (Nat.eqb_spec m i) as [->|Dm].
  - exists arr. split; auto. split; auto. split; auto. split; auto. intros j J.
    destruct (Nat.eq_dec (par j) i) as [E|D]; [|apply H1; auto]. rewrite E.
    apply par_child in E; [|lia]. destruct E as [->| ->]; [apply M1|apply M2]; lia.
  - destruct (swap_ok objs arr n i m V) as (arr' & E & V' & L' & P' & W'); try lia.
    rewrite E. cbn [bind].
    assert (Pm : par m = i) by (apply par_child; lia).
    destruct (IH arr' m) as (a & Ea & Va & La & Pa & Ha); try lia; auto.
    + intros j J D. rewrite !W'.
      destruct (tr_cases i m j) as [[-> ->]|[(D1 & -> & ->)|(D1 & D2 & ->)]].
      * (* j = i *) assert (par i < i) by (apply par_lt; lia).
        destruct (tr_cases i m (par i)) as [[? ->]|[(D3 & ? & ->)|(D3 & D4 & ->)]]; try lia. apply H2; auto; lia.
      * (* j = m *) rewrite Pm. destruct (tr_cases i m i) as [[? ->]|[(D3 & ? & ->)|(D3 & D4 & ->)]]; try lia.
      * destruct (tr_cases i m (par j)) as [[E3 ->]|[(D3 & E3 & ->)|(D3 & D4 & ->)]]; try lia.
        -- apply par_child in E3; [|lia]. destruct E3 as [->| ->]; [apply M1|apply M2]; lia.
        -- apply H1; auto.
    + intros j J Pp Ej. rewrite !W'.
      rewrite Pm. destruct (tr_cases i m i) as [[? ->]|[(D3 & ? & ->)|(D3 & D4 & ->)]]; try lia.
      assert (Bj : m < j) by (apply par_child in Ej; lia).
      destruct (tr_cases i m j) as [[E5 ->]|[(D5 & E5 & ->)|(D5 & D6 & ->)]]; try lia.
      specialize (H1 j J). rewrite Ej in H1. apply H1. lia.
    + exists a. split; auto. split; auto. split; [congruence|]. split; auto. now transitivity (firstn n arr').
Qed.

(** ** The priority queue *)
Definition members (t : timers) : list nat := firstn (ts_len t) (ts_arr t).
Record timers_ok (t : timers) : Prop := {
  t_valid : valid (ts_objs t) (ts_arr t) (ts_len t);
  t_heap : heap (ts_objs t) (ts_arr t) (ts_len t);
  t_cap : 0 < ts_cap t }.

Lemma timers_init : timers_ok (Ts [] (repeat O 8) 0).
Proof. split; cbn; [split; cbn; [lia|easy]|intros j J; lia|unfold ts_cap; cbn; lia]. Qed.

Lemma heap_root objs arr n : heap objs arr n -> forall j, j < n -> (wh objs arr 0 <= wh objs arr j)%Z.
Proof.
  intros H j. induction j as [j IH] using lt_wf_ind. intros J. destruct (Nat.eq_dec j 0) as [->|D]; [lia|].
  assert (par j < j) by (apply par_lt; lia). specialize (IH (par j) H0 ltac:(lia)). specialize (H j ltac:(lia)). lia.
Qed.
Lemma members_in t k : timers_ok t -> In k (members t) ->
  exists i, i < ts_len t /\ nth_error (ts_arr t) i = Some k /\ wh (ts_objs t) (ts_arr t) i = wobj (ts_objs t) k.
Proof.
  intros O K. apply In_nth_error in K. destruct K as [i K]. unfold members in K.
  assert (i < length (firstn (ts_len t) (ts_arr t))) by (apply nth_error_Some; congruence).
  rewrite firstn_length in H. exists i. rewrite nth_firstn in K by lia. split; [lia|]. split; auto. unfold wh. now rewrite K.
Qed.
Lemma wh_app objs arr n x i : valid objs arr n -> i < n -> wh (objs ++ x) arr i = wh objs arr i.
Proof.
  intros V H. destruct (valid_at _ _ _ _ V H) as (k & t & K & T). unfold wh, wobj. rewrite K.
  rewrite nth_error_app1; auto. apply nth_error_Some. congruence.
Qed.

Lemma firstn_snoc_upd (arr : list nat) n k : n < length arr -> firstn (S n) (upd arr n k) = firstn n arr ++ [k].
Proof.
  revert n; induction arr as [|y arr IH]; intros [|n] B; cbn [length] in B; try lia; [reflexivity|].
  cbn [upd]. change (y :: firstn (S n) (upd arr n k) = y :: (firstn n arr ++ [k])). now rewrite IH by lia.
Qed.

Lemma perm_firstn (arr : list nat) n x : nth_error arr n = Some x -> Permutation (firstn (S n) (x :: arr)) (firstn (S n) arr).
Proof.
  intros X. assert (E : firstn (S n) arr = firstn n arr ++ [x]).
  { revert n X; induction arr as [|y arr IH]; intros [|n] X; try discriminate.
    - now injection X as ->.
    - change (y :: firstn (S n) arr = y :: (firstn n arr ++ [x])). f_equal. now apply IH. }
  rewrite E. apply Permutation_cons_append.
Qed.

Lemma push_ok t x : timers_ok t -> exists t', timers_push t x = Ok t' /\ timers_ok t'
  /\ ts_objs t' = ts_objs t ++ [x] /\ Permutation (members t') (length (ts_objs t) :: members t).
Proof.
  intros [V H C]. pose proof V as [L VI]. unfold timers_push.
  set (arr := if ts_len t =? ts_cap t then reserve (ts_arr t) (ts_cap t * 2) else ts_arr t).
  assert (A1 : ts_len t < length arr /\ firstn (ts_len t) arr = members t /\ length (ts_arr t) <= length arr).
  { unfold arr, members, reserve. unfold ts_cap in *. destruct (Nat.eqb_spec (ts_len t) (length (ts_arr t))) as [E|D]; [|split; [lia|auto]].
    replace (length (ts_arr t) * 2 <=? length (ts_arr t)) with false by (symmetry; apply Nat.leb_gt; lia).
    rewrite app_length, repeat_length. split; [lia|]. split; [|lia]. rewrite firstn_app.
    replace (ts_len t - length (ts_arr t)) with 0 by lia. now rewrite app_nil_r. }
  clearbody arr. destruct A1 as (A1 & A2 & A3). cbv zeta.
  unfold write. replace (ts_len t <? length arr) with true by (symmetry; now apply Nat.ltb_lt). cbn [bind].
  set (n := ts_len t) in *. set (k := length (ts_objs t)).
  assert (Q1 : firstn (S n) (upd arr n k) = members t ++ [k]).
  { rewrite <- A2. now apply firstn_snoc_upd. }
  assert (W : forall i, i < n -> wh (ts_objs t ++ [x]) (upd arr n k) i = wh (ts_objs t) (ts_arr t) i).
  { intros i Hi. rewrite <- (wh_app _ _ n [x] i V Hi). unfold wh. rewrite nth_upd_ne by lia.
    rewrite <- (nth_firstn arr n i Hi), A2. unfold members. fold n. now rewrite nth_firstn. }
  assert (V' : valid (ts_objs t ++ [x]) (upd arr n k) (S n)).
  { split; [rewrite upd_length; lia|]. rewrite Q1. intros j J. rewrite app_length. cbn [length]. apply in_app_or in J.
    destruct J as [J|[<-|[]]]; [apply VI in J|unfold k]; lia. }
  destruct (sift_up_ok (ts_objs t ++ [x]) (S n) (S n) (upd arr n k) n) as (a & Ea & Va & La & Pa & Ha); try lia; auto.
  - intros j J D. assert (par j < j) by (apply par_lt; lia). rewrite !W by lia. apply H. lia.
  - intros j J P E. apply par_child in E; lia.
  - rewrite Ea. cbn [bind]. eexists. split; [reflexivity|]. split; [split; cbn [ts_objs ts_arr ts_len]; auto|].
    + unfold ts_cap in *. cbn [ts_arr]. rewrite La, upd_length. lia.
    + cbn [ts_objs]. split; auto. unfold members. cbn [ts_len ts_arr]. fold n. rewrite Pa, Q1.
      unfold members. fold n. symmetry. apply Permutation_cons_append.
Qed.

Lemma pop_ok t : timers_ok t -> 0 < ts_len t -> exists k t', timers_pop t = Ok (k, t') /\ timers_ok t'
  /\ ts_objs t' = ts_objs t /\ S (ts_len t') = ts_len t /\ Permutation (members t) (k :: members t')
  /\ wh (ts_objs t) (ts_arr t) 0 = wobj (ts_objs t) k
  /\ forall j, In j (members t) -> (wobj (ts_objs t) k <= wobj (ts_objs t) j)%Z.
Proof.
  intros O Pn. pose proof O as [V H C]. pose proof V as [L VI]. unfold timers_pop.
  destruct (valid_at _ _ _ _ V Pn) as (k & tk & K & Tk). unfold read at 1. rewrite K. cbn [bind].
  assert (Rt : wh (ts_objs t) (ts_arr t) 0 = wobj (ts_objs t) k) by (unfold wh; now rewrite K).
  assert (Mn : forall j, In j (members t) -> (wobj (ts_objs t) k <= wobj (ts_objs t) j)%Z).
  { intros j J. destruct (members_in _ _ O J) as (i & Hi & _ & <-). rewrite <- Rt. now apply (heap_root _ _ (ts_len t)). }
  destruct (ts_arr t) as [|k' arr] eqn:EA; [discriminate|]. injection K as ->.
  destruct (Nat.ltb_spec 0 (ts_len t - 1)) as [P|Z0].
  - destruct (valid_at _ _ _ (ts_len t - 1) V) as (x & tx & X & Tx); [lia|]. unfold read. rewrite X. cbn [bind].
    unfold write. cbn [length]. change (0 <? S (length arr)) with true. cbn [bind upd].
    set (n := ts_len t - 1) in *.
    assert (Q1 : Permutation (firstn n (x :: arr)) (firstn n arr)).
    { clearbody n. destruct n as [|n]; [lia|]. apply perm_firstn. exact X. }
    assert (W : forall i, 0 < i < n -> wh (ts_objs t) (x :: arr) i = wh (ts_objs t) (k :: arr) i).
    { intros [|i] Hi; [lia|]. reflexivity. }
    assert (V' : valid (ts_objs t) (x :: arr) n).
    { split; [cbn [length] in *; lia|]. intros j J. apply VI. apply (Permutation_in _ Q1) in J.
      replace (ts_len t) with (S n) by lia. cbn [firstn]. now right. }
    destruct (sift_down_ok (ts_objs t) n n (x :: arr) 0) as (a & Ea & Va & La & Pa & Ha); try lia; auto.
    + intros j J D. assert (par j < j) by (apply par_lt; lia). rewrite !W by lia. apply H. lia.
    + rewrite Ea. cbn [bind]. eexists _, _. split; [reflexivity|]. split; [split; cbn [ts_objs ts_arr ts_len]; auto|].
      * unfold ts_cap in *. cbn [ts_arr]. rewrite La. cbn [length]. lia.
      * cbn [ts_objs ts_len]. split; auto. split; [lia|]. split; [|split; auto].
        unfold members. rewrite EA. cbn [ts_len ts_arr]. replace (ts_len t) with (S n) by lia. cbn [firstn].
        constructor. now rewrite Pa, Q1.
  - eexists _, _. split; [reflexivity|]. split; [split; cbn [ts_objs ts_arr ts_len]|].
    + split; [lia|]. replace (ts_len t - 1) with 0 by lia. easy.
    + intros j J. lia.
    + unfold ts_cap. cbn. lia.
    + cbn [ts_objs ts_len]. split; auto. split; [lia|]. split; [|split; auto].
      unfold members. rewrite EA. cbn [ts_len ts_arr]. replace (ts_len t) with 1 by lia. reflexivity.
Qed.

Lemma cancel_timer_ok t k x : timers_ok t -> nth_error (ts_objs t) k = Some x ->
  exists t', cancel_timer t k = Ok t' /\ timers_ok t' /\ members t' = members t
    /\ ts_objs t' = upd (ts_objs t) k (Timer no_work (t_when x)) /\ forall j, wobj (ts_objs t') j = wobj (ts_objs t) j.
Proof.
  intros [V H C] X. unfold cancel_timer, read. rewrite X. cbn [bind]. eexists. split; [reflexivity|].
  assert (WO : forall j, wobj (upd (ts_objs t) k (Timer no_work (t_when x))) j = wobj (ts_objs t) j).
  { intros j. unfold wobj. destruct (Nat.eq_dec k j) as [<-|D]; [now rewrite (nth_upd_eq _ _ _ _ X), X|now rewrite nth_upd_ne]. }
  split; [|split; auto]. split; cbn [ts_objs ts_arr ts_len]; auto.
  - destruct V as [L V]. split; auto. intros j J. rewrite upd_length. auto.
  - intros j J. specialize (H j J). unfold wh in *. destruct (nth_error (ts_arr t) j), (nth_error (ts_arr t) (par j)); rewrite ?WO; auto.
Qed.
