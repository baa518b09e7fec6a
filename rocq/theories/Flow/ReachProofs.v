(** Facts about [Reach]. *)
From Coq Require Import List Bool Arith Lia.
From Verif.Common Require Import Result.
From Verif.Flow Require Import Graph BitSet BitSetProofs Reach DomProofs.
Import ListNotations.

(** The last assignment of a variable *)
Definition lastdef (x : nat) (l : list item) : option item := fold_left (fun acc v => if kills x v then Some v else acc) l None.
Lemma lastdef_from x l acc : fold_left (fun acc v => if kills x v then Some v else acc) l acc = match lastdef x l with Some d => Some d | None => acc end.
Proof.
  unfold lastdef. revert acc. induction l as [|v l IH]; intros acc; cbn; auto. rewrite IH. rewrite (IH (if kills x v then Some v else None)).
  destruct (fold_left _ l None); auto. now destruct (kills x v).
Qed.
Lemma lastdef_app x l m : lastdef x (l ++ m) = match lastdef x m with Some d => Some d | None => lastdef x l end.
Proof. unfold lastdef at 1. rewrite fold_left_app, lastdef_from. reflexivity. Qed.
Lemma lastdef_cons x v l : lastdef x (v :: l) = match lastdef x l with Some d => Some d | None => if kills x v then Some v else None end.
Proof. apply (lastdef_app x [v] l). Qed.
Lemma lastdef_some x l d : lastdef x l = Some d -> In d l /\ kills x d = true.
Proof.
  induction l as [|v l IH]; [discriminate|]. rewrite lastdef_cons. destruct (lastdef x l) as [e|].
  - intros H; injection H as ->. destruct IH as [I K]; auto. split; auto. now right.
  - destruct (kills x v) eqn:E; [|discriminate]. intros H; injection H as ->. split; auto. now left.
Qed.
Lemma lastdef_none x l : lastdef x l = None <-> forall v, In v l -> kills x v = false.
Proof.
  induction l as [|v l IH]; [split; auto; intros _ v []|]. rewrite lastdef_cons. destruct (lastdef x l) as [e|] eqn:E.
  - split; [discriminate|]. intros H. destruct (lastdef_some x l e E) as [I K]. rewrite H in K by (now right). discriminate.
  - destruct IH as [IH _]. specialize (IH eq_refl). destruct (kills x v) eqn:K.
    + split; [discriminate|]. intros H. rewrite H in K by (now left). discriminate.
    + split; auto. intros _ w [<-|H]; auto.
Qed.
Lemma kills_killed x v : kills x v = true <-> getKilled v = Some x.
Proof. unfold kills. destruct (getKilled v); [rewrite Nat.eqb_eq|]; split; congruence. Qed.
Lemma gen_killed v x d : getGenerated v = Some (x, d) -> getKilled v = Some x.
Proof. unfold getGenerated, getKilled. destruct (ikind v) as [y [a|]| | |]; congruence. Qed.
Lemma killed_gen v x : getKilled v = Some x -> exists d, getGenerated v = Some (x, d).
Proof. unfold getGenerated, getKilled. destruct (ikind v) as [y [a|]| | |]; intros H; try discriminate; injection H as ->; eauto. Qed.

Lemma upd_len {A} (l : list A) i x : length (upd l i x) = length l.
Proof. revert i; induction l; destruct i; cbn; auto. Qed.
Lemma nth_upd {A} (l : list A) i j x d : i < length l -> nth j (upd l i x) d = if Nat.eqb i j then x else nth j l d.
Proof. revert i j. induction l as [|a l IH]; intros i j H; [inversion H|]. destruct i, j; cbn; auto. apply IH. cbn in H. lia. Qed.

Section Proofs.
Context (g : graph) (WF : wf g) (items : nat -> list item).
Notation n := (size g).
Notation all_items := (all_items g items).
Notation ordering := (ordering g items).
Notation N := (N g items).
Notation lookup := (lookup g items).
Context (ND : NoDup (map iid all_items)).
Notation ok := (wok (allocSize N)).

Lemma in_all b v : b < n -> In v (items b) -> In v all_items.
Proof. intros HB HV. apply in_concat. exists (items b). split; auto. apply in_map, in_seq. lia. Qed.
Lemma all_in v : In v all_items -> exists b, b < n /\ In v (items b).
Proof. intros H. apply in_concat in H. destruct H as (l & H & HV). apply in_map_iff in H. destruct H as (b & <- & HB). apply in_seq in HB. exists b. split; auto. lia. Qed.
Lemma iid_inj v w : In v all_items -> In w all_items -> iid v = iid w -> v = w.
Proof.
  revert ND. generalize all_items. induction l as [|a l IH]; cbn; [contradiction|]. intros H. inversion H; subst. intros [->|V] [->|W] E; auto.
  - exfalso. apply H2. rewrite E. now apply in_map.
  - exfalso. apply H2. rewrite <- E. now apply in_map.
Qed.
Lemma in_ordering v : In v ordering <-> In v all_items /\ exists x, getKilled v = Some x.
Proof. unfold Reach.ordering. rewrite filter_In. split; intros [H K]; split; auto; [destruct (getKilled v); eauto; discriminate|now destruct K as [x ->]]. Qed.
Lemma index_lt id l : In id (map iid l) -> index id l < length l /\ exists v, nth_error l (index id l) = Some v /\ iid v = id.
Proof.
  induction l as [|a l IH]; cbn; [contradiction|]. intros H. destruct (Nat.eqb_spec (iid a) id) as [E|NE]; [split; [lia|exists a; auto]|]. destruct H as [H|H]; [contradiction|].
  destruct (IH H) as (L & v & E1 & E2). split; [lia|]. eauto.
Qed.
Lemma lookup_ok v : In v ordering -> lookup (iid v) < N /\ nth_error ordering (lookup (iid v)) = Some v.
Proof.
  intros H. destruct (index_lt (iid v) ordering) as (L & w & E & EI); [now apply in_map|]. split; auto. unfold Reach.lookup. rewrite E. f_equal.
  apply iid_inj; auto; apply in_ordering; auto. eapply nth_error_In; eauto.
Qed.
(** [k] is the number of the definition [a] *)
Definition num (k : nat) (a : item) : Prop := nth_error ordering k = Some a.
Lemma num_in k a : num k a -> In a ordering.
Proof. apply nth_error_In. Qed.
Lemma num_lookup k a : num k a -> lookup (iid a) = k.
Proof.
  intros H. pose proof (num_in k a H) as I. destruct (lookup_ok a I) as [L E]. unfold num in H.
  assert (NO : NoDup ordering).
  { apply NoDup_filter. apply (NoDup_map_inv iid). exact ND. }
  rewrite NoDup_nth_error in NO. apply NO; [apply nth_error_Some; congruence|congruence].
Qed.
Lemma num_lt k a : num k a -> k < N.
Proof. intros H. apply nth_error_Some. congruence. Qed.
Lemma num_some k : k < N -> exists a, num k a.
Proof. intros H. unfold num. destruct (nth_error ordering k) eqn:E; eauto. apply nth_error_None in E. unfold Reach.N in H. lia. Qed.
Lemma lookup_num a : In a ordering -> num (lookup (iid a)) a.
Proof. intros H. now apply lookup_ok. Qed.

(** Sets built with [set] *)
Lemma sets_ok {A} (f : A -> option nat) l w : ok w -> (forall a k, In a l -> f a = Some k -> k < N) ->
  ok (fold_left (fun w a => match f a with Some k => set w k | None => w end) l w) /\
  forall k, get (fold_left (fun w a => match f a with Some k => set w k | None => w end) l w) k = true <-> get w k = true \/ exists a, In a l /\ f a = Some k.
Proof.
  revert w. induction l as [|a l IH]; intros w O H; cbn.
  - split; auto. intros k. split; auto. intros [E|(a & [] & _)]; auto.
  - destruct (IH (match f a with Some k => set w k | None => w end)) as [I1 I2].
    + destruct (f a); auto. now apply set_ok.
    + intros b k Hb. apply H. now right.
    + split; auto. intros k. rewrite I2. destruct (f a) as [j|] eqn:E.
      * rewrite (get_set N) by (auto; eapply H; eauto; now left). rewrite orb_true_iff, Nat.eqb_eq. split.
        -- intros [[->|G]|(b & Hb & Eb)]; eauto.
        -- intros [G|(b & [<-|Hb] & Eb)]; eauto. left. left. congruence.
      * split; [intros [G|(b & Hb & Eb)]; eauto|intros [G|(b & [<-|Hb] & Eb)]; eauto; congruence].
Qed.

Lemma generated_in l m x i : In (x, i) (fold_left (fun m v => match getGenerated v with
                        | Some (x, _) => (x, iid v) :: filter (fun e => negb (Nat.eqb (fst e) x)) m
                        | None => m
                        end) l m) <-> (exists v, lastdef x l = Some v /\ iid v = i) \/ (lastdef x l = None /\ In (x, i) m).
Proof.
  revert m. induction l as [|v l IH]; intros m; cbn [fold_left].
  - split; [intros H; right; auto|intros [(v & H & _)|[_ H]]; auto; discriminate].
  - rewrite IH, lastdef_cons. destruct (lastdef x l) as [d|] eqn:E.
    + split; intros [H|H]; auto; destruct H; discriminate.
    + destruct (getGenerated v) as [[y r]|] eqn:G.
      * apply gen_killed in G. unfold kills. rewrite G. destruct (Nat.eqb_spec x y) as [->|NE].
        -- split; [intros [(w & H & _)|[_ [H|H]]]; [discriminate| |]|].
           ++ injection H as <-. left. eauto.
           ++ apply filter_In in H. cbn in H. rewrite Nat.eqb_refl in H. destruct H; discriminate.
           ++ intros [(w & H & <-)|[H _]]; [|discriminate]. injection H as <-. right. split; auto. now left.
        -- split; [intros [(w & H & _)|[_ [H|H]]]; [discriminate| |]|].
           ++ injection H as -> _. contradiction.
           ++ apply filter_In in H. right. split; auto. apply H.
           ++ intros [(w & H & _)|[_ H]]; [discriminate|]. right. split; auto. right. apply filter_In. split; auto. cbn. destruct (Nat.eqb_spec x y); auto.
      * assert (K : kills x v = false). { unfold kills. destruct (getKilled v) eqn:K; auto. destruct (killed_gen _ _ K). congruence. } rewrite K. split; intros [H|[_ H]]; auto; destruct H as (w & H & _); discriminate.
Qed.
Lemma gen_ok b : b < n -> ok (gen g items b) /\ forall k a x, num k a -> getKilled a = Some x -> (get (gen g items b) k = true <-> lastdef x (items b) = Some a).
Proof.
  intros HB. unfold gen.
  assert (L : forall x i, In (x, i) (generated items b) -> exists v, lastdef x (items b) = Some v /\ iid v = i /\ In v ordering).
  { intros x i H. apply generated_in in H. destruct H as [(v & E & <-)|[_ []]]. exists v. split; auto. split; auto. destruct (lastdef_some _ _ _ E) as [I K]. apply in_ordering. split; [eapply in_all; eauto|].
    exists x. now apply kills_killed. }
  destruct (sets_ok (fun e : nat * nat => Some (lookup (snd e))) (generated items b) (empty N)) as [S1 S2].
  { apply empty_ok. }
  { intros [x i] k H E. injection E as <-. destruct (L x i H) as (v & _ & <- & I). now apply lookup_ok. }
  split; auto. intros k a x HN K. rewrite S2, get_empty. split.
  - intros [H|([y i] & H & E)]; [discriminate|]. injection E as E. cbn in E. destruct (L y i H) as (v & E1 & <- & I).
    assert (v = a). { pose proof (lookup_num v I) as X. rewrite E in X. unfold num in *. congruence. } subst v.
    destruct (lastdef_some _ _ _ E1) as [_ K']. apply kills_killed in K'. congruence.
  - intros H. right. exists (x, iid a). split; [|cbn; f_equal; now apply num_lookup]. apply generated_in. left. eauto.
Qed.
Lemma kill1_ok v w : ok w -> ok (kill1 g items v w) /\ forall k a x, num k a -> getKilled a = Some x ->
  (get (kill1 g items v w) k = true <-> get w k = true \/ (kills x v = true /\ iid v <> iid a)).
Proof.
  intros O. unfold kill1. destruct (getKilled v) as [y|] eqn:K.
  - destruct (sets_ok (fun a : item => if Nat.eqb (iid a) (iid v) then None else Some (lookup (iid a))) (assignments g items y) w O) as [S1 S2].
    { intros a k H E. destruct (Nat.eqb _ _); [discriminate|]. injection E as <-. apply lookup_ok. unfold assignments in H. apply filter_In in H. apply H. }
    assert (EQ : fold_left (fun w a => if Nat.eqb (iid a) (iid v) then w else set w (lookup (iid a))) (assignments g items y) w =
                 fold_left (fun w a => match (if Nat.eqb (iid a) (iid v) then None else Some (lookup (iid a))) with Some k => set w k | None => w end) (assignments g items y) w).
    { clear. generalize (assignments g items y) as l. intros l. revert w. induction l as [|a l IH]; intros w; cbn; auto. rewrite IH. now destruct (Nat.eqb _ _). }
    rewrite EQ. split; auto. intros k a x HN KA. rewrite S2. split; (intros [H|H]; [now left|right]).
    + destruct H as (c & HC & E). destruct (Nat.eqb_spec (iid c) (iid v)) as [|NE]; [discriminate|]. injection E as E. unfold assignments in HC. apply filter_In in HC. destruct HC as [C1 C2].
      assert (c = a). { pose proof (lookup_num c C1) as X. rewrite E in X. unfold num in *. congruence. } subst c. apply kills_killed in C2. assert (x = y) by congruence. subst y. split; [now apply kills_killed|auto].
    + destruct H as [H NE]. apply kills_killed in H. assert (x = y) by congruence. subst y. exists a. split.
      * unfold assignments. apply filter_In. split; [now apply num_in with k|now apply kills_killed].
      * destruct (Nat.eqb_spec (iid a) (iid v)); [congruence|]. f_equal. now apply num_lookup.
  - split; auto. intros k a x HN KA. split; auto. intros [H|[H _]]; auto. apply kills_killed in H. congruence.
Qed.
Lemma kill_ok b : ok (kill g items b) /\ forall k a x, num k a -> getKilled a = Some x ->
  (get (kill g items b) k = true <-> exists v, In v (items b) /\ kills x v = true /\ iid v <> iid a).
Proof.
  unfold kill.
  assert (H : forall l w, ok w -> ok (fold_left (fun w v => kill1 g items v w) l w) /\ forall k a x, num k a -> getKilled a = Some x ->
    (get (fold_left (fun w v => kill1 g items v w) l w) k = true <-> get w k = true \/ exists v, In v l /\ kills x v = true /\ iid v <> iid a)).
  { induction l as [|v l IH]; intros w O; cbn.
    - split; auto. intros k a x _ _. split; auto. intros [E|(v & [] & _)]; auto.
    - destruct (kill1_ok v w O) as [K1 K2]. destruct (IH _ K1) as [I1 I2]. split; auto. intros k a x HN KA. rewrite I2, K2 by eauto. split.
      + intros [[E|E]|(u & U & E)]; eauto.
      + intros [E|(u & [<-|U] & E)]; eauto. }
  destruct (H (items b) (empty N)) as [H1 H2]; [apply empty_ok|]. split; auto. intros k a x HN KA. rewrite H2 by eauto. rewrite get_empty. split; [intros [E|E]; [discriminate|auto]|auto].
Qed.

(** Transfer through a block *)
Lemma IN_ok outs b : (forall p, p < n -> ok (nth p outs [])) -> ok (IN g items outs b) /\
  forall k, get (IN g items outs b) k = true <-> exists p, In p (preds g b) /\ get (nth p outs []) k = true.
Proof.
  intros O. unfold IN.
  assert (H : forall l w, ok w -> (forall p, In p l -> p < n) -> ok (fold_left (fun w p => update w (nth p outs [])) l w) /\
    forall k, get (fold_left (fun w p => update w (nth p outs [])) l w) k = true <-> get w k = true \/ exists p, In p l /\ get (nth p outs []) k = true).
  { induction l as [|p l IH]; intros w OW HL; cbn.
    - split; auto. intros k. split; auto. intros [E|(p & [] & _)]; auto.
    - assert (OP : ok (nth p outs [])) by (apply O, HL; now left). destruct (IH (update w (nth p outs []))) as [I1 I2]; [now apply update_ok|intros r Hr; apply HL; now right|]. split; auto.
      intros k. rewrite I2, (get_update (allocSize N)) by auto. rewrite orb_true_iff. split.
      + intros [[E|E]|(q & Q & E)]; eauto.
      + intros [E|(q & [<-|Q] & E)]; eauto. }
  destruct (H (preds g b) (empty N)) as [H1 H2]; [apply empty_ok|intros p HP; now apply preds_In in HP|]. split; auto. intros k. rewrite H2, get_empty. split; [intros [E|E]; [discriminate|auto]|auto].
Qed.
Lemma OUT_ok i b : ok i -> b < n -> ok (OUT g items i b) /\
  forall k, get (OUT g items i b) k = get i k && negb (get (kill g items b) k) || get (gen g items b) k.
Proof.
  intros O HB. destruct (gen_ok b HB) as [G _]. destruct (kill_ok b) as [K _]. unfold OUT. assert (S := subtract_ok _ _ _ O K). split; [now apply update_ok|].
  intros k. now rewrite (get_update (allocSize N)), (get_subtract (allocSize N)) by auto.
Qed.

(** What has been run along a path *)
Definition ran (h : list nat) : list item := concat (map items (rev h)).
Lemma ran_cons b h : ran (b :: h) = ran h ++ items b.
Proof. unfold ran. cbn. rewrite map_app, concat_app. cbn. now rewrite app_nil_r. Qed.
Definition reach_in (b : nat) (a : item) : Prop := exists x s h, getKilled a = Some x /\ s < n /\ trace g s h b /\ lastdef x (ran h) = Some a.
Definition reach_out (b : nat) (a : item) : Prop := exists x s h, getKilled a = Some x /\ s < n /\ trace g s h b /\ lastdef x (ran (b :: h)) = Some a.

Definition inv (s : state) : Prop :=
  let '(q, ins, outs) := s in
  length ins = n /\ length outs = n /\ NoDup q /\ (forall b, In b q -> b < n) /\
  (forall b, b < n -> ok (nth b ins []) /\ ok (nth b outs [])) /\
  (forall b k, b < n -> get (nth b outs []) k = true -> get (OUT g items (IN g items outs b) b) k = true) /\
  (forall b k a, b < n -> num k a -> get (nth b outs []) k = true -> reach_out b a) /\
  (forall b k a, b < n -> num k a -> get (nth b ins []) k = true -> reach_in b a) /\
  (forall b, b < n -> ~ In b q -> nth b ins [] = IN g items outs b /\ nth b outs [] = OUT g items (IN g items outs b) b).

Lemma ord_killed k a : num k a -> exists x, getKilled a = Some x.
Proof. intros H. apply num_in, in_ordering in H. apply H. Qed.

Lemma IN_reach outs b k a : (forall p, p < n -> ok (nth p outs [])) ->
  (forall p k a, p < n -> num k a -> get (nth p outs []) k = true -> reach_out p a) -> num k a -> get (IN g items outs b) k = true -> reach_in b a.
Proof.
  intros O R HN H. apply (IN_ok outs b O) in H. destruct H as (p & HP & H). apply preds_In in HP. destruct HP as [HP HE]. destruct (R p k a HP HN H) as (x & s & h & K & HS & T & L).
  exists x, s, (p :: h). repeat split; auto. econstructor; eauto.
Qed.
Lemma OUT_reach i b k a : ok i -> b < n -> (forall k a, num k a -> get i k = true -> reach_in b a) -> num k a -> get (OUT g items i b) k = true -> reach_out b a.
Proof.
  intros O HB R HN H. destruct (OUT_ok i b O HB) as [_ E]. rewrite E in H. destruct (ord_killed k a HN) as [x K]. apply orb_true_iff in H. destruct H as [H|H].
  - apply andb_true_iff in H. destruct H as [H1 H2]. apply negb_true_iff in H2. destruct (R k a HN H1) as (y & s & h & K' & HS & T & L). assert (y = x) by congruence. subst y.
    exists x, s, h. repeat split; auto. rewrite ran_cons, lastdef_app. destruct (lastdef x (items b)) as [d|] eqn:D; auto. f_equal.
    destruct (lastdef_some _ _ _ D) as [D1 D2]. apply iid_inj.
    + apply (in_all b); auto.
    + now apply num_in, in_ordering in HN.
    + destruct (Nat.eq_dec (iid d) (iid a)); auto. exfalso. enough (X : get (kill g items b) k = true) by congruence. apply (proj2 (kill_ok b) k a x HN K). eauto.
  - apply (proj2 (gen_ok b HB) k a x HN K) in H. exists x, b, []. repeat split; auto; [constructor|]. rewrite ran_cons, lastdef_app, H. reflexivity.
Qed.
Lemma OUT_lastdef i b k a x l : ok i -> b < n -> num k a -> getKilled a = Some x -> (lastdef x l = Some a -> get i k = true) -> lastdef x (l ++ items b) = Some a -> get (OUT g items i b) k = true.
Proof.
  intros O HB HN K HL H. destruct (OUT_ok i b O HB) as [_ E]. rewrite E. apply orb_true_iff. rewrite lastdef_app in H. destruct (lastdef x (items b)) as [d|] eqn:D.
  - right. injection H as ->. now apply (proj2 (gen_ok b HB) k a x HN K).
  - left. apply andb_true_iff. split; auto. apply negb_true_iff. destruct (get (kill g items b) k) eqn:G; auto. apply (proj2 (kill_ok b) k a x HN K) in G. destruct G as (v & V & KV & _).
    rewrite lastdef_none in D. rewrite D in KV by auto. discriminate.
Qed.

Lemma push_in q b c : In c (push q b) <-> In c q \/ c = b.
Proof. unfold push. destruct (memb b q) eqn:E; [apply memb_In in E; split; auto; intros [H| ->]; auto|]. rewrite in_app_iff. cbn. intuition. Qed.
Lemma push_nodup q b : NoDup q -> NoDup (push q b).
Proof.
  intros H. unfold push. destruct (memb b q) eqn:E; auto. assert (X : ~ In b q) by (rewrite <- memb_In; congruence). clear E.
  induction H as [|a q A H IH]; cbn; [repeat constructor; auto|]. constructor; [|apply IH; intros Y; apply X; now right]. rewrite in_app_iff. cbn. intros [Y|[->|[]]]; auto. apply X. now left.
Qed.
Lemma pushes l q : NoDup q -> NoDup (fold_left push l q) /\ forall c, In c (fold_left push l q) <-> In c q \/ In c l.
Proof.
  revert q. induction l as [|b l IH]; intros q H; cbn; [intuition|]. destruct (IH (push q b) (push_nodup q b H)) as [I1 I2]. split; auto. intros c. rewrite I2, push_in. intuition.
Qed.

Lemma map_nth_seq {A} (f : nat -> A) b d : b < n -> nth b (map f (seq 0 n)) d = f b.
Proof. intros H. rewrite nth_indep with (d' := f 0) by (rewrite map_length, seq_length; auto). rewrite map_nth, seq_nth; auto. Qed.
Lemma init_inv : inv (init g items).
Proof.
  assert (LI : forall b, b < n -> nth b (map (fun _ => empty N) (seq 0 n)) [] = empty N) by (intros; now rewrite map_nth_seq).
  assert (LO : forall b, b < n -> nth b (map (gen g items) (seq 0 n)) [] = gen g items b) by (intros; now rewrite map_nth_seq).
  assert (OO : forall p, p < n -> ok (nth p (map (gen g items) (seq 0 n)) [])) by (intros p Hp; rewrite LO by auto; now apply gen_ok).
  unfold init, inv. split; [now rewrite map_length, seq_length|]. split; [now rewrite map_length, seq_length|]. split; [apply seq_NoDup|]. split; [intros b H; apply in_seq in H; lia|]. split; [|split; [|split; [|split]]].
  - intros b H. rewrite LI, LO by auto. split; [apply empty_ok|now apply gen_ok].
  - intros b k HB H. rewrite LO in H by auto. destruct (OUT_ok (IN g items (map (gen g items) (seq 0 n)) b) b) as [_ E]; auto; [now apply IN_ok|]. rewrite E, H. apply orb_true_r.
  - intros b k a HB HN H. rewrite LO in H by auto. destruct (ord_killed k a HN) as [x K]. apply (proj2 (gen_ok b HB) k a x HN K) in H. exists x, b, []. repeat split; auto; [constructor|]. rewrite ran_cons, lastdef_app, H. reflexivity.
  - intros b k a HB HN H. rewrite LI, get_empty in H by auto. discriminate.
  - intros b HB H. exfalso. apply H, in_seq. lia.
Qed.

Definition tot (outs : list bits) : nat := list_sum (map (fun w => 64 * allocSize N - count (allocSize N) w) outs).
Lemma tot_upd outs b w : b < length outs -> tot (upd outs b w) + (64 * allocSize N - count (allocSize N) (nth b outs [])) = tot outs + (64 * allocSize N - count (allocSize N) w).
Proof.
  unfold tot. revert b. induction outs as [|a l IH]; intros b H; [inversion H|]. destruct b; cbn [upd map list_sum fold_right nth]; unfold list_sum in *; [lia|]. specialize (IH b). cbn in H. lia.
Qed.
Definition mu (s : state) : nat := let '(q, _, outs) := s in tot outs * S n + length q.

Lemma OUT_mono i j b : ok i -> ok j -> b < n -> (forall k, get i k = true -> get j k = true) -> forall k, get (OUT g items i b) k = true -> get (OUT g items j b) k = true.
Proof.
  intros OI OJ HB S k. rewrite (proj2 (OUT_ok i b OI HB)), (proj2 (OUT_ok j b OJ HB)), !orb_true_iff, !andb_true_iff. intuition.
Qed.

Lemma work_ok s : inv s -> wp (work g items s) (fun o => match o with
  | inl s' => inv s' /\ mu s' < mu s
  | inr ins => inv ([], ins, snd s) end).
Proof.
  destruct s as [[q ins] outs]. intros I. unfold work. destruct q as [|b q]; [exact I|]. apply wp_ok.
  destruct I as (LI & LO & NQ & HQ & OK & PRE & WO & WI & FIX).
  assert (HB : b < n) by (apply HQ; now left). assert (OO : forall p, p < n -> ok (nth p outs [])) by (intros; now apply OK).
  remember (IN g items outs b) as i eqn:Ei. remember (OUT g items i b) as o eqn:Eo.
  assert (Oi : ok i) by (subst i; now apply IN_ok). assert (Oo : ok o) by (subst o; now apply OUT_ok).
  assert (NI : forall c, nth c (upd ins b i) [] = if Nat.eqb b c then i else nth c ins []) by (intros; apply nth_upd; lia).
  assert (NO : forall c, nth c (upd outs b o) [] = if Nat.eqb b c then o else nth c outs []) by (intros; apply nth_upd; lia).
  assert (OO' : forall p, p < n -> ok (nth p (upd outs b o) [])) by (intros p Hp; rewrite NO; destruct (Nat.eqb b p); auto).
  assert (UP : forall c k, c < n -> get (nth c outs []) k = true -> get (nth c (upd outs b o) []) k = true).
  { intros c k HC H. rewrite NO. destruct (Nat.eqb_spec b c) as [<-|]; auto. subst o i. now apply PRE. }
  assert (INM : forall c k, get (IN g items outs c) k = true -> get (IN g items (upd outs b o) c) k = true).
  { intros c k H. apply (IN_ok outs c OO) in H. destruct H as (p & HP & H). apply (IN_ok (upd outs b o) c OO'). exists p. split; auto. apply UP; auto. now apply preds_In in HP. }
  remember (if equals o (nth b outs []) then q else fold_left push (succs g b) q) as q' eqn:Eq.
  inversion NQ as [|? ? NB NQ']; subst x l.
  assert (Q' : NoDup q' /\ (forall c, In c q' -> c < n) /\ (forall c, In c q -> In c q') /\ (o <> nth b outs [] -> forall c, In c (succs g b) -> In c q')).
  { subst q'. destruct (equals o (nth b outs [])) eqn:E.
    - apply equals_eq in E. repeat split; auto; [intros c HC; apply HQ; now right|intros; congruence].
    - destruct (pushes (succs g b) q NQ') as [P1 P2]. repeat split; auto; [intros c HC; apply P2 in HC|intros c HC; apply P2; auto|intros _ c HC; apply P2; auto].
      destruct HC as [HC|HC]; [apply HQ; now right|]. destruct WF as (_ & W & _). eauto. }
  destruct Q' as (ND' & LT' & SUB' & SUC').
  assert (RI : forall k a, num k a -> get i k = true -> reach_in b a) by (intros k a HN H; subst i; apply (IN_reach outs b k a); auto).
  split.
  - split; [now rewrite upd_len|]. split; [now rewrite upd_len|]. split; auto. split; auto. split; [|split; [|split; [|split]]].
    + intros c HC. split; [rewrite NI; destruct (Nat.eqb b c); auto; now apply OK|auto].
    + intros c k HC H. rewrite NO in H. destruct (Nat.eqb_spec b c) as [<-|NE].
      * rewrite Eo, Ei in H. exact (OUT_mono _ _ b (proj1 (IN_ok outs b OO)) (proj1 (IN_ok _ b OO')) HC (INM b) k H).
      * apply PRE in H; auto. exact (OUT_mono _ _ c (proj1 (IN_ok outs c OO)) (proj1 (IN_ok _ c OO')) HC (INM c) k H).
    + intros c k a HC HN H. rewrite NO in H. destruct (Nat.eqb_spec b c) as [<-|NE]; [|eauto]. subst o. eapply (OUT_reach i b k a); eauto.
    + intros c k a HC HN H. rewrite NI in H. destruct (Nat.eqb_spec b c) as [<-|NE]; eauto.
    + intros c HC NC.
      assert (SAME : ~ In b (preds g c) \/ o = nth b outs []).
      { destruct (list_eq_dec BinInt.Z.eq_dec o (nth b outs [])); auto. left. intros HP. apply preds_In in HP. apply NC, SUC'; auto. apply HP. }
      assert (EQ : IN g items (upd outs b o) c = IN g items outs c).
      { apply (bits_ext (allocSize N)); try now apply IN_ok. intros k Hk. apply eq_true_iff_eq. rewrite (proj2 (IN_ok _ c OO')), (proj2 (IN_ok _ c OO)). split; intros (p & HP & H); exists p; (split; [auto|]).
        - rewrite NO in H. destruct (Nat.eqb_spec b p) as [<-|]; auto. destruct SAME as [X| ->]; [contradiction|auto].
        - rewrite NO. destruct (Nat.eqb_spec b p) as [<-|]; auto. destruct SAME as [X| ->]; [contradiction|auto]. }
      rewrite EQ, NI, NO. destruct (Nat.eqb_spec b c) as [<-|NE]; [now subst o i|]. apply FIX; auto. intros [|X]; [congruence|auto].
  - unfold mu. cbn [length]. pose proof (tot_upd outs b o ltac:(lia)) as T.
    assert (LQ : length q' <= n). { rewrite <- (seq_length n 0). apply NoDup_incl_length; auto. intros c HC. apply in_seq. specialize (LT' c HC). lia. }
    pose proof (count_le (allocSize N) o). destruct (count_sub (allocSize N) (nth b outs []) o) as [C1 C2]; auto; [intros k H'; subst o i; now apply PRE|].
    destruct (equals o (nth b outs [])) eqn:E.
    + apply equals_eq in E. subst q'. rewrite <- E in T. assert (tot (upd outs b o) = tot outs) by lia. rewrite H0. lia.
    + assert (nth b outs [] <> o) by (intros X; symmetry in X; apply equals_eq in X; congruence). specialize (C2 H0).
      assert (tot (upd outs b o) < tot outs) by lia. nia.
Qed.

Lemma tot_init : tot (map (gen g items) (seq 0 n)) <= n * (64 * allocSize N).
Proof.
  unfold tot. rewrite <- (seq_length n 0) at 2. generalize (seq 0 n). induction l as [|a l IH]; cbn [map list_sum fold_right length]; unfold list_sum in *; lia.
Qed.

Theorem analyze_exact : exists ins, analyze g items = Ok ins /\ length ins = n /\
  forall b k a, b < n -> num k a -> (get (nth b ins []) k = true <-> reach_in b a).
Proof.
  assert (A : exists ins, analyze g items = Ok ins /\ exists outs, inv ([], ins, outs)).
  { apply wp_inv. unfold analyze. apply wp_loop with (I := inv) (mu := mu).
    - intros s I. eapply wp_conseq; [apply work_ok; auto|]. intros [s'|ins] H; auto. eauto.
    - apply init_inv.
    - unfold mu, init, fuel. rewrite seq_length. pose proof tot_init. nia. }
  destruct A as (ins & E & outs & LI & LO & NQ & HQ & OK & PRE & WO & WI & FIX). exists ins. split; auto. split; auto. intros b k a HB HN. split; [eauto|].
  intros (x & s & h & K & HS & T & L). assert (OO : forall p, p < n -> ok (nth p outs [])) by (intros; now apply OK).
  clear HB. revert L. induction T as [|h b c T IH HE]; intros L; [discriminate|].
  assert (HB : b < n) by (eapply trace_lt; eauto). assert (HC : c < n) by (destruct WF as (_ & W & _); eauto).
  destruct (FIX c HC (fun X => X)) as [-> _]. apply (IN_ok outs c OO). exists b. split; [now apply preds_In|].
  destruct (FIX b HB (fun X => X)) as [F1 F2]. rewrite ran_cons in L.
  assert (X : get (OUT g items (nth b ins []) b) k = true); [|rewrite F1, <- F2 in X; exact X]. eapply OUT_lastdef; eauto. now apply OK.
Qed.

(** The result of a query *)
Definition def_of (v : item) : option rdef := match getGenerated v with Some (_, d) => Some d | None => None end.
Lemma insert_In d e l : In e (insert d l) -> e = d \/ In e l.
Proof. unfold insert. destruct (existsb _ _); cbn; intuition. Qed.
Lemma rd_eqb_eq a b : rd_eqb a b = true <-> a = b.
Proof. destruct a, b; cbn; rewrite ?Nat.eqb_eq; split; congruence. Qed.
Lemma In_insert d e l : In e (insert d l) <-> e = d \/ In e l.
Proof.
  unfold insert. destruct (existsb _ _) eqn:E; cbn; [|intuition]. apply existsb_exists in E. destruct E as (f & F & E). apply rd_eqb_eq in E. subst f. intuition. now subst.
Qed.
Lemma insert_nodup d l : NoDup l -> NoDup (insert d l).
Proof. intros H. unfold insert. destruct (existsb _ _) eqn:E; auto. constructor; auto. intros I. enough (existsb (rd_eqb d) l = true) by congruence. apply existsb_exists. exists d. split; auto. now apply rd_eqb_eq. Qed.
Lemma in_defs_ok ins b x d : In d (in_defs g items ins b x) <-> exists k a, num k a /\ get (nth b ins []) k = true /\ getKilled a = Some x /\ def_of a = Some d.
Proof.
  unfold in_defs.
  assert (H : forall l acc, In d (fold_left (fun l i => if get (nth b ins []) i then
                          match nth_error ordering i with
                          | Some v => match getGenerated v with Some (y, d) => if Nat.eqb x y then insert d l else l | None => l end
                          | None => l
                          end
                        else l) l acc) <-> In d acc \/ exists k a, In k l /\ num k a /\ get (nth b ins []) k = true /\ getKilled a = Some x /\ def_of a = Some d).
  { induction l as [|k l IH]; intros acc; cbn.
    - split; auto. intros [H|(k & a & [] & _)]; auto.
    - rewrite IH. split.
      + intros [H|(j & a & J & R)]; [|right; exists j, a; split; auto]. destruct (get (nth b ins []) k) eqn:G; auto. destruct (nth_error ordering k) as [v|] eqn:E; auto.
        destruct (getGenerated v) as [[y e]|] eqn:GV; auto. destruct (Nat.eqb_spec x y) as [->|]; auto. apply In_insert in H. destruct H as [->|H]; auto.
        right. exists k, v. split; auto. split; auto. split; auto. split; [eapply gen_killed; eauto|]. unfold def_of. now rewrite GV.
      + intros [H|(j & a & [->|J] & R)].
        * left. destruct (get _ _); auto. destruct (nth_error _ _); auto. destruct (getGenerated _) as [[y e]|]; auto. destruct (Nat.eqb x y); auto. apply In_insert. auto.
        * destruct R as (HN & G & K & D). left. rewrite G. unfold num in HN. rewrite HN. unfold def_of in D. destruct (getGenerated a) as [[y e]|] eqn:GA; [|discriminate]. injection D as ->.
          apply gen_killed in GA. assert (y = x) by congruence. subst y. rewrite Nat.eqb_refl. apply In_insert. auto.
        * right. eauto. }
  rewrite H. split; [intros [[]|(k & a & _ & R)]; eauto|]. intros (k & a & R). right. exists k, a. split; auto. apply in_seq. destruct R as [HN _]. apply num_lt in HN. lia.
Qed.
Lemma in_defs_nodup ins b x : NoDup (in_defs g items ins b x).
Proof.
  unfold in_defs. assert (H : forall l acc, NoDup acc -> NoDup (fold_left (fun l i => if get (nth b ins []) i then
                          match nth_error ordering i with
                          | Some v => match getGenerated v with Some (y, d) => if Nat.eqb x y then insert d l else l | None => l end
                          | None => l
                          end
                        else l) l acc)); [|apply H; constructor].
  induction l as [|k l IH]; intros acc HA; cbn; auto. apply IH. destruct (get _ _); auto. destruct (nth_error _ _); auto. destruct (getGenerated _) as [[y e]|]; auto. destruct (Nat.eqb x y); auto. now apply insert_nodup.
Qed.
Lemma walk_ok x v pre post defs c : ~ In (iid v) (map iid pre) -> NoDup defs ->
  let '(defs', c') := walk x (iid v) (pre ++ v :: post) defs c in
  NoDup defs' /\ (c' = true <-> c = true \/ lastdef x (pre ++ [v]) <> None) /\
  forall d, In d defs' <-> match lastdef x (pre ++ [v]) with Some a => def_of a = Some d | None => In d defs end.
Proof.
  assert (ST : forall w defs c, NoDup defs -> let '(defs1, c1) := if kills x w then ([], true) else (defs, c) in
     let defs2 := match getGenerated w with Some (y, d) => if Nat.eqb x y then insert d defs1 else defs1 | None => defs1 end in
     NoDup defs2 /\ (c1 = true <-> c = true \/ kills x w = true) /\ forall d, In d defs2 <-> if kills x w then def_of w = Some d else In d defs).
  { clear. intros w defs c NDD. destruct (kills x w) eqn:K.
    - apply kills_killed in K. destruct (killed_gen _ _ K) as [e GE]. rewrite GE, Nat.eqb_refl. unfold def_of. rewrite GE. split; [repeat constructor; auto|]. split; [intuition|]. cbn. intros d. split; [intros [->|[]]; auto|intros H; injection H; auto].
    - destruct (getGenerated w) as [[y e]|] eqn:GE.
      + destruct (Nat.eqb_spec x y) as [->|]; [|split; auto; split; intuition; discriminate]. apply gen_killed, kills_killed in GE. congruence.
      + split; auto. split; intuition; discriminate. }
  revert defs c. induction pre as [|w pre IH]; intros defs c NI NDD; cbn [app walk].
  - specialize (ST v defs c NDD). destruct (if kills x v then ([], true) else (defs, c)) as [d1 c1]. destruct ST as (S1 & S2 & S3). rewrite Nat.eqb_refl. split; auto. rewrite lastdef_cons. cbn [lastdef fold_left].
    split; [rewrite S2; destruct (kills x v); intuition congruence|]. intros d. rewrite S3. destruct (kills x v); tauto.
  - cbn in NI. specialize (ST w defs c NDD). destruct (if kills x w then ([], true) else (defs, c)) as [d1 c1]. cbv zeta in ST. cbv zeta.
    remember (match getGenerated w with Some (y, d) => if Nat.eqb x y then insert d d1 else d1 | None => d1 end) as d2. destruct ST as (S1 & S2 & S3).
    destruct (Nat.eqb_spec (iid w) (iid v)); [exfalso; apply NI; auto|].
    specialize (IH d2 c1 ltac:(auto) S1). destruct (walk x (iid v) (pre ++ v :: post) d2 c1) as [d3 c3]. destruct IH as (I1 & I2 & I3). split; auto. rewrite lastdef_cons. split.
    + rewrite I2, S2. destruct (lastdef x (pre ++ [v])); [intuition congruence|]. destruct (kills x w); intuition congruence.
    + intros d. rewrite I3. destruct (lastdef x (pre ++ [v])) as [a|]; [tauto|]. rewrite S3. destruct (kills x w); tauto.
Qed.

Lemma items_nodup b : b < n -> NoDup (map iid (items b)).
Proof.
  intros HB. assert (HI : In b (seq 0 n)) by (apply in_seq; lia). unfold Reach.all_items in ND. revert ND HI. generalize (seq 0 n). induction l as [|c l IH]; cbn; [contradiction|]. rewrite map_app. intros H [->|HI].
  - clear - H. induction (map iid (items b)) as [|a m IH]; [constructor|]. cbn in H. inversion H; subst. constructor; auto. intros X. apply H2, in_or_app; auto.
  - apply IH; auto. clear - H. induction (map iid (items c)); auto. cbn in H. inversion H; auto.
Qed.
Lemma getBlock_ok b v : b < n -> In v (items b) -> getBlock g items (iid v) = Some b.
Proof.
  intros HB HV. unfold getBlock. destruct (find _ _) as [c|] eqn:E.
  - apply find_some in E. destruct E as [E1 E2]. apply memb_In in E2. apply in_seq in E1. apply in_map_iff in E2. destruct E2 as (w & EW & HW). f_equal.
    assert (HC : c < n) by lia. assert (w = v) by (apply iid_inj; auto; [exact (in_all c w HC HW)|exact (in_all b v HB HV)]). subst w.
    apply (DomProofs.in_items_unique g (fun b => map iid (items b))) with (v := iid v); auto; try (apply in_map; auto).
    clear - ND. unfold Reach.all_items in ND. rewrite concat_map, map_map in ND. exact ND.
  - assert (X : memb (iid v) (map iid (items b)) = false) by (apply (find_none _ _ E b), in_seq; lia). enough (memb (iid v) (map iid (items b)) = true) by congruence. apply memb_In. now apply in_map.
Qed.
Lemma entry_trace s h : s < n -> trace g s h entry -> h = [].
Proof.
  intros HS T. remember entry as e eqn:Ee. destruct T as [|h b c T E]; auto. subst c. exfalso. destruct WF as (_ & _ & W & _). apply (W b); auto. eapply trace_lt; eauto.
Qed.

Definition taken (x : nat) : Prop := exists v, In v all_items /\ ikind v = KPtr x.
Lemma invalid_taken x : In x (invalid g items) <-> taken x.
Proof.
  unfold invalid. rewrite in_flat_map. split.
  - intros (v & HV & H). exists v. split; auto. destruct (ikind v); cbn in H; try contradiction. destruct H as [->|[]]. auto.
  - intros (v & HV & E). exists v. split; auto. rewrite E. now left.
Qed.

Theorem query_exact ins b x v pre post : analyze g items = Ok ins -> b < n -> items b = pre ++ v :: post -> ~ taken x ->
  NoDup (getReachingDefinitions g items ins false x (iid v)) /\
  forall d, In d (getReachingDefinitions g items ins false x (iid v)) <->
    exists s h a, s < n /\ trace g s h b /\ lastdef x (ran h ++ pre ++ [v]) = Some a /\ def_of a = Some d.
Proof.
  intros EA HB EI NT. destruct analyze_exact as (ins' & E' & _ & EX). assert (ins' = ins) by congruence. subst ins'. clear E'.
  unfold getReachingDefinitions. replace (memb x (invalid g items)) with false by (symmetry; apply not_true_iff_false; now rewrite memb_In, invalid_taken). cbn [orb].
  rewrite (getBlock_ok b v HB) by (rewrite EI; apply in_or_app; right; now left). rewrite EI.
  assert (NI : ~ In (iid v) (map iid pre)).
  { pose proof (items_nodup b HB) as H. rewrite EI, map_app in H. cbn in H. apply NoDup_remove_2 in H. intros X. apply H, in_or_app; auto. }
  pose proof (walk_ok x v pre post (in_defs g items ins b x) false NI (in_defs_nodup ins b x)) as WK.
  destruct (walk x (iid v) (pre ++ v :: post) (in_defs g items ins b x) false) as [defs c]. destruct WK as (W1 & W2 & W3).
  assert (CORE : forall d, In d defs <-> exists s h a, s < n /\ trace g s h b /\ lastdef x (ran h ++ pre ++ [v]) = Some a /\ def_of a = Some d).
  { intros d. rewrite W3. destruct (lastdef x (pre ++ [v])) as [a|] eqn:L.
    - split.
      + intros D. exists b, [], a. split; [exact HB|]. split; [constructor|]. split; [now rewrite lastdef_app, L|exact D].
      + intros (s & h & a' & HS & T & L' & D). rewrite lastdef_app, L in L'. congruence.
    - rewrite in_defs_ok. split.
      + intros (k & a & HN & G & K & D). apply (EX b k a HB HN) in G. destruct G as (y & s & h & K' & HS & T & L'). assert (y = x) by congruence. subst y. exists s, h, a. repeat split; auto. now rewrite lastdef_app, L.
      + intros (s & h & a & HS & T & L' & D). rewrite lastdef_app, L in L'. destruct (lastdef_some _ _ _ L') as [I K]. apply kills_killed in K.
        assert (IO : In a ordering).
        { apply in_ordering. split; eauto. clear - I T HS WF. unfold ran in I. apply in_concat in I. destruct I as (l & I & HA). apply in_map_iff in I. destruct I as (c & <- & HC). apply in_rev in HC.
          apply in_all with c; auto. clear HA. induction T as [|h b c' T IH E]; [contradiction|]. destruct HC as [<-|HC]; auto. eapply trace_lt; eauto. }
        pose proof (lookup_num a IO) as HN. exists (lookup (iid a)), a. split; auto. split; auto. apply (EX b _ a HB HN). exists x, s, h. auto. }
  destruct (Nat.eqb_spec b entry) as [->|NE]; cbn [andb]; [|auto].
  destruct c; cbn [negb]; auto. split; [constructor|]. intros d. rewrite <- CORE. split; [intros []|]. intros D. exfalso.
  apply CORE in D. destruct D as (s & h & a & HS & T & L & _). apply entry_trace in T; auto. subst h. change (ran [] ++ pre ++ [v]) with (pre ++ [v]) in L.
  assert (false = true) by (apply W2; right; congruence). discriminate.
Qed.
End Proofs.
