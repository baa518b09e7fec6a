(** The linked list of work items is a list. *)
From Coq Require Import List ZArith Bool Lia.
From Verif.Common Require Import Result.
From Verif.Async Require Import Model.
Import ListNotations.
Local Open Scope res_scope.

Lemma upd_length {A} (l : list A) i x : length (upd l i x) = length l.
Proof. revert i; induction l as [|y l IH]; intros [|i]; cbn [upd length]; auto. Qed.
Lemma nth_upd {A} (l : list A) i x j :
  nth_error (upd l i x) j = if i =? j then (if j <? length l then Some x else None) else nth_error l j.
Proof.
  revert i j; induction l as [|y l IH]; intros i j.
  - destruct i, j; cbn; auto. now destruct (i =? j).
  - destruct i as [|i], j as [|j]; cbn [upd nth_error length Nat.eqb]; auto.
    rewrite IH. change (S j <? S (length l)) with (j <? length l). reflexivity.
Qed.
Lemma nth_upd_eq {A} (l : list A) i x y : nth_error l i = Some y -> nth_error (upd l i x) i = Some x.
Proof.
  intros H. rewrite nth_upd, Nat.eqb_refl. assert (i < length l) by (apply nth_error_Some; congruence).
  now replace (i <? length l) with true by (symmetry; now apply Nat.ltb_lt).
Qed.
Lemma nth_upd_ne {A} (l : list A) i x j : i <> j -> nth_error (upd l i x) j = nth_error l j.
Proof. intros H. rewrite nth_upd. now replace (i =? j) with false by (symmetry; now apply Nat.eqb_neq). Qed.

Definition or_else (a b : option nat) : option nat := match a with Some _ => a | None => b end.
Definition last_of (l : list nat) : option nat := hd_error (rev l).

(** [l] is a chain of nodes from the predecessor [p] to the successor [nx] *)
Fixpoint seg (nodes : list node) (p : option nat) (l : list nat) (nx : option nat) : Prop :=
  match l with
  | [] => True
  | i :: l' => exists n, nth_error nodes i = Some n /\ n_prev n = p /\ n_next n = or_else (hd_error l') nx
                         /\ seg nodes (Some i) l' nx
  end.

Lemma last_of_snoc l i : last_of (l ++ [i]) = Some i.
Proof. unfold last_of. now rewrite rev_app_distr. Qed.
Lemma last_of_cons i l : last_of (i :: l) = or_else (last_of l) (Some i).
Proof.
  unfold last_of. cbn [rev]. destruct (rev l); reflexivity.
Qed.
Lemma hd_app l l' : hd_error (l ++ l') = or_else (hd_error l) (hd_error l').
Proof. destruct l; reflexivity. Qed.
Lemma or_assoc a b c : or_else (or_else a b) c = or_else a (or_else b c).
Proof. destruct a; reflexivity. Qed.
Lemma or_some a i c : or_else (or_else a (Some i)) c = or_else a (Some i).
Proof. destruct a; reflexivity. Qed.

Lemma seg_app nodes p l1 l2 nx :
  seg nodes p (l1 ++ l2) nx <-> seg nodes p l1 (or_else (hd_error l2) nx) /\ seg nodes (or_else (last_of l1) p) l2 nx.
Proof.
  revert p; induction l1 as [|i l1 IH]; intros p; cbn [app seg].
  - cbn. tauto.
  - setoid_rewrite IH. rewrite last_of_cons, or_some. split.
    + intros (n & N & P & X & S1 & S2). rewrite hd_app, or_assoc in X. split; eauto.
    + intros [(n & N & P & X & S1) S2]. exists n. rewrite hd_app, or_assoc. auto.
Qed.
Lemma seg_in nodes p l nx i : seg nodes p l nx -> In i l -> exists n, nth_error nodes i = Some n.
Proof.
  revert p; induction l as [|j l IH]; intros p H I; [easy|]. destruct H as (n & N & _ & _ & H).
  destruct I as [->|I]; eauto.
Qed.
Lemma seg_frame nodes nodes' p l nx :
  (forall i, In i l -> exists n n', nth_error nodes i = Some n /\ nth_error nodes' i = Some n'
                                    /\ n_prev n' = n_prev n /\ n_next n' = n_next n) ->
  seg nodes p l nx -> seg nodes' p l nx.
Proof.
  revert p; induction l as [|i l IH]; intros p F H; cbn [seg] in *; auto.
  destruct H as (n & N & P & X & H). destruct (F i) as (m & m' & M & M' & E1 & E2); [now left|].
  rewrite N in M. injection M as <-. exists m'. rewrite E1, E2. split; auto. split; auto. split; auto.
  apply IH; auto. intros j J. apply F. now right.
Qed.
Lemma seg_upd nodes p l nx i n : ~ In i l -> seg nodes p l nx -> seg (upd nodes i n) p l nx.
Proof.
  intros NI H. eapply seg_frame; [|exact H]. intros j J. destruct (seg_in _ _ _ _ _ H J) as [m M].
  exists m, m. rewrite nth_upd_ne; auto. intros ->. auto.
Qed.

(** ** Representation *)
Definition work_of (q : queue) (i : nat) : work :=
  match nth_error (q_nodes q) i with Some n => n_work n | None => no_work end.

Record repr (q : queue) (l : list nat) : Prop := {
  r_nodup : NoDup l;
  r_seg : seg (q_nodes q) None l None;
  r_head : q_head q = hd_error l;
  r_tail : q_tail q = last_of l;
  r_loose : forall i n, nth_error (q_nodes q) i = Some n -> ~ In i l -> w_coro (n_work n) = None \/ n_prev n = None;
  r_live : forall i, In i l -> w_coro (work_of q i) <> None }.

Lemma repr_bound q l i : repr q l -> In i l -> i < length (q_nodes q).
Proof. intros R I. destruct (seg_in _ _ _ _ _ (r_seg q l R) I) as [n N]. apply nth_error_Some. congruence. Qed.

Lemma repr_init : repr (Q [] None None) [].
Proof. split; cbn; auto; try easy; [constructor|]. intros [|i] n; discriminate. Qed.

Lemma get_ok q i n : nth_error (q_nodes q) i = Some n -> get_node q i = Ok n.
Proof. intros H. unfold get_node. now rewrite H. Qed.

Lemma work_empty_ok q l : repr q l -> work_empty q = match l with [] => true | _ => false end.
Proof.
  intros R. unfold work_empty. rewrite (r_tail _ _ R). destruct l as [|i l]; auto.
  rewrite last_of_cons. now destruct (last_of l).
Qed.

Lemma snoc_cases {A} (l : list A) : l = [] \/ exists l' x, l = l' ++ [x].
Proof. destruct l using rev_ind; eauto. Qed.

Lemma enqueue_ok q l w : repr q l -> w_coro w <> None ->
  exists q', enqueue q w = Ok (length (q_nodes q), q') /\ repr q' (l ++ [length (q_nodes q)])
    /\ length (q_nodes q') = S (length (q_nodes q))
    /\ work_of q' (length (q_nodes q)) = w
    /\ forall i, i < length (q_nodes q) -> work_of q' i = work_of q i.
Proof.
  intros R Hw. set (k := length (q_nodes q)).
  assert (NK : ~ In k l) by (intros I; pose proof (repr_bound _ _ _ R I); unfold k in *; lia).
  assert (NN : forall j n, nth_error (q_nodes q) j = Some n -> j < k)
    by (intros j n J; apply nth_error_Some; congruence).
  assert (N0 : forall j, j < k -> nth_error (q_nodes q ++ [Node w None None]) j = nth_error (q_nodes q) j)
    by (intros j J; now apply nth_error_app1).
  assert (N1 : nth_error (q_nodes q ++ [Node w None None]) k = Some (Node w None None))
    by (rewrite nth_error_app2 by auto; unfold k; now rewrite Nat.sub_diag).
  unfold enqueue. fold k. rewrite (r_tail _ _ R).
  destruct (snoc_cases l) as [->|(l0 & t & ->)].
  - cbn [last_of hd_error rev app]. eexists. split; [reflexivity|].
    cbn [q_nodes]. split; [|split; [rewrite app_length; cbn; lia|split]].
    + split; cbn [q_nodes q_head q_tail]; auto.
      * constructor; [easy|constructor].
      * cbn [seg hd_error or_else]. exists (Node w None None). auto.
      * intros j n J NI. destruct (Nat.eq_dec j k) as [->|D]; [exfalso; apply NI; now left|].
        apply (r_loose _ _ R j n); [|easy]. rewrite <- N0; auto.
        assert (j < length (q_nodes q ++ [Node w None None])) by (apply nth_error_Some; congruence).
        rewrite app_length in H. cbn in H. unfold k in *. lia.
      * intros j [<-|[]]. unfold work_of. cbn [q_nodes]. fold k. now rewrite N1.
    + unfold work_of. cbn [q_nodes]. now rewrite N1.
    + intros j J. unfold work_of. cbn [q_nodes]. now rewrite N0.
  - rewrite last_of_snoc.
    assert (It : In t (l0 ++ [t])) by (apply in_or_app; right; now left).
    pose proof (repr_bound _ _ _ R It) as Bt. fold k in Bt.
    pose proof (r_seg _ _ R) as S0. apply seg_app in S0. destruct S0 as [s s0].
    cbn [hd_error or_else] in s. destruct s0 as (nt & Nt & Pt & Xt & _). cbn in Xt.
    unfold set_prev. rewrite (get_ok (Q (q_nodes q ++ [Node w None None]) (q_head q) (Some t)) k _ N1). cbn [bind n_work n_next].
    unfold set_next. erewrite get_ok.
    2: { cbn [set_node q_nodes]. rewrite nth_upd_ne by lia. rewrite N0 by auto. exact Nt. }
    cbn [bind set_node q_nodes q_head q_tail].
    set (nodes' := upd (upd (q_nodes q ++ [Node w None None]) k (Node w (Some t) None)) t (Node (n_work nt) (n_prev nt) (Some k))).
    assert (M : forall j, nth_error nodes' j =
      if j =? t then Some (Node (n_work nt) (n_prev nt) (Some k)) else if j =? k then Some (Node w (Some t) None)
      else nth_error (q_nodes q ++ [Node w None None]) j).
    { intros j. unfold nodes'. rewrite nth_upd, (Nat.eqb_sym t j), upd_length, app_length. cbn [length].
      destruct (Nat.eqb_spec j t) as [->|D].
      - replace (t <? length (q_nodes q) + 1) with true; auto. symmetry. apply Nat.ltb_lt. unfold k in *. lia.
      - rewrite nth_upd, (Nat.eqb_sym k j), app_length. cbn [length]. destruct (Nat.eqb_spec j k) as [->|D']; auto.
        replace (k <? length (q_nodes q) + 1) with true; auto. symmetry. apply Nat.ltb_lt. unfold k in *. lia. }
    assert (Mo : forall j, j < k -> j <> t -> nth_error nodes' j = nth_error (q_nodes q) j).
    { intros j J D. rewrite M. replace (j =? t) with false by (symmetry; now apply Nat.eqb_neq).
      replace (j =? k) with false by (symmetry; apply Nat.eqb_neq; lia). now apply N0. }
    assert (Mt : nth_error nodes' t = Some (Node (n_work nt) (n_prev nt) (Some k))) by (rewrite M, Nat.eqb_refl; auto).
    assert (Mk : nth_error nodes' k = Some (Node w (Some t) None)).
    { rewrite M. replace (k =? t) with false by (symmetry; apply Nat.eqb_neq; lia). now rewrite Nat.eqb_refl. }
    assert (Wo : forall j, j < k -> work_of (Q nodes' (q_head q) (Some k)) j = work_of q j).
    { intros j J. unfold work_of. cbn [q_nodes]. destruct (Nat.eq_dec j t) as [->|D]; [now rewrite Mt, Nt|now rewrite Mo]. }
    eexists. split; [reflexivity|]. cbn [q_nodes].
    split; [|split; [unfold nodes'; rewrite !upd_length, app_length; cbn; lia|split; auto]].
    2: { unfold work_of. cbn [q_nodes]. now rewrite Mk. }
    split; cbn [q_nodes q_head q_tail].
    + pose proof (r_nodup _ _ R) as ND. apply NoDup_rev in ND.
      rewrite <- (rev_involutive ((l0 ++ [t]) ++ [k])). apply NoDup_rev. rewrite rev_app_distr. cbn [rev app].
      constructor; auto. now rewrite <- in_rev.
    + apply seg_app. cbn [hd_error or_else]. split.
      * apply seg_app. cbn [hd_error or_else]. split.
        -- eapply seg_frame; [|exact s]. intros j J.
           assert (j <> t). { intros ->. pose proof (r_nodup _ _ R) as ND. apply NoDup_remove in ND. rewrite app_nil_r in ND. tauto. }
           assert (j < k) by (apply (repr_bound _ _ _ R); apply in_or_app; auto).
           destruct (seg_in _ _ _ _ _ s J) as [m Mm]. exists m, m. rewrite Mo; auto.
        -- cbn [seg hd_error or_else]. eexists. split; [exact Mt|]. auto.
      * rewrite last_of_snoc. cbn [seg hd_error or_else]. eexists. split; [exact Mk|]. auto.
    + rewrite (r_head _ _ R). rewrite !hd_app. cbn [hd_error]. now destruct (hd_error l0).
    + now rewrite last_of_snoc.
    + intros j n J NI.
      assert (Dk : j <> k) by (intros ->; apply NI; apply in_or_app; right; now left).
      assert (Dt : j <> t) by (intros ->; apply NI; apply in_or_app; left; auto).
      assert (J' : j < k). { assert (j < length nodes') by (apply nth_error_Some; congruence).
        unfold nodes' in H. rewrite !upd_length, app_length in H. cbn in H. unfold k in *. lia. }
      rewrite Mo in J by auto. apply (r_loose _ _ R j n J). intros I. apply NI. apply in_or_app. now left.
    + intros j J. apply in_app_or in J. destruct J as [J|[<-|[]]].
      * rewrite Wo by (now apply (repr_bound _ _ _ R)). now apply (r_live _ _ R).
      * unfold work_of. cbn [q_nodes]. now rewrite Mk.
Qed.

(** writing one field of one node *)
Lemma set_prev_ok q i n v : nth_error (q_nodes q) i = Some n ->
  set_prev q i v = Ok (set_node q i (Node (n_work n) v (n_next n))).
Proof. intros H. unfold set_prev. now rewrite (get_ok _ _ _ H). Qed.
Lemma set_next_ok q i n v : nth_error (q_nodes q) i = Some n ->
  set_next q i v = Ok (set_node q i (Node (n_work n) (n_prev n) v)).
Proof. intros H. unfold set_next. now rewrite (get_ok _ _ _ H). Qed.

Lemma seg_head nodes p p' i l nx n : NoDup (i :: l) -> nth_error nodes i = Some n -> seg nodes p (i :: l) nx ->
  seg (upd nodes i (Node (n_work n) p' (n_next n))) p' (i :: l) nx.
Proof.
  intros ND N (m & M & P & X & S). rewrite N in M. injection M as <-. inversion ND; subst.
  cbn [seg]. eexists. split; [eapply nth_upd_eq; eassumption|]. split; auto. split; auto. now apply seg_upd.
Qed.
Lemma seg_last nodes p i l nx nx' n : NoDup (l ++ [i]) -> nth_error nodes i = Some n -> seg nodes p (l ++ [i]) nx ->
  seg (upd nodes i (Node (n_work n) (n_prev n) nx')) p (l ++ [i]) nx'.
Proof.
  intros ND N S. apply seg_app in S. destruct S as [S1 (m & M & P & X & _)].
  rewrite N in M. injection M as <-. apply NoDup_remove in ND. rewrite app_nil_r in ND.
  apply seg_app. split; [apply seg_upd; tauto|]. cbn [seg hd_error or_else].
  eexists. split; [eapply nth_upd_eq; eassumption|]. auto.
Qed.

(** the work in a node, its predecessor: unchanged by an update of the other field *)
Lemma work_set q i n j : nth_error (q_nodes q) i = Some n ->
  forall h t pv nx, work_of (Q (upd (q_nodes q) i (Node (n_work n) pv nx)) h t) j = work_of q j.
Proof.
  intros N h t pv nx. unfold work_of. cbn [q_nodes]. rewrite nth_upd. destruct (Nat.eqb_spec i j) as [<-|D]; auto.
  rewrite N. assert (i < length (q_nodes q)) by (apply nth_error_Some; congruence).
  now replace (i <? length (q_nodes q)) with true by (symmetry; now apply Nat.ltb_lt).
Qed.

Lemma dequeue_ok q i l : repr q (i :: l) ->
  exists q', dequeue q = Ok (work_of q i, q') /\ repr q' l /\ length (q_nodes q') = length (q_nodes q)
    /\ forall j, work_of q' j = work_of q j.
Proof.
  intros R. unfold dequeue. rewrite (r_head _ _ R). cbn [hd_error].
  pose proof (r_seg _ _ R) as (n & N & P & X & S). pose proof (r_nodup _ _ R) as ND. inversion ND as [|? ? NI ND']; subst.
  rewrite (get_ok _ _ _ N). cbn [bind]. rewrite X. unfold work_of at 1. rewrite N.
  destruct l as [|j l]; cbn [hd_error or_else].
  - eexists. split; [reflexivity|]. split; [|split; auto]. split; cbn [q_nodes q_head q_tail]; auto; try easy.
    intros k m M _. destruct (Nat.eq_dec k i) as [->|D].
    + rewrite N in M. injection M as <-. auto.
    + apply (r_loose _ _ R k m M). intros [->|[]]. auto.
  - pose proof S as (m & M & Pm & Xm & S').
    assert (Dij : i <> j) by (intros ->; apply NI; now left).
    rewrite (set_prev_ok _ j m None) by exact M. cbn [bind].
    rewrite (set_next_ok _ i n None) by (cbn [set_node q_nodes]; rewrite nth_upd_ne; auto).
    unfold set_node. cbn [bind q_nodes q_head q_tail]. eexists. split; [reflexivity|].
    assert (WW : forall k, work_of (Q (upd (upd (q_nodes q) j (Node (n_work m) None (n_next m))) i
        (Node (n_work n) (n_prev n) None)) (Some j) (q_tail q)) k = work_of q k).
    { intros k. rewrite (work_set (Q (upd (q_nodes q) j (Node (n_work m) None (n_next m))) None None) i n k)
        by (cbn [q_nodes]; rewrite nth_upd_ne; auto). now rewrite (work_set q j m k) by exact M. }
    split; [|split; [cbn [set_node q_nodes]; now rewrite !upd_length|exact WW]].
    split; cbn [q_nodes q_head q_tail hd_error]; auto.
    + apply seg_upd; auto. eapply seg_head; eassumption.
    + rewrite (r_tail _ _ R), !last_of_cons. now rewrite or_some.
    + intros k x Hx NK. rewrite nth_upd, !upd_length in Hx.
      destruct (Nat.eqb_spec i k) as [<-|D].
      { destruct (i <? length (q_nodes q)); [|discriminate]. injection Hx as <-. cbn. rewrite P. auto. }
      rewrite nth_upd in Hx. destruct (Nat.eqb_spec j k) as [<-|D']; [exfalso; apply NK; now left|].
      apply (r_loose _ _ R k x Hx). intros [->|I]; auto.
    + intros k K. rewrite WW. apply (r_live _ _ R). now right.
Qed.

Lemma nodup_mid {A} (l1 : list A) i l2 : NoDup (l1 ++ i :: l2) -> ~ In i l1 /\ ~ In i l2 /\ NoDup (l1 ++ l2).
Proof. intros H. apply NoDup_remove in H. destruct H as [H1 H2]. rewrite in_app_iff in H2. tauto. Qed.
Lemma hd_last_ne (l1 : list nat) i l2 x : NoDup (l1 ++ i :: l2) -> last_of l1 = Some x -> x <> i.
Proof.
  intros ND E ->. destruct (snoc_cases l1) as [->|(l & y & ->)]; [discriminate|].
  rewrite last_of_snoc in E. injection E as ->. apply nodup_mid in ND. destruct ND as (N & _). apply N.
  apply in_or_app; right; now left.
Qed.

(** the work of a node is dropped, its links stay *)
Lemma seg_drop nodes p l nx i n w : nth_error nodes i = Some n -> seg nodes p l nx ->
  seg (upd nodes i (Node w (n_prev n) (n_next n))) p l nx.
Proof.
  intros N S. eapply seg_frame; [|exact S]. intros j J. destruct (seg_in _ _ _ _ _ S J) as [m M].
  exists m. destruct (Nat.eq_dec i j) as [<-|D].
  - exists (Node w (n_prev n) (n_next n)). rewrite N in M. injection M as <-.
    rewrite (nth_upd_eq _ _ _ _ N). auto.
  - exists m. rewrite nth_upd_ne; auto.
Qed.

(** what cancelling does to the work items *)
Definition dropped (q q' : queue) (i : nat) : Prop :=
  length (q_nodes q') = length (q_nodes q) /\ work_of q' i = no_work /\
  forall j, j <> i -> work_of q' j = work_of q j.

(** the work of a node is unchanged *)
Definition same_work (nodes nodes' : list node) : Prop :=
  length nodes' = length nodes /\ forall j h t h' t', work_of (Q nodes' h t) j = work_of (Q nodes h' t') j.
Lemma same_work_upd nodes i n pv nx : nth_error nodes i = Some n ->
  same_work nodes (upd nodes i (Node (n_work n) pv nx)).
Proof.
  intros N. split; [apply upd_length|]. intros j h t h' t'.
  exact (work_set (Q nodes h' t') i n j N h t pv nx).
Qed.
Lemma same_work_trans a b c : same_work a b -> same_work b c -> same_work a c.
Proof. intros [L1 W1] [L2 W2]. split; [congruence|]. intros. rewrite (W2 j h t h' t'). apply W1. Qed.

Lemma cancel_linked_ok q l1 i l2 : repr q (l1 ++ i :: l2) ->
  exists q', cancel_node q i = Ok (q', false) /\ repr q' (l1 ++ l2) /\ dropped q q' i.
Proof.
  intros R. pose proof (r_nodup _ _ R) as ND. pose proof (nodup_mid _ _ _ ND) as (NI1 & NI2 & ND').
  pose proof (r_seg _ _ R) as S. apply seg_app in S. destruct S as [S1 (n & N & P & X & S2)].
  cbn [hd_error or_else] in S1. destruct n as [wn p nx]. cbn [n_prev n_next] in P, X.
  unfold cancel_node. rewrite (get_ok _ _ _ N). unfold set_node. cbn [bind n_prev n_next n_work q_nodes q_head q_tail].
  pose proof (seg_upd _ _ _ _ i (Node no_work p nx) NI1 S1) as A1.
  pose proof (seg_upd _ _ _ _ i (Node no_work p nx) NI2 S2) as A2.
  pose proof (nth_upd_eq _ _ (Node no_work p nx) _ N) as Ni.
  assert (D0 : dropped q (Q (upd (q_nodes q) i (Node no_work p nx)) None None) i).
  { split; [cbn; now rewrite upd_length|]. split.
    - unfold work_of. cbn [q_nodes]. now rewrite Ni.
    - intros j J. unfold work_of. cbn [q_nodes]. now rewrite nth_upd_ne by auto. }
  assert (F0 : forall k, ~ In k (l1 ++ i :: l2) -> nth_error (upd (q_nodes q) i (Node no_work p nx)) k = nth_error (q_nodes q) k).
  { intros k NK. rewrite nth_upd_ne; auto. intros <-. apply NK. apply in_or_app. right. now left. }
  set (nodes := upd (q_nodes q) i (Node no_work p nx)) in *. clearbody nodes.
  (* what is left: the links *)
  assert (FIN : forall nodes' h t, same_work nodes nodes' ->
     (forall k, ~ In k (l1 ++ i :: l2) -> nth_error nodes' k = nth_error nodes k) ->
     seg nodes' None (l1 ++ l2) None -> h = hd_error (l1 ++ l2) -> t = last_of (l1 ++ l2) ->
     repr (Q nodes' h t) (l1 ++ l2) /\ dropped q (Q nodes' h t) i).
  { intros nodes' h t [SL SW] FF SG Eh Et.
    assert (DD : dropped q (Q nodes' h t) i).
    { destruct D0 as (L1 & L2 & L3). split; [cbn [q_nodes] in *; congruence|].
      split; [now rewrite (SW i h t None None)|]. intros j J. rewrite (SW j h t None None). auto. }
    split; [|exact DD]. split; cbn [q_nodes q_head q_tail]; auto.
    - intros k x K NK. destruct (Nat.eq_dec k i) as [->|Dk].
      + left. destruct DD as (_ & D & _). unfold work_of in D. cbn [q_nodes] in D. rewrite K in D. now rewrite D.
      + assert (NK' : ~ In k (l1 ++ i :: l2)) by (rewrite in_app_iff in *; cbn; intros [?|[?|?]]; try congruence; tauto).
        rewrite FF, F0 in K by auto. apply (r_loose _ _ R k x); auto.
    - intros j J. destruct DD as (_ & _ & D). assert (j <> i) by (intros ->; apply in_app_or in J; tauto).
      rewrite D by auto. apply (r_live _ _ R). apply in_app_or in J. apply in_or_app. cbn. tauto. }
  rewrite (r_head _ _ R), (r_tail _ _ R).
  destruct l1 as [|h l1].
  - (* the head *)
    cbn [app hd_error] in *. rewrite last_of_cons.
    destruct (or_else (last_of l2) (Some i)) as [t|] eqn:Et; [|destruct (last_of l2); discriminate].
    rewrite Nat.eqb_refl.
    destruct l2 as [|j l2]; cbn [hd_error or_else] in X; subst nx.
    + eexists. split; [reflexivity|]. apply FIN; auto. split; auto.
    + pose proof A2 as (m & M & Pm & Xm & A3).
      assert (Dij : j <> i) by (intros ->; apply NI2; now left).
      unfold set_prev, get_node. cbn [q_nodes]. rewrite M. cbn [bind].
      unfold set_next, get_node, set_node. cbn [q_nodes]. rewrite nth_upd_ne, Ni by auto. cbn [bind n_work n_prev q_head q_tail].
      eexists. split; [reflexivity|]. apply FIN.
      * eapply same_work_trans; [eapply same_work_upd; exact M|].
        apply (same_work_upd _ i (Node no_work p (Some j))). now rewrite nth_upd_ne.
      * intros k NK. rewrite !nth_upd_ne; auto; intros <-; apply NK; cbn; auto.
      * apply seg_upd; auto. eapply seg_head; eauto.
      * reflexivity.
      * rewrite <- Et. rewrite last_of_cons, or_some. reflexivity.
  - assert (Dhi : i <> h) by (intros ->; apply NI1; now left).
    destruct (last_of ((h :: l1) ++ i :: l2)) as [t|] eqn:Et;
      [|cbn [app] in Et; rewrite last_of_cons in Et; destruct (last_of (l1 ++ i :: l2)); discriminate].
    change (hd_error ((h :: l1) ++ i :: l2)) with (Some h). cbv iota beta.
    replace (i =? h) with false by (symmetry; now apply Nat.eqb_neq).
    assert (Hh : hd_error (h :: l1) = Some h) by reflexivity.
    destruct (snoc_cases (h :: l1)) as [|(m1 & pv & Em)]; [discriminate|].
    rewrite Em in *. clear Em l1. rewrite last_of_snoc in P. cbn [or_else] in P. subst p.
    pose proof A1 as A1'. apply seg_app in A1'. destruct A1' as [_ (y & Y & Py & Xy & _)].
    assert (Dpi : pv <> i) by (intros ->; apply NI1; apply in_or_app; right; now left).
    assert (Ip : forall l, In pv ((m1 ++ [pv]) ++ l)) by (intros l; apply in_or_app; left; apply in_or_app; right; now left).
    assert (NDm : NoDup (m1 ++ [pv])).
    { clear - ND. revert ND. generalize (i :: l2) as l. generalize (m1 ++ [pv]) as m. clear.
      intros m l. induction l as [|x l IH] using rev_ind; [now rewrite app_nil_r|]. intros H. apply IH.
      rewrite app_assoc in H. apply NoDup_remove_1 in H. now rewrite app_nil_r in H. }
    assert (Hd : hd_error ((m1 ++ [pv]) ++ l2) = Some h) by (rewrite hd_app, Hh; reflexivity).
    destruct l2 as [|j l2]; cbn [hd_error or_else] in X; subst nx.
    + (* the tail *)
      rewrite last_of_snoc in Et. injection Et as <-. rewrite Nat.eqb_refl.
      unfold set_next, get_node. cbn [q_nodes]. rewrite Y. cbn [bind].
      unfold set_prev, get_node, set_node. cbn [q_nodes]. rewrite nth_upd_ne, Ni by auto. cbn [bind n_work n_next q_head q_tail].
      eexists. split; [reflexivity|]. apply FIN.
      * eapply same_work_trans; [eapply same_work_upd; exact Y|].
        apply (same_work_upd _ i (Node no_work (Some pv) None)). now rewrite nth_upd_ne.
      * intros k NK. rewrite !nth_upd_ne; auto; intros <-; apply NK; auto. apply in_or_app; right; now left.
      * rewrite app_nil_r. apply seg_upd; auto. eapply seg_last; eauto.
      * now rewrite Hd.
      * rewrite app_nil_r. now rewrite last_of_snoc.
    + assert (Dit : i <> t).
      { intros ->. destruct (snoc_cases (j :: l2)) as [|(l & y' & E)]; [discriminate|]. rewrite E in *.
        rewrite app_comm_cons, app_assoc, last_of_snoc in Et. injection Et as ->. apply NI2. apply in_or_app; right; now left. }
      replace (i =? t) with false by (symmetry; now apply Nat.eqb_neq).
      pose proof A2 as (m & M & Pm & Xm & A3).
      assert (Dpj : pv <> j).
      { intros ->. clear - ND'. apply NoDup_remove_2 in ND'. apply ND'. apply in_or_app. left. apply in_or_app. right. now left. }
      unfold set_next, get_node. cbn [q_nodes]. rewrite Y. cbn [bind].
      unfold set_prev, get_node, set_node. cbn [q_nodes]. rewrite nth_upd_ne, M by auto. cbn [bind q_head q_tail].
      eexists. split; [reflexivity|]. apply FIN.
      * eapply same_work_trans; [eapply same_work_upd; exact Y|]. apply same_work_upd. now rewrite nth_upd_ne.
      * intros k NK. rewrite !nth_upd_ne; auto; intros <-; apply NK; auto. apply in_or_app; right; right; now left.
      * apply seg_app. cbn [hd_error or_else]. rewrite last_of_snoc. cbn [or_else]. 
        assert (NJ : ~ In j (m1 ++ [pv])) by (apply NoDup_remove_2 in ND'; rewrite in_app_iff in ND'; tauto).
        split; [apply seg_upd; auto; eapply seg_last; eauto|].
        eapply seg_head; eauto.
        -- clear - ND'. revert ND'. generalize (m1 ++ [pv]) as l. induction l as [|x l IH]; auto. cbn [app]. intros H. inversion H; auto.
        -- now rewrite nth_upd_ne.
        -- apply seg_upd; eauto. clear - ND'. rewrite <- app_assoc in ND'. cbn [app] in ND'. now apply nodup_mid in ND'.
      * now rewrite Hd.
      * rewrite <- Et. clear. destruct (snoc_cases (j :: l2)) as [|(l & y' & ->)]; [discriminate|].
        now rewrite app_comm_cons, !app_assoc, !last_of_snoc.
Qed.

(** cancelling a node that has been run already *)
Lemma cancel_loose_ok q l i : repr q l -> ~ In i l -> i < length (q_nodes q) -> w_coro (work_of q i) <> None ->
  exists q', cancel_node q i = Ok (q', match l with [] => false | _ => true end) /\ repr q' l /\ dropped q q' i.
Proof.
  intros R NI B W. unfold work_of in W. destruct (nth_error (q_nodes q) i) as [n|] eqn:N; [|apply nth_error_None in N; lia].
  destruct (r_loose _ _ R i n N NI) as [|P]; [easy|].
  set (q' := Q (upd (q_nodes q) i (Node no_work (n_prev n) (n_next n))) (q_head q) (q_tail q)).
  assert (DD : dropped q q' i).
  { split; [cbn; now rewrite upd_length|]. split.
    - unfold work_of. cbn [q' q_nodes]. now rewrite (nth_upd_eq _ _ _ _ N).
    - intros j J. unfold work_of. cbn [q' q_nodes]. now rewrite nth_upd_ne by auto. }
  exists q'. split; [|split; [|exact DD]].
  - unfold cancel_node. rewrite (get_ok _ _ _ N). cbn [bind]. unfold set_node at 1 2. cbn [q_head q_tail].
    rewrite (r_head _ _ R), (r_tail _ _ R). destruct l as [|h l].
    + cbn. unfold q', set_node. rewrite (r_head _ _ R), (r_tail _ _ R). reflexivity.
    + cbn [hd_error]. destruct (last_of (h :: l)) as [t|] eqn:Et; [|rewrite last_of_cons in Et; destruct (last_of l); discriminate].
      replace (i =? h) with false by (symmetry; apply Nat.eqb_neq; intros ->; apply NI; now left).
      replace (i =? t) with false.
      2:{ symmetry. apply Nat.eqb_neq. intros ->. apply NI. destruct (snoc_cases (h :: l)) as [|(m & y & E)]; [discriminate|].
          rewrite E in *. rewrite last_of_snoc in Et. injection Et as ->. apply in_or_app; right; now left. }
      rewrite P. unfold q', set_node. rewrite P, (r_head _ _ R), (r_tail _ _ R). cbn [hd_error]. now rewrite Et.
  - split; cbn [q' q_nodes q_head q_tail]; try apply R.
    + apply seg_upd; auto. apply R.
    + intros k x K NK. rewrite nth_upd in K. destruct (Nat.eqb_spec i k) as [<-|D].
      * destruct (i <? length (q_nodes q)); [|discriminate]. injection K as <-. auto.
      * eapply (r_loose _ _ R); eauto.
    + intros j J. destruct DD as (_ & _ & D). rewrite D by (intros ->; auto). now apply (r_live _ _ R).
Qed.

(** the walk finds a coroutine exactly when it is scheduled *)
Lemma scheduled_seg q c l : forall p fuel, seg (q_nodes q) p l None -> length l < fuel ->
  scheduled fuel q (hd_error l) (Some c) = Ok (existsb (fun i => match w_coro (work_of q i) with Some a => a =? c | None => false end) l).
Proof.
  induction l as [|i l IH]; intros p fuel S F; (destruct fuel as [|fuel]; [cbn in F; lia|]); [reflexivity|].
  destruct S as (n & N & P & X & S). cbn [scheduled hd_error]. rewrite (get_ok _ _ _ N). cbn [bind].
  cbn [existsb]. unfold work_of at 1. rewrite N. cbn [length] in F.
  assert (X' : n_next n = hd_error l) by (rewrite X; now destruct (hd_error l)). rewrite X'.
  destruct (w_coro (n_work n)) as [a|].
  - destruct (a =? c); [reflexivity|]. cbn [orb]. apply (IH (Some i)); auto. lia.
  - cbn [orb]. apply (IH (Some i)); auto. lia.
Qed.
Lemma nodup_bound (l : list nat) n : NoDup l -> (forall i, In i l -> i < n) -> length l <= n.
Proof.
  intros ND B. rewrite <- (seq_length n 0). apply NoDup_incl_length; auto. intros i I. apply in_seq. specialize (B i I). lia.
Qed.
Lemma scheduled_ok q l c : repr q l ->
  scheduled (S (length (q_nodes q))) q (q_head q) (Some c) =
  Ok (existsb (fun i => match w_coro (work_of q i) with Some a => a =? c | None => false end) l).
Proof.
  intros R. rewrite (r_head _ _ R). apply (scheduled_seg q c l None); [apply R|].
  pose proof (nodup_bound l (length (q_nodes q)) (r_nodup _ _ R) (fun i => repr_bound q l i R)). lia.
Qed.
