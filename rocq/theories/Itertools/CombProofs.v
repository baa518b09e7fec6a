(** Proofs about the combinatoric iterators. *)
From Coq Require Import List ZArith Bool Arith Lia Sorting.Sorted Permutation.
From Verif.Common Require Import Result Arr.
From Verif.Itertools Require Import CombModel CombSpec.
Import ListNotations.

(** ** Chains of states *)

Section Linked.
Context {S R : Type} (nx : S -> R) (inj : S -> R).

(** Each state of the list is followed by the next one, the last one yields [o]. *)
Fixpoint linked (L : list S) (o : R) : Prop :=
  match L with
  | [] => False
  | a :: t => match t with [] => nx a = o | b :: _ => nx a = inj b /\ linked t o end
  end.

Lemma linked_app L1 L2 b o :
  linked L1 (inj b) -> hd_error L2 = Some b -> linked L2 o -> linked (L1 ++ L2) o.
Proof.
  induction L1 as [|a t IH]; [intros []|]. intros H1 Hb H2.
  destruct L2 as [|b' L2]; [discriminate|]. injection Hb as ->.
  destruct t as [|c t].
  - simpl in H1 |- *. auto.
  - destruct H1 as [E H1]. split; [exact E|]. exact (IH H1 eq_refl H2).
Qed.
End Linked.

Lemma linked_map {S R S' R'} (nx : S -> R) inj (nx' : S' -> R') inj' (f : S -> S') L o o' :
  linked nx inj L o ->
  (forall a b, In a L -> nx a = inj b -> nx' (f a) = inj' (f b)) ->
  (forall a, In a L -> nx a = o -> nx' (f a) = o') ->
  linked nx' inj' (map f L) o'.
Proof.
  induction L as [|a t IH]; [intros []|]. intros H Hs Ho.
  destruct t as [|b t]; simpl in *.
  - auto.
  - destruct H as [E H]. split; [auto|]. apply IH; auto.
Qed.

Lemma drain_linked {S V} (step : S -> res (option S)) (out : S -> res V) L vs s :
  linked step (fun b => Ok (Some b)) L (Ok None) -> hd_error L = Some s ->
  Forall2 (fun a v => out a = Ok v) L vs ->
  forall fuel, length L <= fuel -> drain fuel step out s = Ok vs.
Proof.
  intros H E F. revert s H E. induction F as [|a v t vs Hv F IH]; intros s H E fuel Hf.
  - destruct H.
  - injection E as <-. destruct fuel as [|fuel]; [simpl in Hf; lia|].
    simpl. rewrite Hv. simpl. destruct t as [|b t].
    + simpl in H. rewrite H. simpl. inversion F. reflexivity.
    + destruct H as [Hn H]. rewrite Hn. simpl.
      rewrite (IH b H eq_refl fuel) by (simpl in Hf |- *; lia). reflexivity.
Qed.

(** ** Cells *)

Lemma get_app {A} (l1 l2 : list A) x : get (l1 ++ x :: l2) (length l1) = Ok x.
Proof. unfold get. rewrite nth_error_app2, Nat.sub_diag by lia. reflexivity. Qed.

Lemma get_app' {A} (l1 l2 : list A) x n : n = length l1 -> get (l1 ++ x :: l2) n = Ok x.
Proof. intros ->. apply get_app. Qed.

Lemma get_app2 {A} (l1 l2 : list A) n : length l1 <= n -> get (l1 ++ l2) n = get l2 (n - length l1).
Proof. intros H. unfold get. now rewrite nth_error_app2. Qed.

Lemma upd_nat_app {A} (l1 l2 : list A) x y :
  upd_nat (l1 ++ x :: l2) (length l1) y = l1 ++ y :: l2.
Proof. induction l1; simpl; congruence. Qed.

Lemma set_app {A} (l1 l2 : list A) x y :
  set (l1 ++ x :: l2) (length l1) y = Ok (l1 ++ y :: l2).
Proof.
  unfold set. rewrite app_length. simpl.
  destruct (Nat.ltb_spec (length l1) (length l1 + S (length l2))); [|lia].
  now rewrite upd_nat_app.
Qed.

Lemma set_app' {A} (l1 l2 : list A) x y n :
  n = length l1 -> set (l1 ++ x :: l2) n y = Ok (l1 ++ y :: l2).
Proof. intros ->. apply set_app. Qed.

Lemma init_cells_ok (q : list nat) rounds f p :
  length q = rounds ->
  init_cells (p ++ q) f (length p) rounds = Ok (p ++ map f (seq (length p) rounds)).
Proof.
  revert q p. induction rounds as [|k IH]; intros q p Hq.
  - destruct q; [|discriminate]. reflexivity.
  - destruct q as [|x q]; [discriminate|]. simpl. rewrite set_app. simpl.
    specialize (IH q (p ++ [f (length p)]) ltac:(simpl in Hq; lia)).
    rewrite app_length in IH. simpl in IH. rewrite Nat.add_1_r in IH.
    rewrite <- !app_assoc in IH. simpl in IH. exact IH.
Qed.

(** The value standing at each of the given positions. *)
Definition look {A} (pool : list A) (ind : list nat) : list (option A) :=
  map (fun i => nth_error pool i) ind.

Lemma get_look {A} (pool : list A) i : i < length pool -> exists x, get pool i = Ok x /\ nth_error pool i = Some x.
Proof.
  intros H. unfold get. destruct (nth_error pool i) eqn:E; [eauto|].
  apply nth_error_None in E. lia.
Qed.

Lemma emit_ok {A} (pool : list A) s p t rp rs :
  length rp = length p -> length rs = length s -> Forall (fun i => i < length pool) s ->
  emit pool (p ++ s ++ t) (rp ++ rs) (length p) (length s) = Ok (rp ++ look pool s).
Proof.
  revert p rp rs. induction s as [|i s IH]; intros p rp rs H1 H2 HF.
  - destruct rs; [|discriminate]. reflexivity.
  - destruct rs as [|y rs]; [discriminate|]. inversion HF as [|? ? Hi HF']. subst.
    simpl emit. simpl app. rewrite get_app. simpl.
    destruct (get_look pool i Hi) as (x & -> & Ex). simpl.
    rewrite (set_app' rp rs y) by lia. simpl.
    specialize (IH (p ++ [i]) (rp ++ [Some x]) rs).
    rewrite !app_length in IH. simpl in IH. rewrite !Nat.add_1_r in IH.
    rewrite <- !app_assoc in IH. simpl in IH, H2.
    rewrite IH by (auto; lia). unfold look. simpl. now rewrite Ex.
Qed.

Lemma init_result_ok {A} (pool : list A) rounds rp rs :
  length rs = rounds -> length rp + rounds <= length pool ->
  init_result pool (rp ++ rs) (length rp) rounds =
  Ok (rp ++ look pool (seq (length rp) rounds)).
Proof.
  revert rp rs. induction rounds as [|k IH]; intros rp rs H1 H2.
  - destruct rs; [|discriminate]. reflexivity.
  - destruct rs as [|y rs]; [discriminate|]. simpl.
    destruct (get_look pool (length rp)) as (x & -> & Ex); [lia|]. simpl.
    rewrite set_app. simpl.
    specialize (IH (rp ++ [Some x]) rs).
    rewrite app_length in IH. simpl in IH, H1. rewrite Nat.add_1_r in IH.
    rewrite <- !app_assoc in IH. simpl in IH. rewrite IH by lia.
    now rewrite Ex.
Qed.

Lemma all_written_look {A} (pool : list A) t :
  Forall (fun i => i < length pool) t ->
  exists v, all_written (look pool t) = Ok v /\ at_positions pool t v.
Proof.
  induction 1 as [|i t Hi HF (v & E & Hv)].
  - exists []. split; [reflexivity|constructor].
  - destruct (get_look pool i Hi) as (x & _ & Ex).
    exists (x :: v). unfold look in *. simpl. rewrite Ex, E. split; [reflexivity|].
    now constructor.
Qed.

Lemma all_written_looks {A} (pool : list A) J :
  (forall t, In t J -> Forall (fun i => i < length pool) t) ->
  exists vs, Forall2 (fun t v => all_written (look pool t) = Ok v) J vs /\
             Forall2 (at_positions pool) J vs.
Proof.
  induction J as [|t J IH]; intros H; [exists []; split; constructor|].
  destruct IH as (vs & H1 & H2); [intros; apply H; now right|].
  destruct (all_written_look pool t) as (v & E & Hv); [apply H; now left|].
  exists (v :: vs). split; constructor; auto.
Qed.

(** ** Lexicographic order *)

Lemma lexlt_cons a s t : lexlt s t -> lexlt (a :: s) (a :: t).
Proof. apply lex_later. Qed.

Lemma sorted_app {T} (R : T -> T -> Prop) l1 l2 :
  StronglySorted R l1 -> StronglySorted R l2 ->
  (forall a b, In a l1 -> In b l2 -> R a b) -> StronglySorted R (l1 ++ l2).
Proof.
  intros H1 H2 H. induction H1 as [|a l1 H1 IH HF]; [exact H2|].
  simpl. constructor.
  - apply IH. intros; apply H; auto. now right.
  - apply Forall_app. split; [exact HF|]. apply Forall_forall. intros; apply H; auto. now left.
Qed.

Lemma sorted_map_cons a l : StronglySorted lexlt l -> StronglySorted lexlt (map (cons a) l).
Proof.
  induction 1 as [|t l H IH HF]; simpl; constructor; auto.
  apply Forall_forall. intros u Hu. apply in_map_iff in Hu. destruct Hu as (u' & <- & Hu).
  apply lex_later. rewrite Forall_forall in HF. auto.
Qed.

(** ** combinations *)

(** Index tuples of [r] positions in [k .. k+m), in order. *)
Fixpoint combs (r k m : nat) : list (list nat) :=
  match r, m with
  | 0, _ => [[]]
  | S _, 0 => []
  | S r', S m' => map (cons k) (combs r' (S k) m') ++ combs r (S k) m'
  end.

Lemma combs_in r k m t :
  In t (combs r k m) <->
  length t = r /\ Forall (fun i => k <= i < k + m) t /\ StronglySorted lt t.
Proof.
  revert r k t. induction m as [|m IH]; intros r k t; destruct r as [|r]; simpl.
  - split.
    + intros [<-|[]]. repeat split; constructor.
    + intros (H & _). destruct t; [auto|discriminate].
  - split; [intros []|]. intros (H & HF & _). destruct t as [|i t]; [discriminate|].
    inversion HF; lia.
  - split.
    + intros [<-|[]]. repeat split; constructor.
    + intros (H & _). destruct t; [auto|discriminate].
  - rewrite in_app_iff, in_map_iff. split.
    + intros [(u & <- & Hu)|Hu].
      * apply IH in Hu. destruct Hu as (H1 & H2 & H3). simpl. repeat split; auto.
        -- constructor; [lia|]. eapply Forall_impl; [|exact H2]. simpl. intros; lia.
        -- constructor; auto. eapply Forall_impl; [|exact H2]. simpl. intros; lia.
      * apply IH in Hu. destruct Hu as (H1 & H2 & H3). repeat split; auto.
        eapply Forall_impl; [|exact H2]. simpl. intros; lia.
    + intros (H1 & H2 & H3). destruct t as [|i t]; [discriminate|].
      inversion H2 as [|? ? Hi H2']. inversion H3 as [|? ? H3' H3'']. subst.
      destruct (Nat.eq_dec i k) as [->|N].
      * left. exists t. split; [reflexivity|]. apply IH. repeat split; auto.
        rewrite Forall_forall in *. intros x Hx. specialize (H2' x Hx). specialize (H3'' x Hx). lia.
      * right. apply IH. repeat split; auto. constructor; [lia|].
        rewrite Forall_forall in *. intros x Hx. specialize (H2' x Hx). specialize (H3'' x Hx). lia.
Qed.

Lemma combs_sorted r k m : StronglySorted lexlt (combs r k m).
Proof.
  revert r k. induction m as [|m IH]; intros r k; destruct r as [|r]; simpl.
  1-3: repeat constructor.
  apply sorted_app.
  - apply sorted_map_cons, IH.
  - apply IH.
  - intros a b Ha Hb. apply in_map_iff in Ha. destruct Ha as (u & <- & _).
    apply combs_in in Hb. destruct Hb as (H1 & H2 & _).
    destruct b as [|i b]; [discriminate|]. inversion H2; subst. apply lex_here. lia.
Qed.

Lemma combs_head r k m : r <= m -> hd_error (combs r k m) = Some (seq k r).
Proof.
  revert r k. induction m as [|m IH]; intros r k H; destruct r as [|r]; simpl; try reflexivity; try lia.
  specialize (IH r (S k) ltac:(lia)).
  destruct (combs r (S k) m); [discriminate|]. simpl in IH |- *. congruence.
Qed.

(** The next combination, as a recursion on the tuple. *)
Fixpoint cnext (n : nat) (t : list nat) : option (list nat) :=
  match t with
  | [] => None
  | k :: t' =>
      match cnext n t' with
      | Some u => Some (k :: u)
      | None => if S k + length t' <? n then Some (seq (S k) (S (length t'))) else None
      end
  end.

Lemma combs_none r k m : m < r -> combs r k m = [].
Proof.
  revert r k. induction m as [|m IH]; intros r k H; destruct r as [|r]; try lia; auto.
  simpl. rewrite IH by lia. simpl. apply IH. lia.
Qed.

Lemma combs_linked r k m n :
  k + m = n -> r <= m -> linked (cnext n) Some (combs r k m) None.
Proof.
  revert r k. induction m as [|m IH]; intros r k E H; destruct r as [|r]; try lia;
    [simpl; auto|simpl; auto|].
  simpl combs.
  destruct (le_lt_dec (S r) m) as [Hm|Hm].
  - apply linked_app with (b := seq (S k) (S r)).
    + eapply linked_map; [apply IH; lia|..].
      * intros a b _ Hab. simpl. now rewrite Hab.
      * intros a Ha Hn. simpl. rewrite Hn. apply combs_in in Ha. destruct Ha as (La & _).
        rewrite La. destruct (Nat.ltb_spec (S (k + r)) n); [reflexivity|lia].
    + apply combs_head. lia.
    + apply IH; lia.
  - rewrite (combs_none (S r)) by lia. rewrite app_nil_r.
    eapply linked_map; [apply IH; lia|..].
    + intros a b _ Hab. simpl. now rewrite Hab.
    + intros a Ha Hn. simpl. rewrite Hn. apply combs_in in Ha. destruct Ha as (La & _).
      rewrite La. destruct (Nat.ltb_spec (S (k + r)) n); [lia|reflexivity].
Qed.

(** The shape of the tuples with and without a successor. *)
Lemma cnext_none n t :
  Forall (fun i => i < n) t -> StronglySorted lt t -> cnext n t = None ->
  length t <= n /\ t = seq (n - length t) (length t).
Proof.
  induction t as [|k t IH]; intros HF HS H; [simpl; auto with arith|].
  inversion HF as [|? ? Hk HF']. inversion HS as [|? ? HS' HS'']. subst.
  simpl in H. destruct (cnext n t) eqn:E; [discriminate|].
  destruct (IH HF' HS' eq_refl) as (L & Et).
  destruct (Nat.ltb_spec (S (k + length t)) n); [discriminate|].
  assert (K : k + S (length t) <= n).
  { destruct t as [|i t]; [simpl; lia|]. simpl length in *.
    simpl seq in Et. injection Et as Ei _. inversion HS''; subst. lia. }
  simpl. split; [lia|]. f_equal; [lia|].
  rewrite Et at 1. f_equal; lia.
Qed.

Lemma cnext_some n t u :
  Forall (fun i => i < n) t -> StronglySorted lt t -> cnext n t = Some u ->
  exists p k q, t = p ++ k :: q /\ length q <= n /\ q = seq (n - length q) (length q) /\
    S k + length q < n /\ u = p ++ seq (S k) (S (length q)).
Proof.
  revert u. induction t as [|k t IH]; intros u HF HS H; [discriminate|].
  inversion HF as [|? ? Hk HF']. inversion HS as [|? ? HS' HS'']. subst.
  simpl in H. destruct (cnext n t) as [w|] eqn:E.
  - injection H as <-. destruct (IH w HF' HS' eq_refl) as (p & k' & q & -> & L & Eq & Hl & ->).
    exists (k :: p), k', q. auto.
  - destruct (Nat.ltb_spec (S (k + length t)) n) as [Hl|]; [|discriminate].
    injection H as <-. destruct (cnext_none n t HF' HS' E) as (L & Et).
    exists [], k, t. simpl. auto.
Qed.

Lemma sorted_gap_from q k l a :
  StronglySorted lt (l ++ k :: q) -> (forall x, In x (l ++ k :: q) -> a < x) -> a + length l < k.
Proof.
  revert a. induction l as [|y l IH]; intros a HS HF; simpl.
  - rewrite Nat.add_0_r. apply HF. now left.
  - inversion HS as [|? ? HS' F]. subst. rewrite Forall_forall in F.
    specialize (IH y HS' F). assert (a < y) by (apply HF; now left). lia.
Qed.

Lemma sorted_gap p k q : StronglySorted lt (p ++ k :: q) -> length p <= k.
Proof.
  destruct p as [|a p]; intros HS; [simpl; lia|].
  inversion HS as [|? ? HS' F]. subst. rewrite Forall_forall in F.
  pose proof (sorted_gap_from q k p a HS' F). simpl. lia.
Qed.

(** The search for the position to advance. *)
Lemma comb_find_sat p m n r :
  length p + m <= r -> r <= n ->
  comb_find (p ++ seq (length p + n - r) m) n r (length p + m) =
  comb_find (p ++ seq (length p + n - r) m) n r (length p).
Proof.
  intros H Hr. induction m as [|m IH]; [now rewrite Nat.add_0_r|].
  rewrite seq_S, Nat.add_succ_r. simpl.
  rewrite app_assoc.
  rewrite (get_app' (p ++ seq (length p + n - r) m) [] (length p + n - r + m)
            (length p + m)) by (rewrite app_length, seq_length; reflexivity).
  simpl.
  destruct (Nat.eqb_spec (length p + n - r + m) (length p + m + n - r)); [|lia].
  assert (W : forall l x k, k <= length l -> comb_find (l ++ x) n r k = comb_find l n r k).
  { clear. intros l x k. induction k as [|k IH]; intros Hk; [reflexivity|]. simpl.
    unfold get. rewrite nth_error_app1 by lia. rewrite IH by lia. reflexivity. }
  rewrite (W _ _ (length p + m)) by (rewrite ?app_length, ?seq_length; lia).
  rewrite (W _ _ (length p)) by (rewrite ?app_length, ?seq_length; lia).
  apply IH. lia.
Qed.

Lemma comb_fill_ok q p k :
  comb_fill (p ++ k :: q) (S (length p)) (length q) = Ok (p ++ seq k (S (length q))).
Proof.
  revert p k. induction q as [|x q IH]; intros p k; [reflexivity|].
  simpl comb_fill. rewrite Nat.sub_0_r, get_app. simpl.
  replace (p ++ k :: x :: q) with ((p ++ [k]) ++ x :: q) by now rewrite <- app_assoc.
  rewrite (set_app' (p ++ [k]) q x) by (rewrite app_length; simpl; lia). simpl.
  specialize (IH (p ++ [k]) (k + 1)). rewrite app_length in IH. simpl in IH.
  rewrite (Nat.add_1_r (length p)) in IH. rewrite IH. rewrite <- app_assoc. simpl.
  now rewrite Nat.add_1_r.
Qed.

Lemma comb_step_none {A} (pool : list A) r t res' :
  length t = r -> Forall (fun i => i < length pool) t -> StronglySorted lt t ->
  cnext (length pool) t = None ->
  comb_step pool (length pool) r (t, res') = Ok None.
Proof.
  intros L HF HS H. destruct (cnext_none _ _ HF HS H) as (Ln & E).
  unfold comb_step. set (n := length pool) in *.
  pose proof (comb_find_sat [] r n r) as F. simpl in F.
  rewrite L in *. rewrite E. rewrite F by lia. reflexivity.
Qed.

Lemma comb_step_some {A} (pool : list A) r t u :
  length t = r -> Forall (fun i => i < length pool) t -> StronglySorted lt t ->
  cnext (length pool) t = Some u ->
  comb_step pool (length pool) r (t, look pool t) = Ok (Some (u, look pool u)).
Proof.
  intros L HF HS H. destruct (cnext_some _ _ _ HF HS H) as (p & k & q & -> & Ln & E & Hl & ->).
  unfold comb_step. set (n := length pool) in *.
  rewrite app_length in L. simpl in L.
  assert (Hr : r <= n).
  { pose proof (sorted_gap _ _ _ HS). lia. }
  assert (F : comb_find (p ++ k :: q) n r r = Ok (Some (length p))).
  { pose proof (comb_find_sat (p ++ [k]) (length q) n r) as F0.
    replace (length (p ++ [k]) + n - r) with (n - length q) in F0
      by (rewrite app_length; simpl; lia).
    rewrite <- E, app_length in F0. simpl in F0.
    replace (length p + 1 + length q) with r in F0 by lia.
    rewrite <- app_assoc in F0. simpl in F0.
    rewrite F0, Nat.add_1_r by lia. simpl. rewrite get_app. simpl.
    destruct (Nat.eqb_spec k (length p + n - r)); [lia|reflexivity]. }
  rewrite F. simpl. rewrite get_app. simpl. rewrite set_app. simpl.
  rewrite (Nat.add_1_r (length p)). replace (r - S (length p)) with (length q) by lia.
  rewrite comb_fill_ok. simpl.
  replace (k + 1) with (S k) by lia.
  pose proof (emit_ok pool (seq (S k) (S (length q))) p [] (look pool p) (look pool (k :: q))) as EM.
  rewrite app_nil_r, seq_length in EM. unfold look in EM at 1 2. unfold look at 1.
  rewrite map_app. replace (r - length p) with (S (length q)) by lia.
  change (S k :: seq (S (S k)) (length q)) with (seq (S k) (S (length q))).
  unfold look in EM. rewrite EM.
  - simpl. unfold look. rewrite map_app. reflexivity.
  - apply map_length.
  - rewrite map_length, ?seq_length. reflexivity.
  - apply Forall_forall. intros x Hx. apply in_seq in Hx. fold n. lia.
Qed.
