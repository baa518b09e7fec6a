(** Proofs about the combinatoric iterators, continued: combinations with
    replacement, permutations, products. *)
From Coq Require Import List ZArith Bool Arith Lia Sorting.Sorted Permutation.
From Verif.Common Require Import Result Arr.
From Verif.Itertools Require Import CombModel CombSpec CombProofs.
Import ListNotations.

Lemma linked_flat {S R} (nx : S -> R) inj (f : nat -> list S) (h : nat -> S) m k o :
  (forall i, k <= i < k + Datatypes.S m -> hd_error (f i) = Some (h i)) ->
  (forall i, k <= i < k + m -> linked nx inj (f i) (inj (h (Datatypes.S i)))) ->
  linked nx inj (f (k + m)) o ->
  linked nx inj (flat_map f (seq k (Datatypes.S m))) o.
Proof.
  revert k. induction m as [|m IH]; intros k Hh Hl Ho.
  - simpl. rewrite Nat.add_0_r in Ho. now rewrite app_nil_r.
  - change (seq k (Datatypes.S (Datatypes.S m))) with (k :: seq (Datatypes.S k) (Datatypes.S m)).
    simpl flat_map.
    apply (linked_app nx inj) with (b := h (Datatypes.S k)).
    + apply Hl. lia.
    + specialize (Hh (Datatypes.S k) ltac:(lia)). simpl.
      destruct (f (Datatypes.S k)); [discriminate|]. exact Hh.
    + apply (IH (Datatypes.S k)).
      * intros i Hi. apply Hh. lia.
      * intros i Hi. apply Hl. lia.
      * rewrite Nat.add_succ_l, <- Nat.add_succ_r. exact Ho.
Qed.

Lemma hd_map {A B} (f : A -> B) l a : hd_error l = Some a -> hd_error (map f l) = Some (f a).
Proof. destruct l; simpl; congruence. Qed.

Lemma hd_app {A} (l1 l2 : list A) a : hd_error l1 = Some a -> hd_error (l1 ++ l2) = Some a.
Proof. destruct l1; simpl; congruence. Qed.

Lemma hd_flat {B} (f : nat -> list B) k m b :
  hd_error (f k) = Some b -> hd_error (flat_map f (seq k (S m))) = Some b.
Proof. intros H. simpl. destruct (f k); [discriminate|]. exact H. Qed.

Lemma sorted_flat {T} (R : T -> T -> Prop) (f : nat -> list T) m k :
  (forall i, k <= i < k + m -> StronglySorted R (f i)) ->
  (forall i j a b, k <= i -> i < j -> j < k + m -> In a (f i) -> In b (f j) -> R a b) ->
  StronglySorted R (flat_map f (seq k m)).
Proof.
  revert k. induction m as [|m IH]; intros k H1 H2; simpl; [constructor|].
  apply sorted_app.
  - apply H1. lia.
  - apply IH.
    + intros i Hi. apply H1. lia.
    + intros i j a b ? ? ?. apply H2; lia.
  - intros a b Ha Hb. apply in_flat_map in Hb. destruct Hb as (j & Hj & Hb).
    apply in_seq in Hj. apply (H2 k j); auto; lia.
Qed.

(** ** combinations: the whole call *)

Lemma combinations_ok {A} (pool : list A) r :
  r <= length pool ->
  exists vs, Forall2 (at_positions pool) (combs r 0 (length pool)) vs /\
    forall fuel, length (combs r 0 (length pool)) <= fuel ->
      combinations fuel pool (Z.of_nat r) = Ok vs.
Proof.
  intros Hr. set (n := length pool). set (J := combs r 0 n).
  assert (HJ : forall t, In t J ->
            length t = r /\ Forall (fun i => i < n) t /\ StronglySorted lt t).
  { intros t Ht. apply combs_in in Ht. destruct Ht as (H1 & H2 & H3). repeat split; auto.
    eapply Forall_impl; [|exact H2]. simpl. intros; lia. }
  destruct (all_written_looks pool J) as (vs & F1 & F2).
  { intros t Ht. apply HJ. exact Ht. }
  exists vs. split; [exact F2|]. intros fuel Hf.
  unfold combinations. destruct (Z.ltb_spec (Z.of_nat r) 0); [lia|].
  rewrite Nat2Z.id. fold n.
  destruct (Nat.ltb_spec n r); [unfold n in *; lia|].
  pose proof (init_cells_ok (repeat 0 r) r (fun i => i) []) as I1. simpl in I1.
  rewrite I1 by apply repeat_length. simpl. rewrite map_id.
  pose proof (init_result_ok pool r [] (repeat None r)) as I2. simpl in I2.
  rewrite I2 by (rewrite ?repeat_length; unfold n in *; lia). simpl.
  apply (drain_linked _ _ (map (fun t => (t, look pool t)) J)).
  - eapply linked_map; [apply (combs_linked r 0 n n); unfold n in *; lia|..].
    + intros a b Ha E. destruct (HJ a Ha) as (? & ? & ?). now apply comb_step_some.
    + intros a Ha E. destruct (HJ a Ha) as (? & ? & ?). now apply comb_step_none.
  - apply (hd_map (fun t => (t, look pool t))). apply combs_head. unfold n; lia.
  - clear -F1. induction F1; simpl; constructor; auto.
  - now rewrite map_length.
Qed.

(** ** combinations_with_replacement *)

Fixpoint cwrs (r k m : nat) : list (list nat) :=
  match r with
  | 0 => [[]]
  | S r' => flat_map (fun i => map (cons i) (cwrs r' i (k + m - i))) (seq k m)
  end.

Lemma cwrs_in r k m t :
  In t (cwrs r k m) <->
  length t = r /\ Forall (fun i => k <= i < k + m) t /\ StronglySorted le t.
Proof.
  revert k m t. induction r as [|r IH]; intros k m t; simpl.
  - split.
    + intros [<-|[]]. repeat split; constructor.
    + intros (H & _). destruct t; [auto|discriminate].
  - rewrite in_flat_map. split.
    + intros (i & Hi & Ht). apply in_seq in Hi. apply in_map_iff in Ht.
      destruct Ht as (u & <- & Hu). apply IH in Hu. destruct Hu as (H1 & H2 & H3).
      simpl. repeat split; auto.
      * constructor; [lia|]. eapply Forall_impl; [|exact H2]. simpl. intros; lia.
      * constructor; auto. eapply Forall_impl; [|exact H2]. simpl. intros; lia.
    + intros (H1 & H2 & H3). destruct t as [|i t]; [discriminate|].
      inversion H2 as [|? ? Hi H2']. inversion H3 as [|? ? H3' H3'']. subst.
      exists i. split; [apply in_seq; lia|]. apply in_map. apply IH. repeat split; auto.
      rewrite Forall_forall in *. intros x Hx. specialize (H2' x Hx). specialize (H3'' x Hx). lia.
Qed.

Lemma cwrs_sorted r k m : StronglySorted lexlt (cwrs r k m).
Proof.
  revert k m. induction r as [|r IH]; intros k m; simpl; [repeat constructor|].
  apply sorted_flat.
  - intros i _. apply sorted_map_cons, IH.
  - intros i j a b _ Hij _ Ha Hb. apply in_map_iff in Ha, Hb.
    destruct Ha as (? & <- & _), Hb as (? & <- & _). now apply lex_here.
Qed.

Lemma cwrs_head r k m : 0 < m -> hd_error (cwrs r k m) = Some (repeat k r).
Proof.
  revert k m. induction r as [|r IH]; intros k m H; [reflexivity|].
  simpl cwrs. destruct m as [|m]; [lia|].
  apply hd_flat. simpl. apply (hd_map (cons k)). apply IH. lia.
Qed.

Fixpoint wnext (n : nat) (t : list nat) : option (list nat) :=
  match t with
  | [] => None
  | k :: t' =>
      match wnext n t' with
      | Some u => Some (k :: u)
      | None => if S k <? n then Some (repeat (S k) (S (length t'))) else None
      end
  end.

Lemma cwrs_linked r k m n :
  k + m = n -> 0 < m -> linked (wnext n) Some (cwrs r k m) None.
Proof.
  revert k m. induction r as [|r IH]; intros k m E Hm; [reflexivity|].
  simpl cwrs. destruct m as [|m]; [lia|].
  apply (linked_flat _ _ _ (fun i => repeat i (S r))).
  - intros i Hi. simpl. apply (hd_map (cons i)). apply cwrs_head. lia.
  - intros i Hi. eapply linked_map; [apply (IH i (k + S m - i)); lia|..].
    + intros a b _ Hab. simpl. now rewrite Hab.
    + intros a Ha Hn. simpl wnext. rewrite Hn. apply cwrs_in in Ha. destruct Ha as (La & _).
      rewrite La. destruct (Nat.ltb_spec (S i) n); [reflexivity|lia].
  - eapply linked_map; [apply (IH (k + m) (k + S m - (k + m))); lia|..].
    + intros a b _ Hab. simpl. now rewrite Hab.
    + intros a Ha Hn. simpl wnext. rewrite Hn.
      destruct (Nat.ltb_spec (S (k + m)) n); [lia|reflexivity].
Qed.

Lemma wnext_none n t :
  Forall (fun i => i < n) t -> wnext n t = None -> t = repeat (n - 1) (length t).
Proof.
  induction t as [|k t IH]; intros HF H; [reflexivity|].
  inversion HF as [|? ? Hk HF']. subst.
  simpl in H. destruct (wnext n t) eqn:E; [discriminate|].
  destruct (Nat.ltb_spec (S k) n); [discriminate|].
  simpl. f_equal; [lia|]. auto.
Qed.

Lemma wnext_some n t u :
  Forall (fun i => i < n) t -> wnext n t = Some u ->
  exists p k m, t = p ++ k :: repeat (n - 1) m /\ S k < n /\ u = p ++ repeat (S k) (S m).
Proof.
  revert u. induction t as [|k t IH]; intros u HF H; [discriminate|].
  inversion HF as [|? ? Hk HF']. subst.
  simpl in H. destruct (wnext n t) as [w|] eqn:E.
  - injection H as <-. destruct (IH w HF' eq_refl) as (p & k' & q & -> & Hl & ->).
    exists (k :: p), k', q. auto.
  - destruct (Nat.ltb_spec (S k) n) as [Hl|]; [|discriminate].
    injection H as <-. exists [], k, (length t). simpl. split; [|auto].
    f_equal. now apply wnext_none.
Qed.

Lemma cwr_find_prefix n l x k : k <= length l -> cwr_find (l ++ x) n k = cwr_find l n k.
Proof.
  induction k as [|k IH]; intros Hk; [reflexivity|]. simpl.
  unfold get. rewrite nth_error_app1 by lia. rewrite IH by lia. reflexivity.
Qed.

Lemma cwr_find_sat p m n :
  cwr_find (p ++ repeat (n - 1) m) n (length p + m) = cwr_find p n (length p).
Proof.
  induction m as [|m IH]; [simpl; now rewrite Nat.add_0_r, app_nil_r|].
  replace (S m) with (m + 1) at 1 by lia. rewrite repeat_app, app_assoc.
  rewrite Nat.add_succ_r. simpl.
  rewrite get_app' by (rewrite app_length, repeat_length; reflexivity).
  simpl. rewrite Nat.eqb_refl.
  rewrite cwr_find_prefix by (rewrite app_length, repeat_length; lia). exact IH.
Qed.

Lemma cwr_fill_ok {A} (index : nat) (elem : A) q p rp rs :
  length rp = length p -> length rs = length q ->
  cwr_fill (p ++ q) (rp ++ rs) index elem (length p) (length q) =
  Ok (p ++ repeat index (length q), rp ++ repeat (Some elem) (length q)).
Proof.
  revert p rp rs. induction q as [|x q IH]; intros p rp rs H1 H2.
  - destruct rs; [reflexivity|discriminate].
  - destruct rs as [|y rs]; [discriminate|]. simpl. rewrite set_app. simpl.
    rewrite (set_app' rp) by lia. simpl.
    specialize (IH (p ++ [index]) (rp ++ [Some elem]) rs).
    rewrite !app_length in IH. simpl in IH, H2. rewrite !Nat.add_1_r in IH.
    rewrite <- !app_assoc in IH. apply IH; lia.
Qed.

Lemma look_app {A} (pool : list A) p q : look pool (p ++ q) = look pool p ++ look pool q.
Proof. apply map_app. Qed.

Lemma look_length {A} (pool : list A) p : length (look pool p) = length p.
Proof. apply map_length. Qed.

Lemma look_repeat {A} (pool : list A) i x m :
  nth_error pool i = Some x -> look pool (repeat i m) = repeat (Some x) m.
Proof. intros E. unfold look. induction m; simpl; congruence. Qed.

Lemma cwr_step_none {A} (pool : list A) t s :
  Forall (fun i => i < length pool) t -> wnext (length pool) t = None ->
  cwr_step pool (length pool) (length t) (t, s) = Ok None.
Proof.
  intros HF H. apply wnext_none in H; [|exact HF].
  unfold cwr_step. rewrite H at 1.
  pose proof (cwr_find_sat [] (length t) (length pool)) as F. simpl in F.
  rewrite F. reflexivity.
Qed.

Lemma cwr_step_some {A} (pool : list A) t u :
  Forall (fun i => i < length pool) t -> wnext (length pool) t = Some u ->
  cwr_step pool (length pool) (length t) (t, look pool t) = Ok (Some (u, look pool u)).
Proof.
  intros HF H. destruct (wnext_some _ _ _ HF H) as (p & k & m & -> & Hl & ->).
  unfold cwr_step. set (n := length pool) in *.
  assert (L : length (p ++ k :: repeat (n - 1) m) = length p + 1 + m).
  { rewrite app_length. simpl. rewrite repeat_length. lia. }
  rewrite L.
  assert (F : cwr_find (p ++ k :: repeat (n - 1) m) n (length p + 1 + m) = Ok (Some (length p))).
  { pose proof (cwr_find_sat (p ++ [k]) m n) as F. rewrite app_length in F. simpl in F.
    rewrite <- app_assoc in F. simpl in F. rewrite F.
    rewrite Nat.add_1_r. simpl. rewrite get_app. simpl.
    destruct (Nat.eqb_spec k (n - 1)); [lia|reflexivity]. }
  rewrite F. simpl. rewrite get_app. simpl.
  destruct (get_look pool (k + 1)) as (x & -> & Ex); [fold n; lia|]. simpl.
  replace (length p + 1 + m - length p) with (length (k :: repeat (n - 1) m))
    by (simpl; rewrite repeat_length; lia).
  rewrite look_app.
  rewrite cwr_fill_ok by now rewrite look_length.
  simpl. rewrite repeat_length, look_app.
  change (S k :: repeat (S k) m) with (repeat (S k) (S m)).
  rewrite (look_repeat pool (S k) x) by (now rewrite <- Nat.add_1_r).
  rewrite Nat.add_1_r. reflexivity.
Qed.

Lemma cwr_init_ok {A} (pool : list A) rounds rp rs :
  length rs = rounds -> 0 < length pool ->
  cwr_init pool (rp ++ rs) (length rp) rounds = Ok (rp ++ look pool (repeat 0 rounds)).
Proof.
  revert rp rs. induction rounds as [|k IH]; intros rp rs H1 H2.
  - destruct rs; [|discriminate]. reflexivity.
  - destruct rs as [|y rs]; [discriminate|]. simpl.
    destruct (get_look pool 0 H2) as (x & -> & Ex). simpl.
    rewrite set_app. simpl.
    specialize (IH (rp ++ [Some x]) rs).
    rewrite app_length in IH. simpl in IH, H1. rewrite Nat.add_1_r in IH.
    rewrite <- !app_assoc in IH. simpl in IH. rewrite IH by lia.
    destruct pool; [discriminate|]. simpl in Ex. now rewrite Ex.
Qed.

Lemma map_const_seq (c : nat) k m : map (fun _ => c) (seq k m) = repeat c m.
Proof. revert k. induction m; intros k; simpl; congruence. Qed.

Lemma cwr_ok {A} (pool : list A) r :
  exists vs, Forall2 (at_positions pool) (cwrs r 0 (length pool)) vs /\
    forall fuel, length (cwrs r 0 (length pool)) <= fuel ->
      combinations_with_replacement fuel pool (Z.of_nat r) = Ok vs.
Proof.
  set (n := length pool). set (J := cwrs r 0 n).
  assert (HJ : forall t, In t J -> length t = r /\ Forall (fun i => i < n) t).
  { intros t Ht. apply cwrs_in in Ht. destruct Ht as (H1 & H2 & H3). repeat split; auto.
    eapply Forall_impl; [|exact H2]. simpl. intros; lia. }
  destruct (all_written_looks pool J) as (vs & F1 & F2).
  { intros t Ht. apply HJ. exact Ht. }
  exists vs. split; [exact F2|]. intros fuel Hf.
  unfold combinations_with_replacement. destruct (Z.ltb_spec (Z.of_nat r) 0); [lia|].
  rewrite Nat2Z.id. fold n.
  destruct (Nat.eqb_spec n 0) as [N|N].
  - unfold J in *. rewrite N in *. destruct r as [|r].
    + simpl in *. inversion F2 as [|? ? ? ? P1 P2]. inversion P1. inversion P2. subst. reflexivity.
    + simpl in *. inversion F2. reflexivity.
  - pose proof (init_cells_ok (repeat 0 r) r (fun _ => 0) []) as I1. simpl in I1.
    rewrite I1 by apply repeat_length. simpl. rewrite map_const_seq.
    pose proof (cwr_init_ok pool r [] (repeat None r)) as I2. simpl in I2.
    rewrite I2 by (rewrite ?repeat_length; unfold n in *; lia). simpl.
    apply (drain_linked _ _ (map (fun t => (t, look pool t)) J)).
    + eapply linked_map; [apply (cwrs_linked r 0 n n); lia|..].
      * intros a b Ha E. destruct (HJ a Ha) as (<- & ?). now apply cwr_step_some.
      * intros a Ha E. destruct (HJ a Ha) as (<- & ?). now apply cwr_step_none.
    + apply (hd_map (fun t => (t, look pool t))). apply cwrs_head. lia.
    + clear -F1. induction F1; simpl; constructor; auto.
    + now rewrite map_length.
Qed.

(** ** permutations *)

Definition cut {A} (t : nat) (l : list A) : list A := firstn t l ++ skipn (S t) l.

Lemma cut_length {A} t (l : list A) : t < length l -> length (cut t l) = length l - 1.
Proof. intros H. unfold cut. rewrite app_length, firstn_length, skipn_length. lia. Qed.

(** Cycle counters and indices from some place on, for each arrangement. *)
Fixpoint ps (r : nat) (s : list nat) : list (list nat * list nat) :=
  match r with
  | 0 => [([], s)]
  | S r' =>
      flat_map (fun t => map (fun cx => (length s - t :: fst cx, nth t s 0 :: snd cx))
                             (ps r' (cut t s)))
               (seq 0 (length s))
  end.

Definition pinit (r : nat) (s : list nat) : list nat * list nat :=
  (map (fun i => length s - i) (seq 0 r), s).

Fixpoint pnext (cs xs : list nat) {struct cs} : (list nat * list nat) + (list nat * list nat) :=
  match cs, xs with
  | c :: cs, x :: xs =>
      match pnext cs xs with
      | inl (cs', xs') => inl (c :: cs', x :: xs')
      | inr (cs', xs') =>
          if c - 1 =? 0 then inr (S (length xs) :: cs', xs' ++ [x])
          else inl (c - 1 :: cs', nth (S (length xs) - c) xs' 0 :: upd_nat xs' (S (length xs) - c) x)
      end
  | _, _ => inr (cs, xs)
  end.

Definition pnx (s : list nat * list nat) := pnext (fst s) (snd s).

Lemma pinit_S r x s : pinit (S r) (x :: s) = (S (length s) :: fst (pinit r s), x :: s).
Proof.
  unfold pinit. simpl. f_equal. f_equal.
  rewrite <- seq_shift, map_map. apply map_ext_in. intros a Ha. apply in_seq in Ha. lia.
Qed.

Lemma cut_0 {A} (x : A) s : cut 0 (x :: s) = s.
Proof. reflexivity. Qed.

Lemma ps_head r s : r <= length s -> hd_error (ps r s) = Some (pinit r s).
Proof.
  revert s. induction r as [|r IH]; intros s H; [reflexivity|].
  destruct s as [|x s]; [simpl in H; lia|].
  simpl ps. apply hd_app. rewrite cut_0.
  rewrite (hd_map _ _ (pinit r s)) by (apply IH; simpl in H; lia).
  rewrite pinit_S. simpl. reflexivity.
Qed.

Lemma ps_lengths r s c x :
  r <= length s -> In (c, x) (ps r s) -> length c = r /\ length x = length s.
Proof.
  revert s c x. induction r as [|r IH]; intros s c x H Hin; simpl in Hin.
  - destruct Hin as [E|[]]. injection E as <- <-. auto.
  - apply in_flat_map in Hin. destruct Hin as (t & Ht & Hin). apply in_seq in Ht.
    apply in_map_iff in Hin. destruct Hin as ([c' x'] & E & Hin). injection E as <- <-.
    pose proof (cut_length t s ltac:(lia)) as L.
    apply IH in Hin; [|rewrite L; lia]. destruct Hin as [H1 H2]. simpl. lia.
Qed.

Lemma cut_next (s : list nat) t :
  S t < length s ->
  nth t (cut t s) 0 = nth (S t) s 0 /\ upd_nat (cut t s) t (nth t s 0) = cut (S t) s.
Proof.
  revert s. induction t as [|t IH]; intros s H.
  - destruct s as [|a [|b s]]; simpl in H; try lia. split; reflexivity.
  - destruct s as [|a s]; simpl in H; try lia.
    destruct (IH s ltac:(lia)) as [E1 E2].
    change (cut (S t) (a :: s)) with (a :: cut t s).
    change (cut (S (S t)) (a :: s)) with (a :: cut (S t) s).
    simpl. split; [exact E1|]. now rewrite E2.
Qed.

Lemma cut_last (s : list nat) t :
  S t = length s -> cut t s ++ [nth t s 0] = s.
Proof.
  revert s. induction t as [|t IH]; intros s H.
  - destruct s as [|a [|]]; try discriminate. reflexivity.
  - destruct s as [|a s]; [discriminate|]. change (cut (S t) (a :: s)) with (a :: cut t s).
    simpl. f_equal. apply IH. simpl in H. lia.
Qed.

Lemma ps_linked r s : r <= length s -> linked pnx inl (ps r s) (inr (pinit r s)).
Proof.
  revert s. induction r as [|r IH]; intros s H; [reflexivity|].
  simpl ps. destruct (length s) as [|m] eqn:Ls; [lia|].
  apply (linked_flat _ _ _ (fun t => (S m - t :: fst (pinit r (cut t s)), nth t s 0 :: cut t s))).
  - intros t Ht. apply hd_map with (f := fun cx => (S m - t :: fst cx, nth t s 0 :: snd cx)).
    apply ps_head. rewrite cut_length; lia.
  - intros t Ht. pose proof (cut_length t s ltac:(lia)) as L.
    eapply linked_map; [apply IH; lia|..].
    + intros [c x] [c' x'] _ E. unfold pnx in *. simpl in *. now rewrite E.
    + intros [c x] Hin E. unfold pnx in *. cbn [fst snd] in *.
      apply ps_lengths in Hin; [|lia]. destruct Hin as [Lc Lx].
      cbn [pnext fst snd]. rewrite E. unfold pinit at 1.
      destruct (Nat.eqb_spec (S m - t - 1) 0); [lia|].
      replace (S (length x) - (S m - t)) with t by lia.
      destruct (cut_next s t ltac:(lia)) as [-> ->].
      replace (S m - t - 1) with (S m - S t) by lia.
      unfold pinit. cbn [fst]. rewrite !cut_length by lia. reflexivity.
  - simpl Nat.add.
    pose proof (cut_length m s ltac:(lia)) as L.
    eapply linked_map; [apply IH; lia|..].
    + intros [c x] [c' x'] _ E. unfold pnx in *. simpl in *. now rewrite E.
    + intros [c x] Hin E. unfold pnx in *. cbn [fst snd] in *.
      apply ps_lengths in Hin; [|lia]. destruct Hin as [Lc Lx].
      cbn [pnext]. rewrite E. unfold pinit at 1.
      destruct (Nat.eqb_spec (S m - m - 1) 0); [|lia].
      rewrite cut_last by lia. rewrite Lx.
      destruct s as [|y s]; [discriminate|]. rewrite pinit_S. f_equal. f_equal.
      f_equal; [simpl in *; lia|]. unfold pinit. simpl.
      rewrite L. simpl. rewrite Nat.sub_0_r. reflexivity.
Qed.

(** The tuples of positions. *)
Definition ptuples (r : nat) (s : list nat) : list (list nat) :=
  map (fun cx => firstn r (snd cx)) (ps r s).

Lemma ptuples_S r s :
  ptuples (S r) s = flat_map (fun t => map (cons (nth t s 0)) (ptuples r (cut t s))) (seq 0 (length s)).
Proof.
  unfold ptuples. simpl ps. rewrite flat_map_concat_map, concat_map, map_map.
  rewrite flat_map_concat_map. f_equal. apply map_ext. intros t.
  rewrite !map_map. reflexivity.
Qed.

Lemma cut_in (s : list nat) t x : In x (cut t s) -> In x s.
Proof.
  unfold cut. rewrite in_app_iff. intros [H|H].
  - rewrite <- (firstn_skipn t s). apply in_or_app. now left.
  - rewrite <- (firstn_skipn (S t) s). apply in_or_app. now right.
Qed.

Lemma cut_split (s : list nat) t : t < length s -> s = firstn t s ++ nth t s 0 :: skipn (S t) s.
Proof. apply split_nth. Qed.

Lemma cut_perm (s : list nat) t : t < length s -> Permutation s (nth t s 0 :: cut t s).
Proof.
  intros H. rewrite (cut_split s t H) at 1. symmetry. apply Permutation_middle.
Qed.

Lemma cut_sorted (s : list nat) t : StronglySorted lt s -> StronglySorted lt (cut t s).
Proof.
  revert t. induction s as [|a s IH]; intros t H.
  - unfold cut. rewrite firstn_nil, skipn_nil. constructor.
  - inversion H as [|? ? H1 H2]. subst. destruct t as [|t]; [exact H1|].
    change (cut (S t) (a :: s)) with (a :: cut t s). constructor; auto.
    rewrite Forall_forall in *. intros x Hx. apply H2. eapply cut_in; eauto.
Qed.

Lemma ptuples_in r s t :
  NoDup s -> r <= length s ->
  In t (ptuples r s) <-> length t = r /\ NoDup t /\ incl t s.
Proof.
  revert s t. induction r as [|r IH]; intros s t ND H.
  - simpl. split.
    + intros [<-|[]]. repeat split; [constructor|]. intros x [].
    + intros (L & _). destruct t; [auto|discriminate].
  - rewrite ptuples_S, in_flat_map. split.
    + intros (k & Hk & Ht). apply in_seq in Hk. apply in_map_iff in Ht.
      destruct Ht as (u & <- & Hu).
      pose proof (cut_perm s k ltac:(lia)) as P.
      pose proof (Permutation_NoDup P ND) as ND'. inversion ND' as [|? ? N1 N2]. subst.
      apply IH in Hu; [|exact N2|rewrite cut_length; lia].
      destruct Hu as (H1 & H2 & H3). simpl. repeat split; [lia|..].
      * constructor; auto.
      * intros x [<-|Hx]; [apply nth_In; lia|]. eapply cut_in; eauto.
    + intros (L & N & I). destruct t as [|x t]; [discriminate|].
      inversion N as [|? ? N1 N2]. subst.
      destruct (In_nth s x 0 (I x (or_introl eq_refl))) as (k & Hk & E).
      exists k. split; [apply in_seq; lia|]. cbv beta. rewrite E. apply in_map.
      pose proof (cut_perm s k Hk) as P. rewrite E in P.
      pose proof (Permutation_NoDup P ND) as ND'. inversion ND' as [|? ? M1 M2]. subst.
      apply IH; [exact M2|rewrite cut_length; lia|]. simpl in L. repeat split; [lia|exact N2|].
      intros y Hy. assert (Hys : In y s) by (apply I; now right).
      apply (Permutation_in _ P) in Hys. destruct Hys as [Ey|]; [subst y; contradiction|assumption].
Qed.

Lemma sorted_nth (s : list nat) i j :
  StronglySorted lt s -> i < j -> j < length s -> nth i s 0 < nth j s 0.
Proof.
  intros H. revert i j. induction H as [|a s H IH HF]; intros i j Hij Hj; [simpl in Hj; lia|].
  destruct j as [|j]; [lia|]. simpl in Hj. destruct i as [|i]; simpl.
  - rewrite Forall_forall in HF. apply HF. apply nth_In. lia.
  - apply IH; lia.
Qed.

Lemma ptuples_sorted r s : StronglySorted lt s -> StronglySorted lexlt (ptuples r s).
Proof.
  revert s. induction r as [|r IH]; intros s H; [repeat constructor|].
  rewrite ptuples_S. apply sorted_flat.
  - intros i _. apply sorted_map_cons. apply IH. now apply cut_sorted.
  - intros i j a b _ Hij Hj Ha Hb. apply in_map_iff in Ha, Hb.
    destruct Ha as (? & <- & _), Hb as (? & <- & _). apply lex_here.
    apply sorted_nth; auto.
Qed.

(** The loop that looks for the place to advance. *)
Lemma perm_shift_ok q p x :
  perm_shift (p ++ x :: q) (length p) (length q) = Ok (p ++ removelast (q ++ [0]) ++ [last (x :: q) 0]).
Proof.
  revert p x. induction q as [|y q IH]; intros p x; [reflexivity|].
  simpl perm_shift. rewrite Nat.add_1_r.
  replace (p ++ x :: y :: q) with ((p ++ [x]) ++ y :: q) at 1 by now rewrite <- app_assoc.
  rewrite get_app' by (rewrite app_length; simpl; lia). cbn [bind].
  rewrite set_app. cbn [bind].
  specialize (IH (p ++ [y]) y). rewrite app_length in IH. simpl in IH.
  rewrite Nat.add_1_r in IH. rewrite <- app_assoc in IH. simpl in IH. rewrite IH.
  rewrite <- app_assoc. simpl. f_equal. f_equal. destruct (q ++ [0]) eqn:E.
  - destruct q; discriminate.
  - reflexivity.
Qed.

Lemma removelast_snoc {T} (q : list T) z : removelast (q ++ [z]) = q.
Proof. rewrite removelast_app by discriminate. simpl. apply app_nil_r. Qed.

Lemma set_last {T} (l : list T) z y n : n = length l -> set (l ++ [z]) n y = Ok (l ++ [y]).
Proof. intros ->. apply set_app. Qed.

Lemma get_nth (l : list nat) i : i < length l -> get l i = Ok (nth i l 0).
Proof. intros H. unfold get. now rewrite (nth_error_nth' l 0 H). Qed.

Lemma set_off {T} (p q : list T) i x :
  i < length q -> set (p ++ q) (length p + i) x = Ok (p ++ upd_nat q i x).
Proof.
  intros H. unfold set. rewrite app_length.
  destruct (Nat.ltb_spec (length p + i) (length p + length q)); [|lia].
  f_equal. clear. induction p; simpl; congruence.
Qed.

Lemma get_off {T} (p q : list T) i : get (p ++ q) (length p + i) = get q i.
Proof. unfold get. rewrite nth_error_app2 by lia. f_equal. now replace (length p + i - length p) with i by lia. Qed.

(** Counters that are within what is left of the indices. *)
Fixpoint cyc_ok (cs xs : list nat) : Prop :=
  match cs, xs with
  | [], _ => True
  | c :: cs, x :: xs => 1 <= c <= S (length xs) /\ cyc_ok cs xs
  | _ :: _, [] => False
  end.

Lemma cyc_ok_length cs xs : cyc_ok cs xs -> length cs <= length xs.
Proof.
  revert xs. induction cs as [|c cs IH]; intros xs H; [simpl; lia|].
  destruct xs as [|x xs]; [destruct H|]. destruct H as [_ H]. apply IH in H. simpl. lia.
Qed.

Lemma pnext_lengths cs xs :
  cyc_ok cs xs ->
  match pnext cs xs with inl (c', x') | inr (c', x') => length c' = length cs /\ length x' = length xs end.
Proof.
  revert xs. induction cs as [|c cs IH]; intros xs H; [simpl; auto|].
  destruct xs as [|x xs]; [destruct H|]. destruct H as [Hc H]. specialize (IH xs H).
  simpl. destruct (pnext cs xs) as [[c' x']|[c' x']].
  - simpl; lia.
  - destruct (c - 1 =? 0); simpl; rewrite ?app_length, ?upd_nat_length; simpl; lia.
Qed.

Lemma pnext_perm cs xs :
  cyc_ok cs xs ->
  match pnext cs xs with inl (_, x') | inr (_, x') => Permutation xs x' end.
Proof.
  revert xs. induction cs as [|c cs IH]; intros xs H; [simpl; auto|].
  destruct xs as [|x xs]; [destruct H|]. destruct H as [Hc H]. specialize (IH xs H).
  pose proof (pnext_lengths cs xs H) as HL.
  cbn [pnext]. destruct (pnext cs xs) as [[c' x']|[c' x']].
  - now constructor.
  - destruct (Nat.eqb_spec (c - 1) 0) as [E|E].
    + rewrite IH. apply Permutation_cons_append.
    + transitivity (x :: x'); [now constructor|]. destruct HL as [_ HL].
      assert (Hi : S (length xs) - c < length x') by lia.
      set (i := S (length xs) - c) in *.
      rewrite (upd_nat_split x' i x Hi). rewrite (split_nth 0 x' i Hi) at 1.
      transitivity (x :: nth i x' 0 :: firstn i x' ++ skipn (S i) x').
      * constructor. symmetry. apply Permutation_middle.
      * etransitivity; [apply perm_swap|]. constructor. apply Permutation_middle.
Qed.

Lemma emit_sub {A} (pool : list A) r ip xs rp rs :
  length rp = length ip -> length rp + length rs = r -> r <= length (ip ++ xs) ->
  Forall (fun i => i < length pool) (ip ++ xs) ->
  emit pool (ip ++ xs) (rp ++ rs) (length ip) (r - length ip) =
  Ok (rp ++ look pool (firstn (r - length ip) xs)).
Proof.
  intros H1 H2 H3 HF. rewrite app_length in H3.
  set (k := r - length ip).
  pose proof (emit_ok pool (firstn k xs) ip (skipn k xs) rp rs) as E.
  rewrite (firstn_skipn k xs) in E.
  assert (L : length (firstn k xs) = k) by (rewrite firstn_length; unfold k; lia).
  rewrite L in E. apply E.
  - exact H1.
  - unfold k. lia.
  - apply Forall_app in HF. destruct HF as [_ HF].
    rewrite <- (firstn_skipn k xs) in HF. apply Forall_app in HF. apply HF.
Qed.

Lemma look_firstn_app {A} (pool : list A) r ip xs :
  length ip <= r ->
  look pool (firstn r (ip ++ xs)) = look pool ip ++ look pool (firstn (r - length ip) xs).
Proof. intros H. rewrite firstn_app, firstn_all2 by lia. apply look_app. Qed.

Lemma perm_loop_ok {A} (pool : list A) n r cs cp ip xs :
  length cp = length ip -> n = length ip + length xs -> r = length cp + length cs ->
  cyc_ok cs xs -> Forall (fun i => i < length pool) (ip ++ xs) ->
  perm_loop pool n r (length cp + length cs) (ip ++ xs) (cp ++ cs)
            (look pool (firstn r (ip ++ xs))) =
  match pnext cs xs with
  | inl (cs', xs') =>
      Ok (true, (ip ++ xs', cp ++ cs', look pool (firstn r (ip ++ xs'))))
  | inr (cs', xs') =>
      perm_loop pool n r (length cp) (ip ++ xs') (cp ++ cs') (look pool (firstn r (ip ++ xs)))
  end.
Proof.
  revert cp ip xs. induction cs as [|c cs IH]; intros cp ip xs H1 Hn Hr HC HF.
  - simpl. now rewrite Nat.add_0_r.
  - destruct xs as [|x xs]; [destruct HC|]. destruct HC as [Hc HC].
    pose proof (pnext_lengths cs xs HC) as HL. pose proof (pnext_perm cs xs HC) as HP.
    pose proof (cyc_ok_length cs xs HC) as HCL.
    specialize (IH (cp ++ [c]) (ip ++ [x]) xs).
    rewrite !app_length in IH. simpl length in *. rewrite <- !app_assoc in IH. simpl app in IH.
    replace (length cp + 1 + length cs) with (length cp + S (length cs)) in IH by lia.
    rewrite IH; try lia; try assumption. clear IH.
    cbn [pnext]. destruct (pnext cs xs) as [[cs' xs']|[cs' xs']].
    + rewrite <- !app_assoc. reflexivity.
    + rewrite <- !app_assoc. simpl app. rewrite Nat.add_1_r. simpl perm_loop.
      rewrite get_app. cbn [bind]. rewrite set_app. cbn [bind].
      destruct HL as [HLc HLx].
      destruct (Nat.eqb_spec (c - 1) 0) as [E|E].
      * rewrite H1. rewrite get_app. cbn [bind].
        replace (n - 1 - length ip) with (length xs') by lia.
        rewrite perm_shift_ok. cbn [bind].
        rewrite removelast_snoc, app_assoc.
        rewrite set_last by (rewrite app_length; lia). cbn [bind].
        rewrite <- H1, set_app. cbn [bind].
        replace (n - length cp) with (S (length xs)) by lia.
        rewrite <- !app_assoc. reflexivity.
      * rewrite H1. rewrite get_app. cbn [bind].
        replace (n - (c - 1)) with (length (ip ++ [x]) + (S (length xs) - c))
          by (rewrite app_length; cbn [length]; lia).
        replace (ip ++ x :: xs') with ((ip ++ [x]) ++ xs') at 1 by now rewrite <- app_assoc.
        rewrite get_off. rewrite get_nth by lia. cbn [bind].
        rewrite set_app. cbn [bind].
        set (v := nth (S (length xs) - c) xs' 0).
        replace (ip ++ v :: xs') with ((ip ++ [v]) ++ xs') by now rewrite <- app_assoc.
        replace (length (ip ++ [x])) with (length (ip ++ [v])) by (rewrite !app_length; reflexivity).
        rewrite set_off by lia. cbn [bind].
        rewrite <- app_assoc. simpl app.
        rewrite (look_firstn_app pool r ip (x :: xs)) by lia.
        rewrite emit_sub.
        -- cbn [bind]. rewrite (look_firstn_app pool r ip) by lia. reflexivity.
        -- apply look_length.
        -- rewrite !look_length, firstn_length. cbn [length]. lia.
        -- rewrite app_length. cbn [length]. rewrite upd_nat_length. lia.
        -- assert (PP : Permutation (x :: xs) (v :: upd_nat xs' (S (length xs) - c) x)).
           { pose proof (pnext_perm (c :: cs) (x :: xs) (conj Hc HC)) as Q.
             assert (Hi : S (length xs) - c < length xs') by lia.
             unfold v. clear Q. revert Hi. generalize (S (length xs) - c). intros i Hi.
             rewrite (upd_nat_split xs' i x Hi). rewrite HP.
             rewrite (split_nth 0 xs' i Hi) at 1.
             transitivity (x :: nth i xs' 0 :: firstn i xs' ++ skipn (S i) xs').
             - constructor. symmetry. apply Permutation_middle.
             - etransitivity; [apply perm_swap|]. constructor. apply Permutation_middle. }
           eapply Permutation_Forall; [|exact HF]. now apply Permutation_app_head.
Qed.

Lemma ps_cyc_ok r s c x : r <= length s -> In (c, x) (ps r s) -> cyc_ok c x.
Proof.
  revert s c x. induction r as [|r IH]; intros s c x H Hin; simpl in Hin.
  - destruct Hin as [E|[]]. injection E as <- <-. exact I.
  - apply in_flat_map in Hin. destruct Hin as (t & Ht & Hin). apply in_seq in Ht.
    apply in_map_iff in Hin. destruct Hin as ([c' x'] & E & Hin). injection E as <- <-.
    pose proof (cut_length t s ltac:(lia)) as L.
    pose proof (ps_lengths r (cut t s) c' x' ltac:(lia) Hin) as [_ Lx].
    simpl. split; [simpl; lia|]. apply (IH (cut t s)); [lia|exact Hin].
Qed.

Lemma ps_perm r s c x : r <= length s -> In (c, x) (ps r s) -> Permutation s x.
Proof.
  revert s c x. induction r as [|r IH]; intros s c x H Hin; simpl in Hin.
  - destruct Hin as [E|[]]. injection E as <- <-. reflexivity.
  - apply in_flat_map in Hin. destruct Hin as (t & Ht & Hin). apply in_seq in Ht.
    apply in_map_iff in Hin. destruct Hin as ([c' x'] & E & Hin). injection E as <- <-.
    pose proof (cut_length t s ltac:(lia)) as L.
    etransitivity; [apply (cut_perm s t); lia|]. constructor. apply (IH _ c'); [lia|exact Hin].
Qed.

Lemma permutations_ok {A} (pool : list A) r :
  r <= length pool ->
  exists vs, Forall2 (at_positions pool) (ptuples r (seq 0 (length pool))) vs /\
    forall fuel, length (ptuples r (seq 0 (length pool))) <= fuel ->
      permutations fuel pool (Some (Z.of_nat r)) = Ok vs.
Proof.
  intros Hr. set (n := length pool). set (J := ptuples r (seq 0 n)).
  assert (Ls : length (seq 0 n) = n) by apply seq_length.
  assert (HS : forall c x, In (c, x) (ps r (seq 0 n)) -> Forall (fun i => i < n) x).
  { intros c x Hin. apply ps_perm in Hin; [|rewrite Ls; exact Hr].
    eapply Permutation_Forall; [exact Hin|]. apply Forall_forall. intros i Hi.
    apply in_seq in Hi. lia. }
  destruct (all_written_looks pool J) as (vs & F1 & F2).
  { intros t Ht. apply in_map_iff in Ht. destruct Ht as ([c x] & <- & Hin). cbn [snd].
    apply HS in Hin. rewrite <- (firstn_skipn r x) in Hin. apply Forall_app in Hin. apply Hin. }
  exists vs. split; [exact F2|]. intros fuel Hf.
  unfold permutations. destruct (Z.ltb_spec (Z.of_nat r) 0); [lia|].
  rewrite Nat2Z.id. fold n.
  destruct (Nat.ltb_spec n r); [unfold n in *; lia|].
  pose proof (init_cells_ok (repeat 0 n) n (fun i => i) []) as I1. simpl in I1.
  rewrite I1 by apply repeat_length. simpl. rewrite map_id.
  pose proof (init_cells_ok (repeat 0 r) r (fun i => n - i) []) as I3. simpl in I3.
  rewrite I3 by apply repeat_length. simpl.
  pose proof (init_result_ok pool r [] (repeat None r)) as I2. simpl in I2.
  rewrite I2 by (rewrite ?repeat_length; unfold n in *; lia). simpl.
  set (f := fun cx : list nat * list nat => (snd cx, fst cx, look pool (firstn r (snd cx)))).
  apply (drain_linked _ _ (map f (ps r (seq 0 n)))).
  - eapply linked_map; [apply ps_linked; rewrite Ls; exact Hr|..].
    + intros [c x] [c' x'] Hin E. unfold pnx in E. cbn [fst snd] in E.
      pose proof (ps_lengths r (seq 0 n) c x ltac:(lia) Hin) as [Lc Lx].
      unfold f, perm_step. cbn [fst snd].
      destruct (Nat.eqb_spec n 0) as [N|N].
      { assert (r = 0) by lia. subst r. destruct c; [|discriminate]. discriminate. }
      pose proof (perm_loop_ok pool n r c [] [] x) as P. simpl in P. rewrite Lc in P.
      rewrite P; auto; [|lia| |].
      * rewrite E. reflexivity.
      * eapply ps_cyc_ok; [|exact Hin]. lia.
      * eapply HS; eauto.
    + intros [c x] Hin E. unfold pnx in E. cbn [fst snd] in E.
      pose proof (ps_lengths r (seq 0 n) c x ltac:(lia) Hin) as [Lc Lx].
      unfold f, perm_step. cbn [fst snd].
      destruct (Nat.eqb_spec n 0) as [N|N]; [reflexivity|].
      pose proof (perm_loop_ok pool n r c [] [] x) as P. simpl in P. rewrite Lc in P.
      rewrite P; auto; [|lia| |].
      * rewrite E. reflexivity.
      * eapply ps_cyc_ok; [|exact Hin]. lia.
      * eapply HS; eauto.
  - rewrite (hd_map f _ (pinit r (seq 0 n))) by (apply ps_head; lia).
    unfold f, pinit. cbn [fst snd]. rewrite Ls. f_equal. f_equal. f_equal.
    replace (seq 0 n) with (seq 0 (r + (n - r))) by (f_equal; lia).
    rewrite seq_app, firstn_app, seq_length, Nat.sub_diag, firstn_O, app_nil_r.
    rewrite firstn_all2 by (rewrite seq_length; lia). reflexivity.
  - unfold J, ptuples in F1. clear -F1. revert F1. generalize (ps r (seq 0 n)) as L. intros L.
    revert vs. induction L as [|s L IH]; intros vs F1; inversion F1; subst; simpl; constructor; auto.
  - unfold J, ptuples in Hf. rewrite map_length in Hf |- *. exact Hf.
Qed.

(** ** product *)

Fixpoint choices {A} (pools : list (list A)) : list (list nat) :=
  match pools with
  | [] => [[]]
  | p :: t => flat_map (fun i => map (cons i) (choices t)) (seq 0 (length p))
  end.

Lemma choices_in {A} (pools : list (list A)) t : In t (choices pools) <-> is_choice pools t.
Proof.
  unfold is_choice. revert t. induction pools as [|p ps IH]; intros t; simpl.
  - split; [intros [<-|[]]; constructor|]. intros H. inversion H. now left.
  - rewrite in_flat_map. split.
    + intros (i & Hi & Ht). apply in_seq in Hi. apply in_map_iff in Ht.
      destruct Ht as (u & <- & Hu). constructor; [lia|]. now apply IH.
    + intros H. inversion H as [|i ? u ? Hi Hu]. subst.
      exists i. split; [apply in_seq; lia|]. apply in_map. now apply IH.
Qed.

Lemma choices_sorted {A} (pools : list (list A)) : StronglySorted lexlt (choices pools).
Proof.
  induction pools as [|p ps IH]; simpl; [repeat constructor|].
  apply sorted_flat.
  - intros i _. now apply sorted_map_cons.
  - intros i j a b _ Hij _ Ha Hb. apply in_map_iff in Ha, Hb.
    destruct Ha as (? & <- & _), Hb as (? & <- & _). now apply lex_here.
Qed.

Fixpoint onext {A} (pools : list (list A)) (ind : list nat) : list nat + list nat :=
  match pools, ind with
  | p :: ps, i :: is =>
      match onext ps is with
      | inl is' => inl (i :: is')
      | inr is' => if i + 1 =? length p then inr (0 :: is') else inl (i + 1 :: is')
      end
  | _, _ => inr ind
  end.

Lemma choices_head {A} (pools : list (list A)) :
  Forall (fun p => 0 < length p) pools ->
  hd_error (choices pools) = Some (repeat 0 (length pools)).
Proof.
  induction 1 as [|p ps Hp HF IH]; [reflexivity|]. simpl.
  destruct (length p); [lia|]. simpl. apply hd_app. now apply (hd_map (cons 0)).
Qed.

Lemma choices_linked {A} (pools : list (list A)) :
  Forall (fun p => 0 < length p) pools ->
  linked (onext pools) inl (choices pools) (inr (repeat 0 (length pools))).
Proof.
  induction 1 as [|p ps Hp HF IH]; [reflexivity|]. simpl choices.
  destruct (length p) as [|m] eqn:Lp; [lia|].
  apply (linked_flat _ _ _ (fun i => i :: repeat 0 (length ps))).
  - intros i _. apply hd_map. now apply choices_head.
  - intros i Hi. eapply linked_map; [exact IH|..].
    + intros a b _ E. simpl. now rewrite E.
    + intros a _ E. simpl. rewrite E, Lp.
      destruct (Nat.eqb_spec (i + 1) (S m)); [lia|]. now rewrite Nat.add_1_r.
  - eapply linked_map; [exact IH|..].
    + intros a b _ E. simpl. now rewrite E.
    + intros a _ E. simpl. rewrite E, Lp.
      destruct (Nat.eqb_spec (m + 1) (S m)); [reflexivity|lia].
Qed.

(** What the indices choose. *)
Lemma picks_ok {A} (pools : list (list A)) t :
  is_choice pools t -> exists v, picks pools t = Ok v /\ at_pools pools t v.
Proof.
  intros H. induction H as [|i p t ps Hi H (v & E & Hv)].
  - exists []. split; constructor.
  - destruct (get_look p i Hi) as (x & Ex & En).
    exists (x :: v). simpl. rewrite Ex. simpl. rewrite E. split; [reflexivity|]. now constructor.
Qed.

Lemma picks_list {A} (pools : list (list A)) J :
  (forall t, In t J -> is_choice pools t) ->
  exists vs, Forall2 (fun t v => picks pools t = Ok v) J vs /\ Forall2 (at_pools pools) J vs.
Proof.
  induction J as [|t J IH]; intros H; [exists []; split; constructor|].
  destruct IH as (vs & H1 & H2); [intros; apply H; now right|].
  destruct (picks_ok pools t) as (v & E & Hv); [apply H; now left|].
  exists (v :: vs). split; constructor; auto.
Qed.

Lemma sprod_loop_ok {A} (qs : list (list A)) ps is ip :
  length ip = length ps -> is_choice qs is ->
  sprod_loop (ps ++ qs) (length ps + length qs) (ip ++ is) =
  match onext qs is with
  | inl is' => Ok (true, ip ++ is')
  | inr is' => sprod_loop (ps ++ qs) (length ps) (ip ++ is')
  end.
Proof.
  revert ps is ip. induction qs as [|q qs IH]; intros ps is ip L H.
  - inversion H. subst. simpl. now rewrite Nat.add_0_r.
  - inversion H as [|i ? is' ? Hi H']. subst.
    specialize (IH (ps ++ [q]) is' (ip ++ [i])). rewrite !app_length in IH.
    rewrite <- !app_assoc in IH. simpl in IH.
    replace (length ps + 1 + length qs) with (length ps + S (length qs)) in IH by lia.
    simpl length. rewrite IH by (auto; lia). clear IH. simpl onext.
    destruct (onext qs is') as [u|u]; rewrite <- app_assoc; [reflexivity|].
    simpl app. rewrite (Nat.add_1_r (length ps)). simpl sprod_loop. rewrite get_app. cbn [bind].
    rewrite <- L, get_app. cbn [bind]. rewrite set_app. cbn [bind].
    destruct (i + 1 =? length q); [|reflexivity].
    rewrite set_app. reflexivity.
Qed.

Lemma prod_loop_ok {A} (qs : list (list A)) ps is ip rp rs :
  length ip = length ps -> length rp = length ps -> is_choice qs is ->
  picks qs is = Ok rs ->
  (forall is', onext qs is = inl is' -> exists rs', picks qs is' = Ok rs' /\
     prod_loop (ps ++ qs) (length ps + length qs) (ip ++ is) (rp ++ rs) =
       Ok (true, (ip ++ is', rp ++ rs'))) /\
  (forall is', onext qs is = inr is' -> exists rs', picks qs is' = Ok rs' /\
     prod_loop (ps ++ qs) (length ps + length qs) (ip ++ is) (rp ++ rs) =
       prod_loop (ps ++ qs) (length ps) (ip ++ is') (rp ++ rs')).
Proof.
  revert ps is ip rp rs. induction qs as [|q qs IH]; intros ps is ip rp rs L L' H Hp.
  - inversion H. subst. simpl in *. injection Hp as <-. split; [discriminate|].
    intros is' E. injection E as <-. exists []. split; [reflexivity|]. now rewrite Nat.add_0_r.
  - inversion H as [|i ? is0 ? Hi H']. subst. simpl in Hp.
    destruct (get_look q i Hi) as (x & Ex & _). rewrite Ex in Hp. simpl in Hp.
    destruct (picks qs is0) as [rs0| | |] eqn:Ep; try discriminate. simpl in Hp.
    injection Hp as <-.
    specialize (IH (ps ++ [q]) is0 (ip ++ [i]) (rp ++ [x]) rs0). rewrite !app_length in IH.
    rewrite <- !app_assoc in IH. simpl app in IH. simpl length in IH.
    replace (length ps + 1 + length qs) with (length ps + S (length qs)) in IH by lia.
    specialize (IH ltac:(lia) ltac:(lia) H' Ep). destruct IH as [IH1 IH2].
    simpl length. simpl onext. destruct (onext qs is0) as [u|u].
    + split; [|discriminate]. intros is' E. injection E as <-.
      destruct (IH1 u eq_refl) as (ru & E1 & E2). exists (x :: ru). split.
      * simpl. now rewrite Ex, E1.
      * rewrite E2. now rewrite <- !app_assoc.
    + destruct (IH2 u eq_refl) as (ru & E1 & E2). rewrite E2. clear E2 IH1 IH2.
      rewrite <- !app_assoc. simpl app. rewrite (Nat.add_1_r (length ps)). simpl prod_loop.
      rewrite get_app. cbn [bind]. rewrite <- L, get_app. cbn [bind]. rewrite set_app. cbn [bind].
      destruct (Nat.eqb_spec (i + 1) (length q)) as [N|N].
      * split; [discriminate|]. intros is' E. injection E as <-.
        rewrite set_app. cbn [bind].
        destruct (get_look q 0 ltac:(lia)) as (y & Ey & _). rewrite Ey. cbn [bind].
        rewrite set_app' by lia. cbn [bind].
        exists (y :: ru). split; [simpl; now rewrite Ey, E1|reflexivity].
      * split; [|discriminate]. intros is' E. injection E as <-.
        destruct (get_look q (i + 1) ltac:(lia)) as (y & Ey & _). rewrite Ey. cbn [bind].
        rewrite set_app' by lia. cbn [bind].
        exists (y :: ru). split; [simpl; now rewrite Ey, E1|reflexivity].
Qed.

(** Repeating the arguments. *)
Lemma copies_block {A} (w1 : list A) q w2 nargs rest :
  length w1 + length w2 = nargs ->
  copies nargs (q ++ w1 ++ w2) (length w1 + rest) = copies nargs (q ++ w1 ++ w2 ++ w1) rest.
Proof.
  revert q w2. induction w1 as [|x w1 IH]; intros q w2 H.
  - simpl. now rewrite app_nil_r.
  - simpl length in *. simpl copies.
    rewrite !app_length. simpl. rewrite get_app' by (rewrite ?app_length; simpl; lia). cbn [bind].
    specialize (IH (q ++ [x]) (w2 ++ [x])). rewrite app_length in IH. simpl in IH.
    rewrite <- !app_assoc in IH |- *. simpl in IH |- *. rewrite <- !app_assoc. simpl.
    rewrite IH by lia. rewrite <- !app_assoc. reflexivity.
Qed.

Lemma concat_repeat_snoc {A} (w : list A) m : concat (repeat w m) ++ w = w ++ concat (repeat w m).
Proof. induction m; simpl; [now rewrite app_nil_r|]. rewrite <- app_assoc, IHm. now rewrite !app_assoc. Qed.

Lemma copies_ok {A} (w : list A) m :
  copies (length w) w (length w * S m - length w) = Ok (concat (repeat w (S m))).
Proof.
  assert (G : forall m q, copies (length w) (q ++ w) (length w * m) = Ok (q ++ w ++ concat (repeat w m))).
  { clear m. induction m as [|m IH]; intros q.
    - rewrite Nat.mul_0_r. simpl. now rewrite app_nil_r.
    - pose proof (copies_block w q [] (length w) (length w * m)) as B.
      rewrite app_nil_r in B. simpl app in B.
      replace (length w * S m) with (length w + length w * m) by lia.
      rewrite B by (simpl; lia). rewrite app_assoc, IH. simpl. now rewrite <- app_assoc. }
  specialize (G m []). simpl in G.
  replace (length w * S m - length w) with (length w * m) by lia. exact G.
Qed.

Lemma firsts_picks {A} (pools : list (list A)) :
  firsts pools = picks pools (repeat 0 (length pools)).
Proof. induction pools as [|p ps IH]; simpl; [reflexivity|]. now rewrite IH. Qed.

Lemma nonempty_all {A} (l : list (list A)) :
  existsb (fun p => length p =? 0) l = false -> Forall (fun p => 0 < length p) l.
Proof.
  intros H. apply Forall_forall. intros p Hp.
  destruct (length p) eqn:E; [|lia].
  assert (X : existsb (fun p => length p =? 0) l = true).
  { apply existsb_exists. exists p. rewrite E. auto. }
  congruence.
Qed.

Lemma choices_empty {A} (pools : list (list A)) p :
  In p pools -> length p = 0 -> choices pools = [].
Proof.
  induction pools as [|q ps IH]; intros Hin E; [destruct Hin|]. simpl.
  destruct Hin as [->|Hin]; [now rewrite E|].
  rewrite IH by assumption. simpl. induction (seq 0 (length q)); auto.
Qed.

Lemma concat_repeat_length {A} (w : list A) m : length (concat (repeat w m)) = length w * m.
Proof. induction m; simpl; [lia|]. rewrite app_length, IHm. lia. Qed.

Lemma concat_repeat_forall {A} (P : A -> Prop) (w : list A) m :
  Forall P w -> Forall P (concat (repeat w m)).
Proof. intros H. induction m; simpl; [constructor|]. apply Forall_app. auto. Qed.

Lemma product_ok {A} (args : list (list A)) m :
  let pools := concat (repeat args m) in
  exists vs, Forall2 (at_pools pools) (choices pools) vs /\
    forall fuel, length (choices pools) <= fuel ->
      product fuel args (Z.of_nat m) = Ok vs.
Proof.
  intros pools.
  destruct (picks_list pools (choices pools)) as (vs & F1 & F2).
  { intros t Ht. now apply choices_in. }
  exists vs. split; [exact F2|]. intros fuel Hf.
  unfold product. destruct (Z.ltb_spec (Z.of_nat m) 0); [lia|]. rewrite Nat2Z.id.
  set (args' := if m =? 0 then [] else args).
  assert (EP : pools = concat (repeat args' m)).
  { unfold pools, args'. destruct (Nat.eqb_spec m 0); [subst; reflexivity|reflexivity]. }
  destruct (existsb _ args') eqn:Ex.
  - apply existsb_exists in Ex. destruct Ex as (p & Hp & E). apply Nat.eqb_eq in E.
    assert (C : choices pools = []).
    { apply (choices_empty _ p); [|exact E]. rewrite EP. unfold args' in *.
      destruct (Nat.eqb_spec m 0); [destruct Hp|]. destruct m; [congruence|].
      simpl. apply in_or_app. now left. }
    rewrite C in F1. inversion F1. reflexivity.
  - pose proof (nonempty_all _ Ex) as NE.
    assert (EC : copies (length args') args' (length args' * m - length args') = Ok pools).
    { rewrite EP. destruct m; [|apply copies_ok].
      unfold args'. simpl. reflexivity. }
    rewrite EC. cbn [bind].
    assert (NP : Forall (fun p => 0 < length p) pools) by (rewrite EP; now apply concat_repeat_forall).
    assert (LP : length args' * m = length pools) by (rewrite EP, concat_repeat_length; reflexivity).
    rewrite LP. clear EC LP EP Ex NE. clearbody pools. clear args args' m H.
    rewrite firsts_picks.
    assert (Z0 : In (repeat 0 (length pools)) (choices pools)).
    { pose proof (choices_head pools NP) as Hh. destruct (choices pools); [discriminate|].
      injection Hh as <-. now left. }
    destruct (picks_ok pools (repeat 0 (length pools))) as (v0 & E0 & _); [now apply choices_in|].
    rewrite E0. cbn [bind].
    set (f := fun t => (t, match picks pools t with Ok v => v | _ => [] end)).
    assert (Ef : (repeat 0 (length pools), v0) = f (repeat 0 (length pools))).
    { unfold f. now rewrite E0. }
    rewrite Ef.
    apply (drain_linked _ _ (map f (choices pools))).
    + eapply linked_map; [apply choices_linked; exact NP|..].
      * intros a b Ha E. apply choices_in in Ha. destruct (picks_ok pools a Ha) as (va & Ea & _).
        pose proof (prod_loop_ok pools [] a [] [] va eq_refl eq_refl Ha Ea) as [P _].
        destruct (P b E) as (vb & Eb & PL). simpl in PL.
        unfold f, prod_step. rewrite Ea, Eb. cbn [fst snd]. rewrite PL. reflexivity.
      * intros a Ha E. apply choices_in in Ha. destruct (picks_ok pools a Ha) as (va & Ea & _).
        pose proof (prod_loop_ok pools [] a [] [] va eq_refl eq_refl Ha Ea) as [_ P].
        destruct (P _ E) as (vb & Eb & PL). simpl in PL.
        unfold f, prod_step. rewrite Ea. rewrite PL. reflexivity.
    + apply hd_map. now apply choices_head.
    + clear -F1. induction F1 as [|t v J vs E F IH]; simpl; constructor; auto.
      unfold f. simpl. now rewrite E.
    + now rewrite map_length.
Qed.

Lemma product_static_gen {A} (args : list (list A)) m :
  let pools := concat (repeat args m) in
  exists vs, Forall2 (at_pools pools) (choices pools) vs /\
    forall fuel, length (choices pools) <= fuel -> m <> 0 ->
      (if existsb (fun p => length p =? 0) args then Ok []
       else drain fuel (sprod_step pools) (picks pools) (repeat 0 (length args * m))) = Ok vs.
Proof.
  intros pools.
  destruct (picks_list pools (choices pools)) as (vs & F1 & F2).
  { intros t Ht. now apply choices_in. }
  exists vs. split; [exact F2|]. intros fuel Hf Hm.
  destruct (existsb _ args) eqn:Ex.
  - apply existsb_exists in Ex. destruct Ex as (p & Hp & E). apply Nat.eqb_eq in E.
    assert (C : choices pools = []).
    { apply (choices_empty _ p); [|exact E]. unfold pools. destruct m; [congruence|].
      simpl. apply in_or_app. now left. }
    rewrite C in F1. inversion F1. reflexivity.
  - pose proof (nonempty_all _ Ex) as NE.
    assert (NP : Forall (fun p => 0 < length p) pools) by now apply concat_repeat_forall.
    unfold pools at 1. rewrite <- concat_repeat_length. fold pools.
    apply (drain_linked _ _ (choices pools)); [|now apply choices_head|exact F1|exact Hf].
    rewrite <- (map_id (choices pools)).
    eapply linked_map; [apply choices_linked; exact NP|..].
    + intros a b Ha E. apply choices_in in Ha. unfold sprod_step.
      pose proof (sprod_loop_ok pools [] a [] eq_refl Ha) as P. simpl in P. rewrite P, E. reflexivity.
    + intros a Ha E. apply choices_in in Ha. unfold sprod_step.
      pose proof (sprod_loop_ok pools [] a [] eq_refl Ha) as P. simpl in P. rewrite P, E. reflexivity.
Qed.
