(** Proofs about the C3 merge. *)
From Coq Require Import List Bool Arith Lia.
From Verif.Common Require Import Result.
From Verif.Parser Require Import Mro.
Import ListNotations.

(** [sub s r]: [s] is a subsequence of [r] (same order, not necessarily adjacent). *)
Inductive sub {A} : list A -> list A -> Prop :=
| sub_nil : forall r, sub [] r
| sub_take : forall x s r, sub s r -> sub (x :: s) (x :: r)
| sub_skip : forall x s r, sub s r -> sub s (x :: r).

Lemma sub_in {A} (s r : list A) x : sub s r -> In x s -> In x r.
Proof. induction 1; intros I; [destruct I| |right; auto]. destruct I as [->|I]; [left; auto|right; auto]. Qed.
Lemma sub_refl {A} (s : list A) : sub s s.
Proof. induction s; constructor; auto. Qed.
Lemma sub_app_l {A} (p s r : list A) : sub s r -> sub s (p ++ r).
Proof. induction p; cbn; auto. intros. constructor. auto. Qed.
Lemma sub_tail {A} (x : A) s r : sub (x :: s) r -> sub s r.
Proof.
  intros H. remember (x :: s) as l. revert x s Heql. induction H; intros y u E; [discriminate| |].
  - injection E as -> ->. constructor. auto.
  - constructor. eapply IHsub; eauto.
Qed.
Lemma sub_nodup {A} (s r : list A) : sub s r -> NoDup r -> NoDup s.
Proof.
  induction 1; intros N; [constructor| |].
  - inversion N; subst. constructor; auto. intros I. apply H2. eapply sub_in; eauto.
  - inversion N; subst. auto.
Qed.
(** the elements after the head of a subsequence come after it *)
Lemma sub_cons_split {A} (x : A) s r : sub (x :: s) r -> exists p q, r = p ++ x :: q /\ sub s q.
Proof.
  intros H. remember (x :: s) as l. revert x s Heql. induction H; intros y u E; [discriminate| |].
  - injection E as -> ->. exists [], r. auto.
  - destruct (IHsub y u E) as (p & q & -> & S). exists (x :: p), q. auto.
Qed.

Lemma in_tail_ok x seqs : in_tail x seqs = true <-> exists h t, In (h :: t) seqs /\ In x t.
Proof.
  unfold in_tail. rewrite existsb_exists. split.
  - intros (s & I & H). destruct s as [|h t]; [discriminate|]. apply existsb_exists in H. destruct H as (y & J & E).
    apply Nat.eqb_eq in E. subst y. eauto.
  - intros (h & t & I & J). exists (h :: t). split; auto. apply existsb_exists. exists x. split; auto. apply Nat.eqb_refl.
Qed.
Lemma candidate_some seqs all c : candidate seqs all = Some c -> in_tail c all = false /\ exists t, In (c :: t) seqs.
Proof.
  induction seqs as [|[|x s] seqs IH]; cbn; intros H; [discriminate| |].
  - destruct (IH H) as (A & t & B). eauto.
  - destruct (in_tail x all) eqn:E.
    + destruct (IH H) as (A & t & B). eauto.
    + injection H as ->. eauto.
Qed.
Lemma candidate_none seqs all : candidate seqs all = None -> forall x t, In (x :: t) seqs -> in_tail x all = true.
Proof.
  induction seqs as [|[|y s] seqs IH]; cbn; intros H x t I; [destruct I| |].
  - destruct I as [I|I]; [discriminate|eauto].
  - destruct (in_tail y all) eqn:E; [|discriminate]. destruct I as [I|I]; [injection I as -> ->; auto|eauto].
Qed.
Lemma found_ok seqs : found seqs = true <-> exists x t, In (x :: t) seqs.
Proof.
  unfold found. rewrite existsb_exists. split.
  - intros ([|x t] & I & H); [discriminate|]. eauto.
  - intros (x & t & I). exists (x :: t). auto.
Qed.
Lemma erase_in c seqs s : In s (erase c seqs) -> In s seqs \/ In (c :: s) seqs.
Proof.
  unfold erase. intros I. apply in_map_iff in I. destruct I as ([|x t] & E & I); [subst; auto|].
  destruct (Nat.eqb c x) eqn:X; subst; auto. apply Nat.eqb_eq in X. subst. auto.
Qed.
Lemma erase_total c seqs t : In (c :: t) seqs -> total (erase c seqs) < total seqs.
Proof.
  assert (T : forall s seqs, total (s :: seqs) = length s + total seqs) by reflexivity.
  assert (R : forall s seqs, erase c (s :: seqs) = match s with x :: t => if Nat.eqb c x then t else s | [] => [] end :: erase c seqs) by reflexivity.
  assert (LE : forall seqs, total (erase c seqs) <= total seqs).
  { induction seqs0 as [|s0 seqs0 IH]; [cbn; lia|]. rewrite R, !T.
    destruct s0 as [|x s0]; [lia|]. destruct (Nat.eqb c x); cbn [length]; lia. }
  induction seqs as [|s seqs IH]; intros I; [destruct I|]. rewrite R, !T.
  destruct I as [->|I].
  - specialize (LE seqs). rewrite Nat.eqb_refl. cbn [length]. lia.
  - specialize (IH I). destruct s as [|x s]; [lia|]. destruct (Nat.eqb c x); cbn [length]; lia.
Qed.

(** [r] is consistent with all the sequences: it contains each as a subsequence, has no
    repetition and nothing else. *)
Definition linear (seqs : list (list nat)) (r : list nat) : Prop :=
  NoDup r /\ (forall s, In s seqs -> sub s r) /\ (forall x, In x r -> exists s, In s seqs /\ In x s).

Lemma linear_step c seqs r t : in_tail c seqs = false -> In (c :: t) seqs -> linear (erase c seqs) r -> linear seqs (c :: r).
Proof.
  intros NT I (N & S & E).
  assert (NC : forall s, In s (erase c seqs) -> ~ In c s).
  { intros s J K. apply Bool.not_true_iff_false in NT. apply NT. apply in_tail_ok.
    unfold erase in J. apply in_map_iff in J. destruct J as ([|x u] & Q & J); [subst; destruct K|].
    destruct (Nat.eqb c x) eqn:X.
    - subst s. exists x, u. auto.
    - subst s. destruct K as [K|K]; [apply Nat.eqb_neq in X; congruence|]. exists x, u. auto. }
  split; [|split].
  - constructor; auto. intros K. destruct (E c K) as (s & J & L). eapply NC; eauto.
  - intros s J. destruct s as [|x u]; [constructor|].
    assert (J' : In (if Nat.eqb c x then u else x :: u) (erase c seqs)).
    { unfold erase. apply in_map_iff. exists (x :: u). auto. }
    destruct (Nat.eqb c x) eqn:X.
    + apply Nat.eqb_eq in X. subst x. apply sub_take. auto.
    + apply sub_skip. auto.
  - intros x [->|K]; [exists (x :: t); split; [auto|left; auto]|].
    destruct (E x K) as (s & J & L). apply erase_in in J. destruct J as [J|J]; [eauto|]. exists (c :: s). split; auto. right; auto.
Qed.

(** if some order is consistent, then so it is for what is left, and there is a candidate *)
Definition consistent (seqs : list (list nat)) : Prop := exists r, NoDup r /\ forall s, In s seqs -> sub s r.

Lemma consistent_candidate seqs : consistent seqs -> found seqs = true -> candidate seqs seqs <> None.
Proof.
  intros (r & N & S) F C. apply found_ok in F. destruct F as (x0 & t0 & I0).
  (* the head that comes first in r *)
  assert (M : exists p x t q, r = p ++ x :: q /\ In (x :: t) seqs /\ forall y u, In (y :: u) seqs -> ~ In y p).
  { assert (G : forall r', (exists p, r = p ++ r' /\ forall y u, In (y :: u) seqs -> ~ In y p) ->
       (exists y u, In (y :: u) seqs /\ In y r') ->
       exists p x t q, r = p ++ x :: q /\ In (x :: t) seqs /\ forall y u, In (y :: u) seqs -> ~ In y p).
    { induction r' as [|z r' IH]; intros (p & E & P) (y & u & I & J); [destruct J|].
      destruct (existsb (fun s => match s with h :: _ => Nat.eqb h z | [] => false end) seqs) eqn:X.
      - apply existsb_exists in X. destruct X as ([|h v] & K & L); [discriminate|]. apply Nat.eqb_eq in L. subst h.
        exists p, z, v, r'. auto.
      - assert (NZ : forall h v, In (h :: v) seqs -> h <> z).
        { intros h v K ->. apply Bool.not_true_iff_false in X. apply X. apply existsb_exists. exists (z :: v). split; auto. apply Nat.eqb_refl. }
        apply IH.
        + exists (p ++ [z]). split; [rewrite <- app_assoc; exact E|]. intros h v K L. apply in_app_or in L.
          destruct L as [L|[L|[]]]; [eapply P; eauto|]. subst. eapply NZ; eauto.
        + exists y, u. split; auto. destruct J as [J|J]; auto. subst. exfalso. eapply NZ; eauto. }
    apply (G r).
    - exists []. split; auto.
    - exists x0, t0. split; auto. eapply sub_in; [apply S; eauto|left; auto]. }
  destruct M as (p & x & t & q & E & I & P).
  pose proof (candidate_none _ _ C x t I) as T. apply in_tail_ok in T. destruct T as (h & u & J & K).
  (* h comes before x in r, so h is in p *)
  destruct (sub_cons_split h u r (S _ J)) as (a & b & Eab & Sb).
  pose proof (sub_in _ _ _ Sb K) as Kb.
  apply (P h u J). apply in_split in Kb. destruct Kb as (b1 & b2 & ->).
  assert (E2 : p ++ x :: q = (a ++ h :: b1) ++ x :: b2) by (rewrite <- app_assoc; cbn; congruence).
  assert (p = a ++ h :: b1); [|subst; apply in_or_app; right; left; auto].
  rewrite E in N. clear -N E2. revert p N E2. generalize (a ++ h :: b1). intros l p. revert l.
  induction p as [|z p IH]; intros l N E2; destruct l as [|w l]; cbn in *; auto.
  - injection E2 as -> ->. exfalso. inversion N; subst. apply H1. apply in_or_app. right; left; auto.
  - injection E2 as -> <-. exfalso. inversion N; subst. apply H1. apply in_or_app. right; left; auto.
  - injection E2 as -> E2. inversion N; subst. f_equal. apply IH; auto.
Qed.
Lemma consistent_erase c seqs : consistent seqs -> consistent (erase c seqs).
Proof.
  intros (r & N & S). exists r. split; auto. intros s I. apply erase_in in I. destruct I as [I|I]; auto.
  apply (sub_tail c). auto.
Qed.

Lemma linear_nil seqs : found seqs = false -> linear seqs [].
Proof.
  intros F. split; [constructor|]. split; [|intros x []].
  intros [|x t] I; [constructor|]. exfalso. apply Bool.not_true_iff_false in F. apply F. apply found_ok. eauto.
Qed.

(** the merge as a recursive function, for the proofs *)
Lemma merge_spec : forall n seqs acc, total seqs < n ->
  exists r, loop n (fun '(seqs, result) =>
       if negb (found seqs) then Ok (inr result)
       else match candidate seqs seqs with
            | None => Ok (inr [])
            | Some c => Ok (inl (erase c seqs, result ++ [c]))
            end) (seqs, acc) = Ok r
    /\ ((consistent seqs /\ exists l, r = acc ++ l /\ linear seqs l) \/ (~ consistent seqs /\ r = [])).
Proof.
  induction n as [|n IH]; intros seqs acc L; [lia|]. cbn [loop].
  destruct (found seqs) eqn:F; cbn [negb].
  - destruct (candidate seqs seqs) as [c|] eqn:C.
    + destruct (candidate_some _ _ _ C) as (T & t & I).
      pose proof (erase_total c seqs t I).
      destruct (IH (erase c seqs) (acc ++ [c]) ltac:(lia)) as (r & E & H2). exists r. split; [exact E|].
      destruct H2 as [[K (l & -> & Ln)]|[K ->]].
      * left. pose proof (linear_step c seqs l t T I Ln) as Lc. split.
        { destruct Lc as (N & S & _). exists (c :: l). auto. }
        exists (c :: l). rewrite <- app_assoc. auto.
      * right. split; auto. intros X. apply K, consistent_erase, X.
    + exists []. split; auto. right. split; auto. intros X. eapply consistent_candidate; eauto.
  - exists acc. split; auto. left. pose proof (linear_nil seqs F) as K. split.
    + exists []. destruct K as (N & S & _). auto.
    + exists []. rewrite app_nil_r. auto.
Qed.
Lemma mergeC3_ok seqs : exists r, mergeC3 seqs = Ok r
    /\ ((consistent seqs /\ linear seqs r) \/ (~ consistent seqs /\ r = [])).
Proof.
  destruct (merge_spec (S (total seqs)) seqs [] ltac:(lia)) as (r & E & H). exists r. split; [exact E|].
  destruct H as [[K (l & -> & Ln)]|H]; auto.
Qed.
