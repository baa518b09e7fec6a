(** How many tuples each combinatoric iterator yields. *)
From Coq Require Import List ZArith Bool Arith Lia Factorial.
From Verif.Common Require Import Result.
From Verif.Itertools Require Import CombModel CombSpec CombProofs PermProofs.
Import ListNotations.

Lemma fact_S n : fact (S n) = S n * fact n.
Proof. reflexivity. Qed.

Lemma combs_count r k m :
  r <= m -> length (combs r k m) * (fact r * fact (m - r)) = fact m.
Proof.
  revert r k. induction m as [|m IH]; intros r k H.
  - replace r with 0 by lia. reflexivity.
  - destruct r as [|r].
    + simpl combs. rewrite Nat.sub_0_r. simpl length. change (fact 0) with 1. lia.
    + simpl combs. rewrite app_length, map_length.
      replace (S m - S r) with (m - r) by lia.
      pose proof (IH r (S k) ltac:(lia)) as I1.
      destruct (le_lt_dec (S r) m) as [Hm|Hm].
      * pose proof (IH (S r) (S k) Hm) as I2.
        replace (m - r) with (S (m - S r)) in * by lia.
        rewrite !fact_S in *. set (a := length (combs r (S k) m)) in *.
        set (b := length (combs (S r) (S k) m)) in *.
        set (f := fact r) in *. set (g := fact (m - S r)) in *.
        assert (E1 : a * (S r * f * (S (m - S r) * g)) = S r * fact m).
        { rewrite <- I1. ring. }
        assert (E2 : b * (S r * f * (S (m - S r) * g)) = S (m - S r) * fact m).
        { rewrite <- I2. ring. }
        rewrite Nat.mul_add_distr_r, E1, E2, <- Nat.mul_add_distr_r. f_equal. lia.
      * rewrite (combs_none (S r)) by lia. simpl length. rewrite Nat.add_0_r.
        assert (r = m) by lia. subst r. rewrite fact_S.
        rewrite Nat.sub_diag in *. set (c := length (combs m (S k) m)) in *.
        transitivity (S m * (c * (fact m * fact 0))); [ring|now rewrite I1].
Qed.

Lemma cwrs_S r k m :
  cwrs (S r) k (S m) = map (cons k) (cwrs r k (S m)) ++ cwrs (S r) (S k) m.
Proof.
  simpl. replace (k + S m - k) with (S m) by lia. f_equal.
  rewrite !flat_map_concat_map. f_equal. apply map_ext_in. intros i Hi. apply in_seq in Hi.
  replace (k + S m - i) with (S (k + m) - i) by lia. reflexivity.
Qed.

Lemma cwrs_count m r k :
  length (cwrs r k (S m)) * (fact r * fact m) = fact (r + m).
Proof.
  revert r k. induction m as [|m IHm]; intros r; induction r as [|r IHr]; intros k.
  - reflexivity.
  - rewrite cwrs_S, app_length, map_length. simpl (cwrs (S r) (S k) 0). simpl length at 2.
    rewrite Nat.add_0_r. specialize (IHr k). rewrite Nat.add_0_r in IHr.
    rewrite Nat.add_0_r, !fact_S. set (c := length (cwrs r k 1)) in *.
    transitivity (S r * (c * (fact r * fact 0))); [ring|now rewrite IHr].
  - simpl cwrs. simpl length. simpl Nat.add. change (fact 0) with 1. lia.
  - rewrite cwrs_S, app_length, map_length.
    specialize (IHr k). specialize (IHm (S r) (S k)).
    replace (S r + S m) with (S (r + S m)) by lia.
    replace (S r + m) with (r + S m) in IHm by lia.
    rewrite !fact_S in *.
    set (a := length (cwrs r k (S (S m)))) in *.
    set (b := length (cwrs (S r) (S k) (S m))) in *.
    assert (E1 : a * (S r * fact r * (S m * fact m)) = S r * fact (r + S m)).
    { rewrite <- IHr. ring. }
    assert (E2 : b * (S r * fact r * (S m * fact m)) = S m * fact (r + S m)).
    { rewrite <- IHm. ring. }
    rewrite Nat.mul_add_distr_r, E1, E2, <- Nat.mul_add_distr_r. f_equal; lia.
Qed.

Lemma flat_count {B} (f : nat -> list B) c L :
  (forall i, In i L -> length (f i) = c) -> length (flat_map f L) = length L * c.
Proof.
  induction L as [|i L IH]; intros H; [reflexivity|]. simpl. rewrite app_length, IH.
  - rewrite (H i) by now left. reflexivity.
  - intros j Hj. apply H. now right.
Qed.

(** [falling n r] is [n * (n-1) * ...], [r] factors. *)
Fixpoint falling (n r : nat) : nat :=
  match r with 0 => 1 | S r' => n * falling (n - 1) r' end.

Lemma ptuples_count r s : r <= length s -> length (ptuples r s) = falling (length s) r.
Proof.
  revert s. induction r as [|r IH]; intros s H; [reflexivity|].
  rewrite ptuples_S. simpl falling.
  rewrite (flat_count _ (falling (length s - 1) r)); [now rewrite seq_length|].
  intros i Hi. apply in_seq in Hi. rewrite map_length, IH; rewrite cut_length by lia; [reflexivity|lia].
Qed.

Lemma falling_fact n r : r <= n -> falling n r * fact (n - r) = fact n.
Proof.
  revert n. induction r as [|r IH]; intros n H; simpl falling.
  - rewrite Nat.sub_0_r. lia.
  - destruct n as [|n]; [lia|]. rewrite fact_S. replace (S n - 1) with n by lia.
    replace (S n - S r) with (n - r) by lia. rewrite <- (IH n) by lia. ring.
Qed.

Lemma ptuples_count_fact r s :
  r <= length s -> length (ptuples r s) * fact (length s - r) = fact (length s).
Proof. intros H. rewrite ptuples_count by exact H. now apply falling_fact. Qed.

Lemma choices_count {A} (pools : list (list A)) :
  length (choices pools) = fold_right (fun p n => length p * n) 1 pools.
Proof.
  induction pools as [|p ps IH]; [reflexivity|]. simpl.
  rewrite (flat_count _ (length (choices ps))); [now rewrite seq_length, IH|].
  intros i _. apply map_length.
Qed.

Lemma Forall2_len {A B} (R : A -> B -> Prop) l1 l2 : Forall2 R l1 l2 -> length l1 = length l2.
Proof. induction 1; simpl; congruence. Qed.

Lemma at_pools_det1 {A} (pools : list (list A)) t v v' :
  at_pools pools t v -> at_pools pools t v' -> v = v'.
Proof.
  intros H. revert v'. induction H; intros v' H'; inversion H'; subst; auto.
  f_equal; [congruence|auto].
Qed.

Lemma at_pools_det {A} (pools : list (list A)) J vs vs' :
  Forall2 (at_pools pools) J vs -> Forall2 (at_pools pools) J vs' -> vs = vs'.
Proof.
  intros F. revert vs'. induction F; intros vs' F'; inversion F'; subst; auto.
  f_equal; [eapply at_pools_det1; eauto|auto].
Qed.

(** The product by nested loops. *)
Fixpoint nested {A} (pools : list (list A)) : list (list A) :=
  match pools with
  | [] => [[]]
  | p :: ps => flat_map (fun x => map (cons x) (nested ps)) p
  end.

Lemma at_pools_nested {A} (pools : list (list A)) :
  Forall2 (at_pools pools) (choices pools) (nested pools).
Proof.
  induction pools as [|p ps IH]; [repeat constructor|]. simpl.
  assert (G : forall p0 k, (forall j x, nth_error p0 j = Some x -> nth_error p (k + j) = Some x) ->
    Forall2 (at_pools (p :: ps)) (flat_map (fun i => map (cons i) (choices ps)) (seq k (length p0)))
      (flat_map (fun x => map (cons x) (nested ps)) p0)).
  { induction p0 as [|x p0 IH0]; intros k H; simpl; [constructor|].
    apply Forall2_app.
    - specialize (H 0 x eq_refl). rewrite Nat.add_0_r in H.
      clear -IH H. induction IH; simpl; constructor; auto. now constructor.
    - apply IH0. intros j y Hj. specialize (H (S j) y Hj).
      now rewrite Nat.add_succ_r in H. }
  apply (G p 0). auto.
Qed.

Lemma nested1 {A} (a : list A) : map (fun x => [x]) a = nested [a].
Proof. simpl. induction a; simpl; congruence. Qed.

Lemma flat_ext {A B} (f g : A -> list B) l : (forall x, f x = g x) -> flat_map f l = flat_map g l.
Proof. intros H. induction l; simpl; congruence. Qed.

Lemma nested2 {A} (a b : list A) :
  flat_map (fun x => map (fun y => [x; y]) b) a = nested [a; b].
Proof.
  change (nested [a; b]) with (flat_map (fun x => map (cons x) (nested [b])) a).
  rewrite <- nested1. apply flat_ext. intros x. now rewrite map_map.
Qed.

Lemma map_flat {A B C} (g : B -> C) (f : A -> list B) l :
  map g (flat_map f l) = flat_map (fun x => map g (f x)) l.
Proof. induction l; simpl; [reflexivity|]. now rewrite map_app, IHl. Qed.

Lemma nested3 {A} (a b c : list A) :
  flat_map (fun x => flat_map (fun y => map (fun z => [x; y; z]) c) b) a = nested [a; b; c].
Proof.
  change (nested [a; b; c]) with (flat_map (fun x => map (cons x) (nested [b; c])) a).
  rewrite <- nested2. apply flat_ext. intros x. rewrite map_flat.
  apply flat_ext. intros y. now rewrite map_map.
Qed.
