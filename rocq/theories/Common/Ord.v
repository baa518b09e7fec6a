(** Strict weak orders (what [<] on keys must satisfy for sorting to make sense)
    and the specification of "sorted permutation". *)
From Coq Require Import List ZArith Lia Bool Permutation Sorted.
From Verif.Common Require Import Result Arr.
Import ListNotations.
Local Open Scope Z_scope.

(** [lt] is a strict weak order: a total preorder on keys, ties allowed. *)
Record strict_weak {A} (lt : A -> A -> bool) : Prop := {
  sw_irrefl : forall x, lt x x = false;
  sw_trans : forall x y z, lt x y = true -> lt y z = true -> lt x z = true;
  sw_negtrans : forall x y z, lt x y = false -> lt y z = false -> lt x z = false
}.

(** [l] is sorted: no later element is smaller than an earlier one. *)
Definition sorted_by {A} (lt : A -> A -> bool) (l : list A) : Prop :=
  StronglySorted (fun x y => lt y x = false) l.

(** The result of sorting. *)
Definition is_sort_of {A} (lt : A -> A -> bool) (input output : list A) : Prop :=
  Permutation input output /\ sorted_by lt output.

(** Stability: elements with equal keys keep their relative order. *)
Definition stable_sort_of {A} (lt : A -> A -> bool) (input output : list A) : Prop :=
  is_sort_of lt input output /\
  forall k, filter (fun x => negb (lt x k) && negb (lt k x)) output
          = filter (fun x => negb (lt x k) && negb (lt k x)) input.

Section Facts.
Context {A : Type} (lt : A -> A -> bool).
Context (d : A).
Notation zn := (@zn A d).

Lemma sw_asym : strict_weak lt -> forall x y, lt x y = true -> lt y x = false.
Proof.
  intros W x y H. destruct (lt y x) eqn:E; auto.
  pose proof (sw_trans lt W _ _ _ H E) as H1. rewrite (sw_irrefl lt W) in H1. discriminate.
Qed.

Definition sorted_rng (a : list A) (lo hi : Z) : Prop :=
  forall i j, lo <= i < j -> j < hi -> lt (zn a j) (zn a i) = false.

Lemma sorted_rng_sorted_by a : sorted_rng a 0 (zlen a) <-> sorted_by lt a.
Proof.
  unfold sorted_by. induction a as [|x t IH].
  - split; [constructor|]. intros _ i j H1 H2. unfold zlen in H2; simpl in H2. lia.
  - split.
    + intros H. constructor.
      * apply IH. intros i j H1 H2. specialize (H (i+1) (j+1)).
        unfold Arr.zn, zlen in *. simpl length in H.
        replace (Z.to_nat (i+1)) with (S (Z.to_nat i)) in H by lia.
        replace (Z.to_nat (j+1)) with (S (Z.to_nat j)) in H by lia.
        simpl in H. apply H; lia.
      * apply Forall_forall. intros y Hy. apply (In_nth _ _ d) in Hy.
        destruct Hy as (n & Hn & <-).
        specialize (H 0 (Z.of_nat n + 1)). unfold Arr.zn, zlen in *. simpl length in H.
        replace (Z.to_nat (Z.of_nat n + 1)) with (S n) in H by lia. simpl in H.
        apply H; lia.
    + intros H. inversion H as [|? ? Hs Hf]; subst. apply IH in Hs.
      rewrite Forall_forall in Hf.
      intros i j H1 H2. unfold Arr.zn, zlen in *. simpl length in H2.
      replace (Z.to_nat j) with (S (Z.to_nat (j-1))) by lia.
      destruct (Z.eq_dec i 0) as [->|Hi].
      * simpl. apply Hf. apply nth_In. lia.
      * replace (Z.to_nat i) with (S (Z.to_nat (i-1))) by lia. simpl.
        apply (Hs (i-1) (j-1)); lia.
Qed.

Lemma sorted_rng_weaken a lo hi lo' hi' :
  lo <= lo' -> hi' <= hi -> sorted_rng a lo hi -> sorted_rng a lo' hi'.
Proof. intros H1 H2 H i j Hi Hj. apply H; lia. Qed.

Lemma sorted_rng_ext a b lo hi :
  (forall i, lo <= i < hi -> zn b i = zn a i) -> sorted_rng a lo hi -> sorted_rng b lo hi.
Proof. intros E H i j Hi Hj. rewrite !E by lia. apply H; lia. Qed.

End Facts.
