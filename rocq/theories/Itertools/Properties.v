(** C51: the combinatoric iterators enumerate exactly what they promise. *)
From Coq Require Import List ZArith Bool Arith Lia Factorial Sorting.Sorted.
From Verif.Common Require Import Result.
From Verif.Itertools Require Import CombModel CombSpec CombProofs PermProofs CountProofs.
Import ListNotations.

(** combinations(pool, r): the combinations of positions, each once, in
    lexicographic order, and as many as the binomial coefficient says. *)
Theorem C51_combinations A (pool : list A) r :
  exists J vs,
    enumerates (is_combination (length pool) r) J /\
    Forall2 (at_positions pool) J vs /\
    (r <= length pool -> length vs * (fact r * fact (length pool - r)) = fact (length pool)) /\
    forall fuel, length J <= fuel -> combinations fuel pool (Z.of_nat r) = Ok vs.
Proof.
  assert (EN : enumerates (is_combination (length pool) r) (combs r 0 (length pool))).
  { split; [apply combs_sorted|]. intros t. rewrite combs_in. unfold is_combination, positions.
    simpl. split.
    - intros (H1 & H2 & H3). repeat split; auto. eapply Forall_impl; [|exact H2]. simpl. lia.
    - intros ((H1 & H2) & H3). repeat split; auto. eapply Forall_impl; [|exact H2]. simpl. lia. }
  destruct (le_lt_dec r (length pool)) as [H|H].
  - destruct (combinations_ok pool r H) as (vs & F & E).
    exists (combs r 0 (length pool)), vs. repeat split; try apply EN; auto.
    intros _. rewrite <- (Forall2_len _ _ _ F). now apply combs_count.
  - exists (combs r 0 (length pool)), []. rewrite combs_none in * by exact H.
    split; [exact EN|]. split; [constructor|]. split; [lia|]. intros fuel _.
    unfold combinations. destruct (Z.ltb_spec (Z.of_nat r) 0); [lia|]. rewrite Nat2Z.id.
    destruct (Nat.ltb_spec (length pool) r); [reflexivity|lia].
Qed.

(** combinations_with_replacement(pool, r). *)
Theorem C51_with_replacement A (pool : list A) r :
  exists J vs,
    enumerates (is_multiset (length pool) r) J /\
    Forall2 (at_positions pool) J vs /\
    (0 < length pool ->
     length vs * (fact r * fact (length pool - 1)) = fact (r + (length pool - 1))) /\
    forall fuel, length J <= fuel ->
      combinations_with_replacement fuel pool (Z.of_nat r) = Ok vs.
Proof.
  destruct (cwr_ok pool r) as (vs & F & E).
  exists (cwrs r 0 (length pool)), vs. split; [|split; [|split]]; auto.
  - split; [apply cwrs_sorted|]. intros t. rewrite cwrs_in. unfold is_multiset, positions.
    simpl. split.
    + intros (H1 & H2 & H3). repeat split; auto. eapply Forall_impl; [|exact H2]. simpl. lia.
    + intros ((H1 & H2) & H3). repeat split; auto. eapply Forall_impl; [|exact H2]. simpl. lia.
  - intros H. rewrite <- (Forall2_len _ _ _ F). destruct (length pool) as [|m]; [lia|].
    replace (S m - 1) with m by lia. apply cwrs_count.
Qed.

(** permutations(pool, r); without [r], all the elements are arranged. *)
Theorem C51_permutations A (pool : list A) r :
  exists J vs,
    enumerates (is_arrangement (length pool) r) J /\
    Forall2 (at_positions pool) J vs /\
    (r <= length pool -> length vs * fact (length pool - r) = fact (length pool)) /\
    forall fuel, length J <= fuel ->
      permutations fuel pool (Some (Z.of_nat r)) = Ok vs /\
      (r = length pool -> permutations fuel pool None = Ok vs).
Proof.
  assert (ND : NoDup (seq 0 (length pool))) by apply seq_NoDup.
  assert (SO : forall m k, StronglySorted lt (seq k m)).
  { induction m; intros k; simpl; constructor; auto. apply Forall_forall. intros x Hx.
    apply in_seq in Hx. lia. }
  destruct (le_lt_dec r (length pool)) as [H|H].
  - destruct (permutations_ok pool r H) as (vs & F & E).
    exists (ptuples r (seq 0 (length pool))), vs.
    split; [|split; [|split]]; auto.
    + split; [now apply ptuples_sorted|]. intros t.
      rewrite ptuples_in by (rewrite ?seq_length; auto).
      unfold is_arrangement, positions. split.
      * intros (H1 & H2 & H3). repeat split; auto. apply Forall_forall. intros x Hx.
        apply H3, in_seq in Hx. lia.
      * intros ((H1 & H2) & H3). repeat split; auto. intros x Hx. apply in_seq.
        rewrite Forall_forall in H2. specialize (H2 x Hx). lia.
    + intros _. rewrite <- (Forall2_len _ _ _ F).
      pose proof (ptuples_count_fact r (seq 0 (length pool))) as C. rewrite seq_length in C. auto.
    + intros fuel Hf. split; [now apply E|]. intros ->. exact (E fuel Hf).
  - exists [], []. split; [|split; [constructor|split; [lia|]]].
    + split; [constructor|]. intros t. split; [intros []|]. intros ((H1 & H2) & H3). exfalso.
      assert (I : incl t (seq 0 (length pool))).
      { intros x Hx. apply in_seq. rewrite Forall_forall in H2. specialize (H2 x Hx). lia. }
      pose proof (NoDup_incl_length H3 I) as L. rewrite seq_length in L. lia.
    + intros fuel _. split; [|lia].
      unfold permutations. destruct (Z.ltb_spec (Z.of_nat r) 0); [lia|]. rewrite Nat2Z.id.
      destruct (Nat.ltb_spec (length pool) r); [reflexivity|lia].
Qed.

(** product( *iterables, repeat=m), with a run-time and with a literal [m]. *)
Theorem C51_product A (iterables : list (list A)) m :
  let pools := concat (repeat iterables m) in
  exists J vs,
    enumerates (is_choice pools) J /\
    Forall2 (at_pools pools) J vs /\
    length vs = fold_right (fun p n => length p * n) 1 pools /\
    forall fuel, length J <= fuel ->
      product fuel iterables (Z.of_nat m) = Ok vs /\ product_static fuel iterables m = Ok vs.
Proof.
  intros pools. destruct (product_ok iterables m) as (vs & F & E).
  destruct (product_static_gen iterables m) as (vs' & F' & E').
  fold pools in F, E, F', E'.
  assert (EV : vs' = vs).
  { eapply at_pools_det; eauto. }
  subst vs'. exists (choices pools), vs. split; [|split; [|split]]; auto.
  - split; [apply choices_sorted|]. apply choices_in.
  - rewrite <- (Forall2_len _ _ _ F). apply choices_count.
  - intros fuel Hf. split; [now apply E|].
    destruct m as [|[|m]].
    + simpl in pools. unfold pools in F. simpl in F. inversion F as [|? ? ? ? P Q]. inversion P.
      inversion Q. reflexivity.
    + assert (EP : pools = iterables) by (unfold pools; simpl; apply app_nil_r).
      rewrite EP in *. destruct iterables as [|a [|b [|c [|d l]]]].
      * exact (E' fuel Hf ltac:(lia)).
      * unfold product_static. f_equal. rewrite nested1.
        eapply at_pools_det; [apply at_pools_nested|exact F].
      * unfold product_static. f_equal. rewrite nested2.
        eapply at_pools_det; [apply at_pools_nested|exact F].
      * unfold product_static. f_equal. rewrite nested3.
        eapply at_pools_det; [apply at_pools_nested|exact F].
      * specialize (E' fuel Hf ltac:(lia)). rewrite <- EP in E' at 2 3. exact E'.
    + exact (E' fuel Hf ltac:(lia)).
Qed.

(** A negative [r] or [repeat] is refused. *)
Theorem C51_negative A (pool : list A) (iterables : list (list A)) r fuel :
  (r < 0)%Z ->
  combinations fuel pool r = Raise ValueError /\
  combinations_with_replacement fuel pool r = Raise ValueError /\
  permutations fuel pool (Some r) = Raise ValueError /\
  product fuel iterables r = Raise ValueError.
Proof.
  intros H. unfold combinations, combinations_with_replacement, permutations, product.
  assert (E : (r <? 0)%Z = true) by now apply Z.ltb_lt. rewrite E. auto.
Qed.

Example C51_combinations_ex :
  combinations 10 [7; 8; 9; 7] 2 =
  Ok [[7; 8]; [7; 9]; [7; 7]; [8; 9]; [8; 7]; [9; 7]].
Proof. reflexivity. Qed.

Example C51_with_replacement_ex :
  combinations_with_replacement 10 [7; 8; 9] 2 =
  Ok [[7; 7]; [7; 8]; [7; 9]; [8; 8]; [8; 9]; [9; 9]].
Proof. reflexivity. Qed.

Example C51_permutations_ex :
  permutations 10 [7; 8; 9] None =
  Ok [[7; 8; 9]; [7; 9; 8]; [8; 7; 9]; [8; 9; 7]; [9; 7; 8]; [9; 8; 7]] /\
  permutations 10 [7; 8; 9] (Some 2%Z) = Ok [[7; 8]; [7; 9]; [8; 7]; [8; 9]; [9; 7]; [9; 8]].
Proof. split; reflexivity. Qed.

Example C51_product_ex :
  product 10 [[1; 2]; [5; 6; 7]] 1 = Ok [[1; 5]; [1; 6]; [1; 7]; [2; 5]; [2; 6]; [2; 7]] /\
  product_static 20 [[1; 2]] 3 =
    Ok [[1; 1; 1]; [1; 1; 2]; [1; 2; 1]; [1; 2; 2]; [2; 1; 1]; [2; 1; 2]; [2; 2; 1]; [2; 2; 2]] /\
  product 10 [[1; 2]; []] 2 = Ok [] /\ product 10 [[1; 2]; []] 0 = Ok [[]].
Proof. repeat split. Qed.

Print Assumptions C51_combinations.
Print Assumptions C51_with_replacement.
Print Assumptions C51_permutations.
Print Assumptions C51_product.
Print Assumptions C51_negative.
