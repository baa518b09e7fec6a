(** Arrays as lists indexed by [Z], with bounds-checked accesses.
    Models Codon's [Array[T]] / [Ptr[T]] element accesses:
    /repo/stdlib/internal/types/array.codon and ptr.codon [__getitem__],
    [__setitem__], which do no bounds checks; an access outside is [Undef]. *)
From Coq Require Import List ZArith Lia Bool Permutation.
From Verif.Common Require Import Result.
Import ListNotations.
Local Open Scope Z_scope.

Section Arr.
Context {A : Type}.

Definition zlen (a : list A) : Z := Z.of_nat (length a).

Definition aget (a : list A) (i : Z) : res A :=
  if i <? 0 then Undef
  else match nth_error a (Z.to_nat i) with Some x => Ok x | None => Undef end.

Fixpoint upd_nat (a : list A) (n : nat) (x : A) : list A :=
  match a, n with
  | [], _ => []
  | _ :: t, O => x :: t
  | y :: t, S n => y :: upd_nat t n x
  end.

Definition upd (a : list A) (i : Z) (x : A) : list A := upd_nat a (Z.to_nat i) x.

Definition aset (a : list A) (i : Z) (x : A) : res (list A) :=
  if (i <? 0) || (zlen a <=? i) then Undef else Ok (upd a i x).

(** [arr[i], arr[j] = arr[j], arr[i]] *)
Definition aswap (a : list A) (i j : Z) : res (list A) :=
  bind (aget a i) (fun x => bind (aget a j) (fun y =>
  bind (aset a i y) (fun a1 => aset a1 j x))).

(** Total view with a default element, used only in proofs. *)
Context (d : A).
Definition zn (a : list A) (i : Z) : A := nth (Z.to_nat i) a d.

Lemma zlen_nonneg a : 0 <= zlen a.
Proof. unfold zlen; lia. Qed.

Lemma upd_nat_length a n x : length (upd_nat a n x) = length a.
Proof. revert n; induction a as [|y t IH]; intros [|n]; simpl; auto. Qed.

Lemma zlen_upd a i x : zlen (upd a i x) = zlen a.
Proof. unfold zlen, upd. now rewrite upd_nat_length. Qed.

Lemma nth_upd_nat a n m x :
  (n < length a)%nat ->
  nth m (upd_nat a n x) d = if Nat.eqb m n then x else nth m a d.
Proof.
  revert n m; induction a as [|y t IH]; intros n m Hn; simpl in Hn; [lia|].
  destruct n as [|n]; destruct m as [|m]; simpl; auto.
  apply IH. lia.
Qed.

Lemma zn_upd a i j x :
  0 <= i < zlen a -> 0 <= j ->
  zn (upd a i x) j = if j =? i then x else zn a j.
Proof.
  intros Hi Hj. unfold zn, upd, zlen in *.
  rewrite nth_upd_nat by lia.
  destruct (Nat.eqb_spec (Z.to_nat j) (Z.to_nat i)); destruct (Z.eqb_spec j i);
    auto; lia.
Qed.

Lemma zn_upd_same a i x : 0 <= i < zlen a -> zn (upd a i x) i = x.
Proof. intros. rewrite zn_upd by lia. now rewrite Z.eqb_refl. Qed.

Lemma zn_upd_other a i j x :
  0 <= i < zlen a -> 0 <= j -> j <> i -> zn (upd a i x) j = zn a j.
Proof.
  intros. rewrite zn_upd by lia. destruct (Z.eqb_spec j i); auto; lia.
Qed.

Lemma aget_ok a i : 0 <= i < zlen a -> aget a i = Ok (zn a i).
Proof.
  intros H. unfold aget, zn, zlen in *.
  destruct (Z.ltb_spec i 0); [lia|].
  rewrite (nth_error_nth' a d) by lia. reflexivity.
Qed.

Lemma aget_inv a i x : aget a i = Ok x -> 0 <= i < zlen a /\ x = zn a i.
Proof.
  unfold aget, zn, zlen. destruct (Z.ltb_spec i 0); [discriminate|].
  destruct (nth_error a (Z.to_nat i)) eqn:E; [|discriminate].
  intros H1; inversion H1; subst. split.
  - assert (Z.to_nat i < length a)%nat by (apply nth_error_Some; congruence). lia.
  - symmetry. now apply nth_error_nth.
Qed.

Lemma aset_ok a i x : 0 <= i < zlen a -> aset a i x = Ok (upd a i x).
Proof.
  intros H. unfold aset.
  destruct (Z.ltb_spec i 0); [lia|]. destruct (Z.leb_spec (zlen a) i); [lia|].
  reflexivity.
Qed.

Definition swp (a : list A) (i j : Z) : list A := upd (upd a i (zn a j)) j (zn a i).

Lemma aswap_ok a i j :
  0 <= i < zlen a -> 0 <= j < zlen a -> aswap a i j = Ok (swp a i j).
Proof.
  intros Hi Hj. unfold aswap, swp.
  rewrite !aget_ok by assumption. simpl.
  rewrite aset_ok by assumption. simpl.
  rewrite aset_ok; [reflexivity|]. now rewrite zlen_upd.
Qed.

Lemma zlen_swp a i j : zlen (swp a i j) = zlen a.
Proof. unfold swp. now rewrite !zlen_upd. Qed.

Lemma zn_swp a i j k :
  0 <= i < zlen a -> 0 <= j < zlen a -> 0 <= k ->
  zn (swp a i j) k = if k =? j then zn a i else if k =? i then zn a j else zn a k.
Proof.
  intros. unfold swp. rewrite zn_upd by (rewrite ?zlen_upd; lia).
  destruct (k =? j); auto. now rewrite zn_upd by lia.
Qed.

Lemma list_eq_zn a b :
  zlen a = zlen b -> (forall i, 0 <= i < zlen a -> zn a i = zn b i) -> a = b.
Proof.
  intros Hl H. unfold zlen in *. apply (nth_ext _ _ d d); [lia|].
  intros n Hn. specialize (H (Z.of_nat n)). unfold zn in H.
  rewrite Nat2Z.id in H. apply H. lia.
Qed.

(** Splitting at an index. *)
Lemma upd_nat_split a n x :
  (n < length a)%nat -> upd_nat a n x = firstn n a ++ x :: skipn (S n) a.
Proof.
  revert n; induction a as [|y t IH]; intros [|n] H; simpl in *; try lia; auto.
  rewrite IH by lia. reflexivity.
Qed.

Lemma split_nth a n : (n < length a)%nat -> a = firstn n a ++ nth n a d :: skipn (S n) a.
Proof.
  revert n; induction a as [|y t IH]; intros [|n] H; simpl in *; try lia; auto.
  f_equal. apply IH. lia.
Qed.

(** Replacing one cell is a permutation up to the replaced elements. *)
Lemma upd_perm_cons a i x :
  0 <= i < zlen a -> Permutation (zn a i :: upd a i x) (x :: a).
Proof.
  intros H. unfold zn, upd, zlen in *.
  rewrite upd_nat_split by lia.
  rewrite (split_nth a (Z.to_nat i)) at 4 by lia.
  set (l := firstn _ a). set (r := skipn _ a). set (y := nth _ a d).
  transitivity (x :: y :: l ++ r).
  - transitivity (y :: x :: l ++ r); [|apply perm_swap].
    apply perm_skip. symmetry. apply Permutation_middle.
  - apply perm_skip. apply Permutation_middle.
Qed.

Lemma swp_perm a i j :
  0 <= i < zlen a -> 0 <= j < zlen a -> Permutation (swp a i j) a.
Proof.
  intros Hi Hj. unfold swp.
  pose proof (upd_perm_cons (upd a i (zn a j)) j (zn a i)) as H1.
  rewrite zlen_upd in H1. specialize (H1 Hj).
  pose proof (upd_perm_cons a i (zn a j) Hi) as H2.
  assert (E : zn (upd a i (zn a j)) j = zn a j).
  { rewrite zn_upd by lia. destruct (Z.eqb_spec j i); subst; auto. }
  rewrite E in H1.
  apply (Permutation_cons_inv (a := zn a j)).
  rewrite H1. exact H2.
Qed.

(** Moving the "hole" of an array: writing cell [i] into cell [j] and then
    regarding [i] as the hole keeps the multiset (hole filled with [x]). *)
Lemma hole_move_perm a i j x :
  0 <= i < zlen a -> 0 <= j < zlen a -> i <> j ->
  Permutation (upd (upd a j (zn a i)) i x) (upd a j x).
Proof.
  intros Hi Hj Hne.
  pose proof (upd_perm_cons (upd a j (zn a i)) i x) as H1.
  rewrite zlen_upd in H1. specialize (H1 Hi).
  rewrite zn_upd_other in H1 by lia.
  pose proof (upd_perm_cons a j x Hj) as H2.
  pose proof (upd_perm_cons a j (zn a i) Hj) as H3.
  apply (Permutation_cons_inv (a := zn a i)).
  rewrite H1.
  apply (Permutation_cons_inv (a := zn a j)).
  transitivity (x :: zn a j :: upd a j (zn a i)); [apply perm_swap|].
  rewrite H3.
  transitivity (zn a i :: zn a j :: upd a j x); [|apply perm_swap].
  rewrite H2. apply perm_swap.
Qed.

Lemma upd_upd_same a i x y : upd (upd a i x) i y = upd a i y.
Proof.
  unfold upd. generalize (Z.to_nat i) as n. clear i.
  induction a as [|z t IH]; intros [|n]; simpl; auto. now rewrite IH.
Qed.

Lemma upd_self a i : 0 <= i < zlen a -> upd a i (zn a i) = a.
Proof.
  intros H. apply list_eq_zn; [apply zlen_upd|].
  rewrite zlen_upd. intros k Hk. rewrite zn_upd by lia.
  destruct (Z.eqb_spec k i); subst; auto.
Qed.

(** Sub-ranges. *)
Definition zsub (a : list A) (lo hi : Z) : list A :=
  firstn (Z.to_nat (hi - lo)) (skipn (Z.to_nat lo) a).

Lemma zsub_length a lo hi :
  0 <= lo <= hi -> hi <= zlen a -> length (zsub a lo hi) = Z.to_nat (hi - lo).
Proof.
  intros. unfold zsub, zlen in *. rewrite firstn_length, skipn_length. lia.
Qed.

Lemma nth_firstn_lt (l : list A) n k : (k < n)%nat -> nth k (firstn n l) d = nth k l d.
Proof.
  revert n k; induction l as [|x t IH]; intros [|n] [|k] H; simpl; auto; try lia.
  apply IH; lia.
Qed.

Lemma nth_skipn (l : list A) n k : nth k (skipn n l) d = nth (n + k) l d.
Proof.
  revert n; induction l as [|x t IH]; intros [|n]; simpl; auto.
  destruct k; reflexivity.
Qed.

Lemma zn_zsub a lo hi i :
  0 <= lo -> 0 <= i < hi - lo -> zn (zsub a lo hi) i = zn a (lo + i).
Proof.
  intros H1 H2. unfold zn, zsub. rewrite nth_firstn_lt by lia.
  rewrite nth_skipn. f_equal. lia.
Qed.

Lemma skipn_skipn' (l : list A) n m : skipn n (skipn m l) = skipn (n + m) l.
Proof.
  revert l; induction m as [|m IH]; intros l; [now rewrite Nat.add_0_r|].
  rewrite Nat.add_succ_r. destruct l; [now rewrite !skipn_nil|]. simpl. apply IH.
Qed.

Lemma zsub_split3 a lo hi :
  0 <= lo <= hi -> hi <= zlen a ->
  a = zsub a 0 lo ++ zsub a lo hi ++ zsub a hi (zlen a).
Proof.
  intros H1 H2. unfold zsub, zlen in *.
  rewrite Z.sub_0_r. simpl skipn.
  rewrite <- (firstn_skipn (Z.to_nat lo) a) at 1. f_equal.
  rewrite <- (firstn_skipn (Z.to_nat (hi - lo)) (skipn (Z.to_nat lo) a)) at 1. f_equal.
  rewrite skipn_skipn'.
  replace (Z.to_nat (hi - lo) + Z.to_nat lo)%nat with (Z.to_nat hi) by lia.
  rewrite firstn_all2; [reflexivity|]. rewrite skipn_length. lia.
Qed.

Lemma zsub_ext a b lo hi :
  0 <= lo <= hi -> hi <= zlen a -> hi <= zlen b ->
  (forall i, lo <= i < hi -> zn a i = zn b i) -> zsub a lo hi = zsub b lo hi.
Proof.
  intros H1 H2 H3 H. apply list_eq_zn; unfold zlen.
  - rewrite !zsub_length by lia. lia.
  - rewrite zsub_length by lia. intros i Hi. rewrite !zn_zsub by lia. apply H. lia.
Qed.

Lemma in_zsub a lo hi x :
  0 <= lo <= hi -> hi <= zlen a ->
  In x (zsub a lo hi) <-> exists i, lo <= i < hi /\ zn a i = x.
Proof.
  intros H1 H2. split.
  - intros H. apply (In_nth _ _ d) in H. destruct H as (n & Hn & E).
    rewrite zsub_length in Hn by lia.
    exists (lo + Z.of_nat n). split; [lia|].
    rewrite <- E. pose proof (zn_zsub a lo hi (Z.of_nat n)) as Z1.
    rewrite <- Z1 by lia. unfold zn. now rewrite Nat2Z.id.
  - intros (i & Hi & E). subst x.
    replace i with (lo + (i - lo)) by lia.
    rewrite <- (zn_zsub a lo hi) by lia.
    unfold zn. apply nth_In. rewrite zsub_length by lia. lia.
Qed.

(** A permutation that leaves everything outside [lo,hi) alone permutes [lo,hi). *)
Definition same_out (a b : list A) (lo hi : Z) : Prop :=
  forall i, 0 <= i < zlen a -> i < lo \/ hi <= i -> zn b i = zn a i.

Lemma perm_local a b lo hi :
  0 <= lo <= hi -> hi <= zlen a -> Permutation a b -> same_out a b lo hi ->
  Permutation (zsub a lo hi) (zsub b lo hi).
Proof.
  intros H1 H2 HP HS.
  assert (HL : zlen b = zlen a).
  { unfold zlen. now rewrite (Permutation_length HP). }
  assert (E1 : zsub b 0 lo = zsub a 0 lo).
  { apply zsub_ext; try lia. intros; apply HS; lia. }
  assert (E2 : zsub b hi (zlen b) = zsub a hi (zlen a)).
  { rewrite HL. apply zsub_ext; try lia. intros; apply HS; lia. }
  rewrite (zsub_split3 a lo hi) in HP by lia.
  rewrite (zsub_split3 b lo hi) in HP by lia.
  rewrite E1, E2 in HP.
  apply Permutation_app_inv_l in HP. now apply Permutation_app_inv_r in HP.
Qed.

Lemma perm_range_forall (P : A -> Prop) a b lo hi :
  0 <= lo <= hi -> hi <= zlen a -> Permutation a b -> same_out a b lo hi ->
  (forall i, lo <= i < hi -> P (zn a i)) -> forall i, lo <= i < hi -> P (zn b i).
Proof.
  intros H1 H2 HP HS H i Hi.
  assert (HL : zlen b = zlen a).
  { unfold zlen. now rewrite (Permutation_length HP). }
  pose proof (perm_local a b lo hi H1 H2 HP HS) as HQ.
  assert (HI : In (zn b i) (zsub b lo hi)).
  { apply in_zsub; try lia. eauto. }
  apply (Permutation_in _ (Permutation_sym HQ)) in HI.
  apply in_zsub in HI; try lia. destruct HI as (k & Hk & E). rewrite <- E. auto.
Qed.

Lemma same_out_refl a lo hi : same_out a a lo hi.
Proof. intros i _ _. reflexivity. Qed.

Lemma same_out_trans a b c lo hi :
  zlen b = zlen a -> same_out a b lo hi -> same_out b c lo hi -> same_out a c lo hi.
Proof. intros HL H1 H2 i Hi Ho. rewrite H2 by lia. apply H1; auto. Qed.

Lemma same_out_weaken a b lo hi lo' hi' :
  lo' <= lo -> hi <= hi' -> same_out a b lo hi -> same_out a b lo' hi'.
Proof. intros H1 H2 H i Hi Ho. apply H; lia. Qed.

Lemma perm_zlen a b : Permutation a b -> zlen b = zlen a.
Proof. intros H. unfold zlen. now rewrite (Permutation_length H). Qed.

End Arr.
