(** C09, C10: deques. *)
From Coq Require Import List ZArith Lia Bool ZifyBool.
From Verif.Common Require Import Result Int64 Arr Tac.
From Verif.Deque Require Import Model Spec Proofs.
Import ListNotations.
Local Open Scope Z_scope.
Local Open Scope res_scope.
Local Arguments Z.pow : simpl never.

Section Properties.
Context {T : Type}.

(** C09: a deque built from any iterable and put through any history of operations returns
    exactly what a sequence would, raises IndexError exactly when a sequence would, never
    reads outside its array or a cell not written, and lists the sequence's elements. *)
Theorem C09_deque_is_a_sequence : forall (init : list T) (os : list (dop T)),
  exists d0 d, of_iter init = Ok d0 /\
    run d0 os = Ok (fst (spec_drun None init os), d) /\
    items d = Ok (snd (spec_drun None init os)) /\ len d = size (snd (spec_drun None init os)).
Proof.
  intros init os. unfold of_iter.
  destruct (append_all_ok init new [] new_repr eq_refl) as (d0 & E & M & R). simpl in R, M.
  assert (B : bound_of d0 = None) by (unfold bound_of; now rewrite M).
  destruct (run_ok os d0 init R) as (d & E1 & R1 & _); try (rewrite B; exact I).
  rewrite B in E1, R1. exists d0, d. split; auto. split; auto. split; [now apply items_ok|].
  rewrite (len_ok _ _ R1). reflexivity.
Qed.

(** A negative [maxlen] means no bound. *)
Theorem C09_negative_maxlen_is_unbounded : forall (m : Z) (os : list (dop T)), m < 0 ->
  exists d0 d, new_maxlen m = Ok d0 /\
    run d0 os = Ok (fst (spec_drun None [] os), d) /\ items d = Ok (snd (spec_drun None [] os)).
Proof.
  intros m os Hm. destruct (@new_maxlen_ok T m) as (d0 & E & M & R); [lia|].
  assert (B : bound_of d0 = None) by (unfold bound_of; rewrite M; now replace (0 <=? m) with false by lia).
  destruct (run_ok os d0 [] R) as (d & E1 & R1 & _); try (rewrite B; exact I).
  rewrite B in E1, R1. exists d0, d. split; auto. split; auto. now apply items_ok.
Qed.

(** C10: a deque bounded by [m] keeps the [m] most recent elements through any history,
    for every [m] that is not one less than a power of two. *)
Theorem C10_bounded_deque_partial : forall (m : Z) (os : list (dop T)),
  0 <= m <= 2^62 -> (forall k, 0 <= k -> m <> 2^k - 1) ->
  exists d0 d, new_maxlen m = Ok d0 /\
    run d0 os = Ok (fst (spec_drun (Some m) [] os), d) /\
    items d = Ok (snd (spec_drun (Some m) [] os)) /\ len d <= m.
Proof.
  intros m os Hm Hk. destruct (@new_maxlen_ok T m) as (d0 & E & M & R); [lia|].
  assert (B : bound_of d0 = Some m) by (unfold bound_of; rewrite M; now replace (0 <=? m) with true by lia).
  destruct (run_ok os d0 [] R) as (d & E1 & R1 & W1).
  - rewrite B. split; [lia|]. intros k Hj. specialize (Hk k Hj). lia.
  - rewrite B. simpl. change (zlen (@nil T)) with 0. lia.
  - rewrite B in *. exists d0, d. split; auto. split; auto. split; [now apply items_ok|]. rewrite (len_ok _ _ R1). exact W1.
Qed.

(** For [m = 2^k - 1] the bound fails: the ring is exactly full when element [m + 1] arrives,
    the length wraps to 0 and nothing is dropped. *)
Lemma append_small k j (d : dq T) xs x : ring j d xs -> zlen xs < 2^j -> j <= k -> maxlen d = 2^k - 1 ->
  zlen xs + 1 <= 2^k ->
  exists d' j', append d x = Ok d' /\ maxlen d' = 2^k - 1 /\ ring j' d' (xs ++ [x]) /\ zlen xs + 1 < 2^j' /\
    (zlen xs + 1 < 2^k -> j' <= k).
Proof.
  intros R L Hjk M Hk. pose proof (r_j _ _ _ R) as Hj. pose proof (pw j Hj) as P. pose proof (zlen_nonneg xs) as Z0.
  unfold append. destruct (append_core j d xs x R L) as (a & -> & R1). cbn [bind]. cbv zeta.
  set (d1 := D a (head d) (Z.land (tail d + 1) (mask d)) (maxlen d)) in *.
  assert (M1 : maxlen d1 = 2^k - 1) by exact M.
  rewrite (len_mod j d1 _ R1), M1, zlen_app1. pose proof (pw k ltac:(lia)).
  assert (2^j <= 2^k) by (apply Z.pow_le_mono_r; lia).
  assert (NP : (zlen xs + 1) mod 2^j <= 2^k - 1) by (pose proof (Z.mod_pos_bound (zlen xs + 1) (2^j) P); lia).
  replace ((0 <=? 2 ^ k - 1) && (2 ^ k - 1 <? (zlen xs + 1) mod 2 ^ j)) with false by lia. cbn [bind].
  rewrite (empty_iff j d1 _ R1), zlen_app1.
  destruct (Z.eq_dec (zlen xs + 1) (2^j)) as [E|N].
  - rewrite E, Z.mod_same by lia. change (0 =? 0) with true. cbn iota.
    destruct (double_cap_ok j d1 (xs ++ [x]) R1) as (d' & E' & M' & R'); [now rewrite zlen_app1|].
    assert (2^(j+1) = 2 * 2^j) by (rewrite Z.pow_add_r by lia; lia).
    exists d', (j + 1). split; auto. split; [congruence|]. split; auto. split; [lia|].
    intros L2. destruct (Z.eq_dec j k) as [->|]; lia.
  - rewrite Z.mod_small by lia. replace (zlen xs + 1 =? 0) with false by lia.
    exists d1, j. split; auto. split; auto. split; auto. split; auto. lia.
Qed.

Lemma append_all_small k l : forall (d : dq T) j xs, ring j d xs -> zlen xs < 2^j -> j <= k -> maxlen d = 2^k - 1 ->
  zlen xs + zlen l <= 2^k -> exists d', append_all d l = Ok d' /\ repr d' (xs ++ l).
Proof.
  induction l as [|x l IH]; intros d j xs R L Hjk M Hk; cbn [append_all].
  - exists d. split; auto. rewrite app_nil_r. exists j. auto.
  - rewrite zlen_cons1 in Hk. pose proof (zlen_nonneg l).
    destruct (append_small k j d xs x R L Hjk M) as (d1 & j1 & -> & M1 & R1 & L1 & K1); [lia|]. cbn [bind].
    destruct l as [|y l].
    + exists d1. split; auto. exists j1. split; auto. now rewrite zlen_app1.
    + rewrite zlen_cons1 in Hk. pose proof (zlen_nonneg l).
      destruct (IH d1 j1 (xs ++ [x]) R1) as (d2 & E2 & R2); auto.
      * now rewrite zlen_app1.
      * apply K1. lia.
      * rewrite zlen_app1, zlen_cons1. lia.
      * exists d2. split; auto. now rewrite <- app_assoc in R2.
Qed.

Lemma cap_loop_le k fuel : forall j m, 0 <= j -> (Z.of_nat fuel > 63 - j) -> m <= 2^k - 1 -> j <= k <= 62 ->
  exists i, 0 <= i <= k /\ cap_loop fuel (2^j) m = Ok (2^i).
Proof.
  induction fuel as [|fuel IH]; intros j m Hj F Hm Hj2; [lia|]. cbn [cap_loop].
  destruct (Z.ltb_spec (2^j) m) as [Lt|Ge]; [|exists j; split; auto; lia].
  assert (j < k) by (apply (Z.pow_lt_mono_r_iff 2); lia).
  assert (E : 2^j * 2 = 2^(j + 1)) by (rewrite Z.pow_add_r by lia; lia).
  assert (2^(j + 1) <= 2^62) by (apply Z.pow_le_mono_r; lia).
  rewrite w64_id by (unfold in64, min64, max64; pose proof (pw j Hj); lia). rewrite E.
  apply IH; lia.
Qed.

Theorem C10_bound_one_less_than_power_refuted : forall (k : Z) (l : list T),
  0 <= k <= 62 -> size l = 2^k ->
  exists d0 d, new_maxlen (2^k - 1) = Ok d0 /\ append_all d0 l = Ok d /\
    items d = Ok l /\ len d = (2^k - 1) + 1.
Proof.
  intros k l Hk Hl. destruct (cap_loop_le k 64 0 (2^k - 1)) as (i & Hi & E); try lia.
  change (2^0) with 1 in E. unfold new_maxlen. rewrite E. cbn [bind].
  eexists. destruct (append_all_small k l (D (cells (2^i)) 0 0 (2^k - 1)) i []) as (d & Ed & R); auto.
  - destruct (@new_repr_pow T i (2^k - 1)) as (j & Rj & Lj); [lia|].
    assert (j = i).
    { pose proof (r_cap _ _ _ Rj) as C. unfold cap in C. cbn [arr] in C. unfold zlen, cells in C. rewrite repeat_length in C.
      pose proof (pw i ltac:(lia)). rewrite Z2Nat.id in C by lia.
      symmetry. apply (Z.pow_inj_r 2); try lia. apply Rj. }
    now subst.
  - change (zlen (@nil T)) with 0. apply pw. lia.
  - lia.
  - change (zlen (@nil T)) with 0. unfold size in Hl. unfold zlen. lia.
  - exists d. split; [reflexivity|]. split; auto. split; [now apply items_ok|]. rewrite (len_ok _ _ R).
    unfold size in Hl. unfold zlen. simpl. lia.
Qed.
End Properties.
Print Assumptions C09_deque_is_a_sequence.
Print Assumptions C09_negative_maxlen_is_unbounded.
Print Assumptions C10_bounded_deque_partial.
Print Assumptions C10_bound_one_less_than_power_refuted.

(** The hypotheses hold of ordinary cases. *)
Example C09_example :
  bind (of_iter [1;2;3]) (fun d => bind (run d [DAppendLeft 0; DPop; DIndex (-1); DIndex 7; DAppend 9; DItems; DClear; DPopLeft; DLen])
    (fun r => Ok (fst r)))
  = Ok [DVNone; DVElem 3; DVElem 2; DVExn IndexError; DVNone; DVItems [0;1;2;9]; DVNone; DVExn IndexError; DVInt 0].
Proof. vm_compute. reflexivity. Qed.
(** wrapping around and growing past the initial capacity *)
Example C09_example_wrap :
  bind (of_iter (map Z.of_nat (seq 0 15))) (fun d =>
  bind (run d (repeat DPopLeft 10 ++ map DAppend (map Z.of_nat (seq 100 20)) ++ [DIndex 24; DLen]))
    (fun r => Ok (skipn 30 (fst r)))) = Ok [DVElem 119; DVInt 25].
Proof. vm_compute. reflexivity. Qed.
Example C10_example_hypothesis : (0 <= 5 <= 2^62) /\ forall k, 0 <= k -> 5 <> 2^k - 1.
Proof.
  split; [lia|]. intros k Hk E. destruct (Z.le_gt_cases k 2) as [H|H].
  - assert (k = 0 \/ k = 1 \/ k = 2) as [-> | [-> | ->]] by lia; discriminate.
  - assert (2^3 <= 2^k) by (apply Z.pow_le_mono_r; lia). lia.
Qed.
Example C10_example_bounded :
  bind (new_maxlen 2) (fun d => bind (run d [DAppend 1; DAppend 2; DAppend 3; DItems; DAppendLeft 0; DItems]) (fun r => Ok (fst r)))
  = Ok [DVNone; DVNone; DVNone; DVItems [2;3]; DVNone; DVItems [0;2]].
Proof. vm_compute. reflexivity. Qed.
Example C10_example_overfull :
  bind (new_maxlen 3) (fun d => bind (run d [DAppend 1; DAppend 2; DAppend 3; DAppend 4; DItems; DLen]) (fun r => Ok (fst r)))
  = Ok [DVNone; DVNone; DVNone; DVNone; DVItems [1;2;3;4]; DVInt 4].
Proof. vm_compute. reflexivity. Qed.
