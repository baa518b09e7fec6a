(** C73: counters and default dicts.

    Reading guide.  [key_ok], [repr]: see Properties.v.  [count m k] is the count of [k] in
    the dict of counts [m], 0 if there is no entry; [occurrences l k] how often [k] occurs in
    the sequence [l]; [ints m]: all counts are 64-bit integers; [leaves f c]: [f] succeeds with
    a counter in which every [k] has the count [c k], and which has entries for positive
    counts only.  [w64] reduces to 64 bits. *)
From Coq Require Import List ZArith Lia Bool Permutation Sorted.
From Verif.Common Require Import Result Int64 Arr.
From Verif.Dict Require Import Model Spec Run Properties CounterModel CounterSpec CounterProofs.
Import ListNotations.
Local Open Scope Z_scope.

Definition of_counts {K} (eqb : K -> K -> bool) (hash : K -> Z) (f : res (tbl K Z)) (c : K -> Z) : Prop :=
  exists t m, f = Ok t /\ repr eqb hash t m /\ ints m /\ forall k, count eqb m k = c k.

(** Counting a sequence, adding a sequence to a counter, subtracting one from it. *)
Theorem C73_sequences : forall (K : Type) (eqb : K -> K -> bool) (hash : K -> Z) (l : list K),
  key_ok eqb hash ->
  (zlen l <= 2^60 -> of_counts eqb hash (counter_of eqb hash l) (occurrences eqb l)) /\
  forall t m, repr eqb hash t m -> ints m -> zlen m + zlen l <= 2^60 ->
    of_counts eqb hash (update_seq eqb hash t l) (fun k => w64 (count eqb m k + occurrences eqb l k)) /\
    of_counts eqb hash (subtract_seq eqb hash t l) (fun k => w64 (count eqb m k - occurrences eqb l k)).
Proof.
  intros K eqb hash l (H1 & H2 & H3 & H4).
  assert (G : forall d t m, in64 d -> repr eqb hash t m -> ints m -> zlen m + zlen l <= 2^60 ->
    of_counts eqb hash (each (fun t a => incr eqb hash t a d) l t) (fun k => w64 (count eqb m k + d * occurrences eqb l k))).
  { intros d t m Hd R I L. pose proof (seq_ok eqb hash H2 H3 H4 d l Hd t m R I L) as W. apply wp_inv in W.
    destruct W as (t' & E & m' & R' & I' & C). exists t', m'. auto. }
  assert (B : in64 1 /\ in64 (-1)) by (unfold in64, min64, max64; lia).
  assert (Fit : forall f c c', (forall k, c k = c' k) -> of_counts eqb hash f c -> of_counts eqb hash f c').
  { intros f c c' E (t & m & Ef & R & I & C). exists t, m. split; [assumption|]. split; [assumption|]. split; [assumption|]. intros k. now rewrite C. }
  split; [|intros t m R I L; split].
  - intros L. eapply Fit; [|apply (G 1 new []); [apply B|split; [now left|constructor]|intros ? ? []|exact L]].
    intros k. cbv beta. change (count eqb [] k) with 0. rewrite w64_id; [lia|].
    assert (0 <= occurrences eqb l k <= zlen l).
    { clear. unfold zlen. induction l as [|a l IH]; cbn [occurrences length]; [lia|]. destruct (eqb a k); lia. }
    unfold in64, min64, max64. lia.
  - eapply Fit; [|apply (G 1 t m); auto; apply B]. intros k. cbv beta. f_equal; f_equal; lia.
  - eapply Fit; [|apply (G (-1) t m); auto; apply B]. intros k. cbv beta. f_equal; lia.
Qed.
Print Assumptions C73_sequences.

(** [c.update(d)] and [c.subtract(d)] for another counter or dict. *)
Theorem C73_update : forall (K : Type) (eqb : K -> K -> bool) (hash : K -> Z) (t o : tbl K Z) (m y : list (K * Z)),
  key_ok eqb hash -> repr eqb hash t m -> repr eqb hash o y -> ints m -> ints y -> zlen m + zlen y <= 2^60 ->
  of_counts eqb hash (update_from eqb hash t o) (fun k => w64 (count eqb m k + count eqb y k)) /\
  of_counts eqb hash (subtract_from eqb hash t o) (fun k => w64 (count eqb m k - count eqb y k)).
Proof.
  intros K eqb hash t o m y (H1 & H2 & H3 & H4) R Ro I Iy L. split.
  - exact (update_from_ok eqb hash H2 H3 H4 t o m y R Ro I Iy L).
  - exact (subtract_from_ok eqb hash H2 H3 H4 t o m y R Ro I Iy L).
Qed.
Print Assumptions C73_update.

(** [a + b], [a - b], [a | b], and [a += b], [a -= b], [a |= b] with another counter [b]: the
    sum, the difference, the larger of the counts, where it is positive. *)
Theorem C73_operators : forall (K : Type) (eqb : K -> K -> bool) (hash : K -> Z) (t o : tbl K Z) (m y : list (K * Z)),
  key_ok eqb hash -> repr eqb hash t m -> repr eqb hash o y -> ints m -> ints y -> zlen m + zlen y <= 2^60 ->
  ((forall k, in64 (count eqb m k + count eqb y k)) ->
     leaves eqb hash (cadd eqb hash t o) (fun k => Z.max 0 (count eqb m k + count eqb y k)) /\
     leaves eqb hash (iadd eqb hash t o) (fun k => Z.max 0 (count eqb m k + count eqb y k))) /\
  ((forall k, in64 (count eqb m k - count eqb y k)) ->
     leaves eqb hash (csub eqb hash t o) (fun k => Z.max 0 (count eqb m k - count eqb y k)) /\
     leaves eqb hash (isub eqb hash t o) (fun k => Z.max 0 (count eqb m k - count eqb y k))) /\
  leaves eqb hash (cor eqb hash t o) (fun k => Z.max 0 (Z.max (count eqb m k) (count eqb y k))) /\
  leaves eqb hash (ior eqb hash t o) (fun k => Z.max 0 (Z.max (count eqb m k) (count eqb y k))).
Proof.
  intros K eqb hash t o m y (H1 & H2 & H3 & H4) R Ro I Iy L.
  assert (Fit : forall f c c', (forall k, c k = c' k) -> leaves eqb hash f c -> leaves eqb hash f c').
  { intros f c c' E (t' & m' & Ef & R' & I' & P' & C). exists t', m'. split; [assumption|]. split; [assumption|]. split; [assumption|]. split; [assumption|].
    intros k. now rewrite C. }
  assert (A : forall r, repr eqb hash r m -> (forall k, in64 (count eqb m k + count eqb y k)) ->
    leaves eqb hash (iadd eqb hash r o) (fun k => Z.max 0 (count eqb m k + count eqb y k))).
  { intros r Rr In. eapply Fit; [|exact (iadd_ok eqb hash H1 H2 H3 H4 r o m y Rr Ro I Iy L)]. intros k. cbv beta. now rewrite w64_id by apply In. }
  assert (Sb : forall r, repr eqb hash r m -> (forall k, in64 (count eqb m k - count eqb y k)) ->
    leaves eqb hash (isub eqb hash r o) (fun k => Z.max 0 (count eqb m k - count eqb y k))).
  { intros r Rr In. eapply Fit; [|exact (isub_ok eqb hash H1 H2 H3 H4 r o m y Rr Ro I Iy L)]. intros k. cbv beta. now rewrite w64_id by apply In. }
  split; [|split; [|split]].
  - intros In. split; [|now apply A]. apply (copied eqb hash (iadd eqb hash) t o m (fun f => leaves eqb hash f _) R). intros r Rr. now apply A.
  - intros In. split; [|now apply Sb]. apply (copied eqb hash (isub eqb hash) t o m (fun f => leaves eqb hash f _) R). intros r Rr. now apply Sb.
  - apply (copied eqb hash (ior eqb hash) t o m (fun f => leaves eqb hash f _) R). intros r Rr. exact (ior_ok eqb hash H1 H2 H3 H4 r o m y Rr Ro I Iy L).
  - exact (ior_ok eqb hash H1 H2 H3 H4 t o m y R Ro I Iy L).
Qed.
Print Assumptions C73_operators.

(** [a & b] and [a &= b]: the smaller of the counts, where it is positive, provided that [b]
    has an entry for every key of [a] with a positive count. *)
Theorem C73_and_partial : forall (K : Type) (eqb : K -> K -> bool) (hash : K -> Z) (t o : tbl K Z) (m y : list (K * Z)),
  key_ok eqb hash -> repr eqb hash t m -> repr eqb hash o y -> ints m -> ints y -> zlen m + zlen y <= 2^60 ->
  (forall k v, In (k, v) m -> 0 < v -> lookup eqb y k <> None) ->
  leaves eqb hash (cand eqb hash t o) (fun k => Z.max 0 (Z.min (count eqb m k) (count eqb y k))) /\
  leaves eqb hash (iand eqb hash t o) (fun k => Z.max 0 (Z.min (count eqb m k) (count eqb y k))).
Proof.
  intros K eqb hash t o m y (H1 & H2 & H3 & H4) R Ro I Iy L Sub.
  assert (A : forall r, repr eqb hash r m -> leaves eqb hash (iand eqb hash r o) (fun k => Z.max 0 (Z.min (count eqb m k) (count eqb y k)))).
  { intros r Rr. destruct (iand_ok eqb hash H1 H2 H3 H4 r o m y Rr Ro I Iy L) as (t' & m' & Ef & R' & I' & P' & C).
    exists t', m'. split; [assumption|]. split; [assumption|]. split; [assumption|]. split; [assumption|]. intros k. rewrite C.
    unfold count. destruct (lookup eqb y k) as [v|] eqn:Ly; [reflexivity|]. destruct (lookup eqb m k) as [v|] eqn:Lm; [|lia].
    apply lookup_in in Lm. destruct Lm as (k' & Ik & E). destruct (Z.le_gt_cases v 0) as [Hv|Hv]; [lia|].
    exfalso. apply (Sub k' v Ik Hv). now rewrite (lookup_respects eqb H2 H3 y k' k E). }
  split; [|now apply A]. apply (copied eqb hash (iand eqb hash) t o m (fun f => leaves eqb hash f _) R). exact A.
Qed.
Print Assumptions C73_and_partial.

(** Without the proviso it is not: the elements of [a] that [b] does not have stay. *)
Theorem C73_and_refuted : exists (t o r : tbl Z Z) (m y : list (Z * Z)),
  counter_of Z.eqb (fun x => x) [1] = Ok t /\ counter_of Z.eqb (fun x => x) [2] = Ok o /\
  repr Z.eqb (fun x => x) t m /\ repr Z.eqb (fun x => x) o y /\ count Z.eqb y 1 = 0 /\
  cand Z.eqb (fun x => x) t o = Ok r /\ cget Z.eqb (fun x => x) r 1 = Ok 1.
Proof.
  assert (Kz : key_ok Z.eqb (fun x : Z => x)).
  { split; [apply Z.eqb_refl|]. split; [apply Z.eqb_sym|]. split; [intros a b c; rewrite !Z.eqb_eq; congruence|]. intros a b. now rewrite Z.eqb_eq. }
  assert (G : forall k, exists t, counter_of Z.eqb (fun x => x) [k] = Ok t /\ repr Z.eqb (fun x => x) t [(k, 1)]).
  { intros k. destruct Kz as (H1 & H2 & H3 & H4). pose proof (incr_ok Z.eqb (fun x => x) H2 H3 H4 new [] k 1) as W.
    specialize (W ltac:(split; [now left|constructor]) ltac:(change (zlen (@nil (Z * Z))) with 0; lia) ltac:(unfold in64, min64, max64; lia)).
    apply wp_inv in W. destruct W as (t & E & R). exists t. split; [unfold counter_of, update_seq; cbn [each]; rewrite E; reflexivity|exact R]. }
  destruct (G 1) as (t & Et & Rt), (G 2) as (o & Eo & Ro).
  exists t, o. assert (E : exists r, cand Z.eqb (fun x => x) t o = Ok r /\ cget Z.eqb (fun x => x) r 1 = Ok 1).
  { clear Rt Ro. vm_compute in Et, Eo. injection Et as <-. injection Eo as <-. eexists. split; [vm_compute; reflexivity|]. vm_compute. reflexivity. }
  destruct E as (r & E1 & E2). exists r, [(1, 1)], [(2, 1)].
  split; [exact Et|]. split; [exact Eo|]. split; [exact Rt|]. split; [exact Ro|]. split; [reflexivity|]. split; [exact E1|exact E2].
Qed.
Print Assumptions C73_and_refuted.

(** [c += c] does not double the counts: the table may be rearranged while its items are being
    visited, and an item may be met twice. *)
Theorem C73_add_self_refuted : exists (t r : tbl Z Z), counter_of Z.eqb (fun x => x) [4; 5; 6] = Ok t /\
  cget Z.eqb (fun x => x) t 4 = Ok 1 /\ iadd_self Z.eqb (fun x => x) t = Ok r /\ cget Z.eqb (fun x => x) r 4 = Ok 4.
Proof.
  eexists. eexists. split; [vm_compute; reflexivity|]. split; [vm_compute; reflexivity|]. split; [vm_compute; reflexivity|]. vm_compute. reflexivity.
Qed.
Print Assumptions C73_add_self_refuted.

(** [+a] keeps the positive counts; [-a] has the negated negative ones. *)
Theorem C73_signs : forall (K : Type) (eqb : K -> K -> bool) (hash : K -> Z) (t : tbl K Z) (m : list (K * Z)),
  key_ok eqb hash -> repr eqb hash t m -> ints m -> zlen m <= 2^60 ->
  leaves eqb hash (cpos eqb hash t) (fun k => Z.max 0 (count eqb m k)) /\
  ((forall k v, In (k, v) m -> min64 < v) -> leaves eqb hash (cneg eqb hash t) (fun k => Z.max 0 (- count eqb m k))).
Proof.
  intros K eqb hash t m (H1 & H2 & H3 & H4) R I L. split; [now apply cpos_ok|]. intros N. now apply cneg_ok.
Qed.
Print Assumptions C73_signs.

(** [c[k]] is the count, 0 for a missing element; [c.total()] the sum of the counts;
    [c.elements()] repeats each element as often as its count says, and leaves out those whose
    count is not positive. *)
Theorem C73_reads : forall (K : Type) (eqb : K -> K -> bool) (hash : K -> Z) (t : tbl K Z) (m : list (K * Z)),
  key_ok eqb hash -> repr eqb hash t m ->
  (forall k, cget eqb hash t k = Ok (count eqb m k)) /\
  total t = Ok (w64 (fold_right Z.add 0 (map snd m))) /\
  exists l, elements t = Ok l /\ forall k, occurrences eqb l k = Z.max 0 (count eqb m k).
Proof.
  intros K eqb hash t m (H1 & H2 & H3 & H4) R. split; [intros k; now apply cget_eq|]. split; [|now apply (elements_ok eqb hash)].
  rewrite (total_ok eqb hash t m R). do 2 f_equal. unfold sum. clear R. induction m as [|e m IH]; cbn; [reflexivity|]. now rewrite IH.
Qed.
Print Assumptions C73_reads.

(** [del c[k]] removes the entry and is no error if there is none. *)
Theorem C73_delete : forall (K : Type) (eqb : K -> K -> bool) (hash : K -> Z) (t : tbl K Z) (m : list (K * Z)) (k : K),
  key_ok eqb hash -> repr eqb hash t m ->
  exists t' m', cdel eqb hash t k = Ok t' /\ repr eqb hash t' m' /\ forall k', lookup eqb m' k' = if eqb k k' then None else lookup eqb m k'.
Proof.
  intros K eqb hash t m k (H1 & H2 & H3 & H4) R. exact (cdel_ok eqb hash H2 H3 H4 t m k R).
Qed.
Print Assumptions C73_delete.

(** [a == b] on counters without entries for 0: the same counts. *)
Theorem C73_eq_partial : forall (K : Type) (eqb : K -> K -> bool) (hash : K -> Z) (t o : tbl K Z) (m y : list (K * Z)),
  key_ok eqb hash -> repr eqb hash t m -> repr eqb hash o y ->
  (forall k v, In (k, v) m \/ In (k, v) y -> v <> 0) ->
  exists b, ceq eqb hash t o = Ok b /\ (b = true <-> forall k, count eqb m k = count eqb y k).
Proof.
  intros K eqb hash t o m y (H1 & H2 & H3 & H4) R Ro Nz. exists (same_dict eqb Z.eqb m y). split; [now apply ceq_ok|].
  rewrite same_dict_iff by (auto; eapply repr_uniq; eauto). unfold count. split.
  - intros E k. now rewrite E.
  - intros E k. specialize (E k).
    destruct (lookup eqb m k) as [v|] eqn:Lm, (lookup eqb y k) as [w|] eqn:Ly; auto; [congruence| |].
    + apply lookup_in in Lm. destruct Lm as (k' & Ik & _). exfalso. eapply Nz; [left; exact Ik|assumption].
    + apply lookup_in in Ly. destruct Ly as (k' & Ik & _). exfalso. eapply Nz; [right; exact Ik|congruence].
Qed.
Print Assumptions C73_eq_partial.

(** An entry for 0 distinguishes it from a missing one. *)
Theorem C73_eq_refuted : exists (a t o : tbl Z Z),
  counter_of Z.eqb (fun x => x) [1] = Ok a /\ subtract_seq Z.eqb (fun x => x) a [1] = Ok t /\ o = new /\
  (forall k, cget Z.eqb (fun x => x) t k = Ok 0 /\ cget Z.eqb (fun x => x) o k = Ok 0) /\
  ceq Z.eqb (fun x => x) t o = Ok false.
Proof.
  assert (Kz : key_ok Z.eqb (fun x : Z => x)).
  { split; [apply Z.eqb_refl|]. split; [apply Z.eqb_sym|]. split; [intros a b c; rewrite !Z.eqb_eq; congruence|]. intros a b. now rewrite Z.eqb_eq. }
  assert (R0 : repr Z.eqb (fun x => x) (@new Z Z) []) by (split; [now left|constructor]).
  pose proof Kz as (H1 & H2 & H3 & H4).
  pose proof (incr_ok Z.eqb (fun x => x) H2 H3 H4 new [] 1 1 R0 ltac:(change (zlen (@nil (Z * Z))) with 0; lia) ltac:(unfold in64, min64, max64; lia)) as W.
  apply wp_inv in W. destruct W as (a & Ea & Ra).
  pose proof (incr_ok Z.eqb (fun x => x) H2 H3 H4 a _ 1 (-1) Ra ltac:(cbv; discriminate) ltac:(unfold in64, min64, max64; lia)) as W.
  apply wp_inv in W. destruct W as (t & Et & Rt). exists a, t, new.
  split; [unfold counter_of, update_seq; cbn [each]; rewrite Ea; reflexivity|]. split; [unfold subtract_seq; cbn [each]; rewrite Et; reflexivity|].
  split; [reflexivity|]. split.
  - intros k. rewrite (cget_eq Z.eqb (fun x => x) H2 H3 H4 t _ k Rt), (cget_eq Z.eqb (fun x => x) H2 H3 H4 new _ k R0). split; [|reflexivity].
    f_equal. rewrite (count_store Z.eqb H2 H3). destruct (1 =? k) eqn:E; [reflexivity|]. rewrite (count_store Z.eqb H2 H3), E. reflexivity.
  - rewrite (ceq_ok Z.eqb (fun x => x) H2 H3 H4 t new _ _ Rt R0). reflexivity.
Qed.
Print Assumptions C73_eq_refuted.

(** [c.most_common(n)]: [n] items with the largest counts, the largest first; all of them
    without [n]. *)
Theorem C73_most_common : forall (K : Type) (eqb : K -> K -> bool) (hash : K -> Z) (compat : bool) (t : tbl K Z) (m : list (K * Z)) (n : option Z),
  repr eqb hash t m ->
  exists r, most_common compat t n = Ok r /\ largest (match n with None => length m | Some n => Z.to_nat n end) m r.
Proof. intros. now apply (most_common_ok eqb hash). Qed.
Print Assumptions C73_most_common.

(** [d[k]] of a default dict gives the stored value or else the default, which it stores; and
    [d[k] op= x] stores the result of the operator on that value. *)
Theorem C73_defaultdict : forall (K V : Type) (eqb : K -> K -> bool) (hash : K -> Z) (d : V) (t : tbl K V) (m : list (K * V)) (k : K) (op : V -> V),
  key_ok eqb hash -> repr eqb hash t m -> zlen m <= 2^60 ->
  let v := match lookup eqb m k with Some v => v | None => d end in
  (exists t' m', dd_getitem eqb hash d t k = Ok (t', v) /\ repr eqb hash t' m' /\
     forall k', lookup eqb m' k' = if eqb k k' then Some v else lookup eqb m k') /\
  (exists t' m', dd_do_op eqb hash d t k op = Ok t' /\ repr eqb hash t' m' /\
     forall k', lookup eqb m' k' = if eqb k k' then Some (op v) else lookup eqb m k').
Proof.
  intros K V eqb hash d t m k op (H1 & H2 & H3 & H4) R L v. split.
  - destruct (dd_getitem_ok eqb hash H2 H3 H4 d t m k R L) as (t' & v' & E & Ev & R'). fold v in Ev. subst v'.
    eexists. eexists. split; [exact E|]. split; [exact R'|]. intros k'. unfold v. destruct (lookup eqb m k) as [w|] eqn:Lk.
    + destruct (eqb k k') eqn:Ek; [|reflexivity]. rewrite <- Lk. symmetry. clear -H2 H3 Ek. induction m as [|[b u] m IH]; [reflexivity|]. cbn. rewrite IH.
      destruct (eqb b k) eqn:A, (eqb b k') eqn:B; try reflexivity; [rewrite (H3 b k k' A Ek) in B; discriminate|].
      rewrite (H3 b k' k B) in A; [discriminate|]. now rewrite H2.
    + apply (LastWrite.lookup_store eqb H2 H3).
  - destruct (dd_do_op_ok eqb hash H1 H2 H3 H4 d t m k R L op) as (t' & E & m' & R' & C). exists t', m'. auto.
Qed.
Print Assumptions C73_defaultdict.

(** ** Examples *)
Example ex_count : exists t, counter_of Z.eqb (fun x => x) [3; 1; 3; 2; 3; 1] = Ok t /\
  most_common true t (Some 2) = Ok [(3, 3); (1, 2)] /\ most_common true t None = Ok [(3, 3); (1, 2); (2, 1)] /\ total t = Ok 6.
Proof.
  eexists. split; [vm_compute; reflexivity|]. split; [vm_compute; reflexivity|]. split; vm_compute; reflexivity.
Qed.
Example ex_operators : let hash x := x in
  (let both op := (a <- counter_of Z.eqb hash [1; 1; 2] ;; b <- counter_of Z.eqb hash [1; 3] ;; r <- op a b ;; items r)%res in
  (both (cadd Z.eqb hash), both (csub Z.eqb hash), both (cor Z.eqb hash))) =
  (Ok [(1, 3); (2, 1); (3, 1)], Ok [(1, 1); (2, 1)], Ok [(1, 2); (2, 1); (3, 1)]).
Proof. vm_compute. reflexivity. Qed.
