(** C11, C12, C13: heapq and bisect. *)
From Coq Require Import List ZArith Lia Bool Permutation Sorted ZifyBool.
From Verif.Common Require Import Result Int64 Arr Ord Stable Tac.
From Verif.Sort Require Import Dispatch DispatchProofs.
From Verif.Heap Require Import Model Spec Proofs BestProofs MergeProofs BisectProofs.
Import ListNotations.
Local Open Scope Z_scope.

(** ** C11 *)

(** Each operation terminates without leaving the list and keeps the multiset of elements
    for every comparison (even one that is no order, such as [<] on floats with NaN); for an
    order it keeps the heap invariant, and what it returns is a minimum. *)
Theorem C11_heappush : forall (A : Type) (lt : A -> A -> bool) (h : list A) (x : A),
  exists r, heappush lt h x = Ok r /\ Permutation (x :: h) r /\
    (strict_weak lt -> is_heap lt h -> is_heap lt r).
Proof.
  intros A lt h x. pose proof (heappush_spec lt x h x) as H.
  destruct (heappush lt h x) as [r| | |]; simpl in H; try contradiction. destruct H as (P & H).
  exists r. split; auto. split; auto. intros W. rewrite <- !(heap_spec_iff lt x). auto.
Qed.
Print Assumptions C11_heappush.

Lemma nonempty_zlen {A} (x : A) h : 0 < zlen (x :: h).
Proof. unfold zlen. simpl. lia. Qed.

Theorem C11_heappop : forall (A : Type) (lt : A -> A -> bool),
  heappop lt [] = Raise IndexError /\
  forall h : list A, h <> [] ->
  exists m r, heappop lt h = Ok (m, r) /\ Permutation h (m :: r) /\
    (strict_weak lt -> is_heap lt h -> is_heap lt r /\ is_min lt m h).
Proof.
  intros A lt. split; auto. intros [|x t] N; [congruence|]. set (h := x :: t).
  pose proof (heappop_spec lt x h (nonempty_zlen x t)) as H.
  destruct (heappop lt h) as [[m r]| | |]; simpl in H; try contradiction. destruct H as (E & P & H).
  exists m, r. split; auto. split; [now symmetry|]. intros W HH. rewrite <- !(heap_spec_iff lt x) in *. split; auto. split.
  - apply (Permutation_in _ P). now left.
  - rewrite E. apply (heap_root lt x W h HH (nonempty_zlen x t)).
Qed.
Print Assumptions C11_heappop.

Theorem C11_heapreplace : forall (A : Type) (lt : A -> A -> bool) (x : A),
  heapreplace lt [] x = Raise IndexError /\
  forall h : list A, h <> [] ->
  exists m r, heapreplace lt h x = Ok (m, r) /\ Permutation (x :: h) (m :: r) /\
    (strict_weak lt -> is_heap lt h -> is_heap lt r /\ is_min lt m h).
Proof.
  intros A lt y. split; auto. intros [|x t] N; [congruence|]. set (h := x :: t).
  pose proof (heapreplace_spec lt x h y (nonempty_zlen x t)) as H.
  destruct (heapreplace lt h y) as [[m r]| | |]; simpl in H; try contradiction. destruct H as (E & P & H).
  exists m, r. split; auto. split; [now symmetry|]. intros W HH. rewrite <- !(heap_spec_iff lt x) in *. split; auto.
  rewrite E. split; [|apply (heap_root lt x W h HH (nonempty_zlen x t))]. unfold zn, h. simpl. auto.
Qed.
Print Assumptions C11_heapreplace.

(** [heappushpop] returns the minimum of the heap with the new element in it. *)
Theorem C11_heappushpop : forall (A : Type) (lt : A -> A -> bool) (h : list A) (x : A),
  exists m r, heappushpop lt h x = Ok (m, r) /\ Permutation (x :: h) (m :: r) /\
    (strict_weak lt -> is_heap lt h -> is_heap lt r /\ is_min lt m (x :: h)).
Proof.
  intros A lt h y. unfold heappushpop. destruct h as [|x t].
  - exists y, []. simpl. split; auto. split; auto. intros W HH. split; auto. split; [now left|].
    intros z [<-|[]]. apply (sw_irrefl lt W).
  - set (h := x :: t). pose proof (nonempty_zlen x t) as L. fold h in L. replace (zlen h =? 0) with false by lia. cbn [negb].
    rewrite (aget_ok x) by lia. cbn [bind]. destruct (lt (zn x h 0) y) eqn:E.
    + rewrite aset_ok by lia. cbn [bind]. pose proof (set_root_spec lt x h y L) as H.
      destruct (siftup lt (upd h 0 y) 0) as [r| | |]; simpl in H; try contradiction. destruct H as (P & H). cbn [bind].
      exists (zn x h 0), r. split; auto. split; [now symmetry|]. intros W HH. rewrite <- !(heap_spec_iff lt x) in *. split; auto. split.
      * right. unfold zn, h. simpl. auto.
      * intros z [<-|Hz]; [now apply (sw_asym lt W)|]. now apply (heap_root lt x W h HH L).
    + exists y, h. split; auto. split; auto. intros W HH. split; auto. split; [now left|].
      rewrite <- !(heap_spec_iff lt x) in *. intros z [<-|Hz]; [apply (sw_irrefl lt W)|].
      apply (sw_negtrans lt W) with (y := zn x h 0); auto. now apply (heap_root lt x W h HH L).
Qed.
Print Assumptions C11_heappushpop.

Theorem C11_heapify : forall (A : Type) (lt : A -> A -> bool) (l : list A),
  exists r, heapify lt l = Ok r /\ Permutation l r /\ (strict_weak lt -> is_heap lt r).
Proof.
  intros A lt [|x t].
  - exists []. split; auto. split; auto. intros _ k c y z _ H. destruct k; discriminate.
  - pose proof (heapify_spec lt x (x :: t)) as H. destruct (heapify lt (x :: t)) as [r| | |]; simpl in H; try contradiction.
    destruct H as (P & H). exists r. split; auto. split; auto. intros W. rewrite <- (heap_spec_iff lt x). auto.
Qed.
Print Assumptions C11_heapify.

(** The [_max] functions used by nsmallest and merge keep the mirrored invariant. *)
Theorem C11_max_variants : forall (A : Type) (lt : A -> A -> bool) (l h : list A) (x : A), strict_weak lt ->
  (exists r, heapify_max lt l = Ok r /\ Permutation l r /\ is_heap (fun a b => lt b a) r) /\
  (h <> [] -> is_heap (fun a b => lt b a) h ->
   exists m r, heapreplace_max lt h x = Ok (m, r) /\ Permutation (x :: h) (m :: r) /\
     is_heap (fun a b => lt b a) r /\ In m h /\ forall y, In y h -> lt m y = false) /\
  (h <> [] -> is_heap (fun a b => lt b a) h ->
   exists m r, heappop_max lt h = Ok (m, r) /\ Permutation h (m :: r) /\
     is_heap (fun a b => lt b a) r /\ In m h /\ forall y, In y h -> lt m y = false).
Proof.
  intros A lt l h x W. pose proof (sw_flip lt W) as WF. split; [|split].
  - destruct (C11_heapify A (flip lt) l) as (r & E & P & H). exists r. split; [exact E|]. split; [exact P|]. exact (H WF).
  - intros N HH. destruct (C11_heapreplace A (flip lt) x) as (_ & H). destruct (H h N) as (m & r & E & P & H').
    destruct (H' WF HH) as (H1 & H2 & H3). exists m, r. split; [exact E|]. split; [exact P|]. split; [exact H1|]. split; [exact H2|exact H3].
  - intros N HH. destruct (C11_heappop A (flip lt)) as (_ & H). destruct (H h N) as (m & r & E & P & H').
    destruct (H' WF HH) as (H1 & H2 & H3). exists m, r. split; [exact E|]. split; [exact P|]. split; [exact H1|]. split; [exact H2|exact H3].
Qed.
Print Assumptions C11_max_variants.

(** Popping a heapified list until it is empty sorts it. *)
Fixpoint drain_all {A} (lt : A -> A -> bool) (n : nat) (h : list A) : res (list A) :=
  match n with
  | O => Ok []
  | S n => bind (heappop lt h) (fun '(m, h) => bind (drain_all lt n h) (fun r => Ok (m :: r)))
  end.
Theorem C11_heapify_then_pops_sort : forall (A : Type) (lt : A -> A -> bool) (l : list A), strict_weak lt ->
  exists r, bind (heapify lt l) (drain_all lt (length l)) = Ok r /\ is_sort_of lt l r.
Proof.
  intros A lt l W. destruct (C11_heapify A lt l) as (h & E & P & H). rewrite E. cbn [bind]. specialize (H W).
  assert (G : forall n h, length h = n -> is_heap lt h -> exists r, drain_all lt n h = Ok r /\ is_sort_of lt h r).
  { clear - W. induction n as [|n IH]; intros h L HH.
    - destruct h; [|discriminate]. exists []. split; auto. split; constructor.
    - destruct (C11_heappop A lt) as (_ & HP). destruct (HP h) as (m & r & E & P & H); [intros ->; discriminate|].
      destruct (H W HH) as (H1 & H2 & H3). cbn [drain_all]. rewrite E. cbn [bind].
      destruct (IH r) as (r2 & E2 & P2 & S2); auto. { apply Permutation_length in P. simpl in P. lia. }
      rewrite E2. cbn [bind]. exists (m :: r2). split; auto. split.
      + rewrite P. now constructor.
      + constructor; auto. rewrite Forall_forall. intros y Hy. apply H3. apply (Permutation_in _ (Permutation_sym P)). right.
        now apply (Permutation_in _ (Permutation_sym P2)). }
  destruct (G (length l) h) as (r & Er & Pr & Sr); auto. { now rewrite (Permutation_length P). }
  exists r. split; auto. split; auto. now rewrite P.
Qed.
Print Assumptions C11_heapify_then_pops_sort.

(** ** C12 *)

Lemma tuple_sort_asc {K} (lt eq : K -> K -> bool) compat : strict_weak lt ->
  (forall x y, eq x y = negb (lt x y) && negb (lt y x)) ->
  forall l, exists r, sort2e lt eq compat l = Ok r /\ is_sort_of (lt2 lt eq) l r.
Proof.
  intros W Heq l. unfold sort2e.
  destruct (list_sort_lift (lt2 lt eq) (ge2 lt eq) (eq2 eq) Auto false compat false l []) as (r & E & S).
  - now apply lt2_sw.
  - now apply ge2_spec.
  - now apply eq2_spec.
  - rewrite !app_nil_r in E. exists r. auto.
Qed.
Lemma tuple3_sort_asc {K T} (lt eq : K -> K -> bool) (ltT eqT : T -> T -> bool) compat : strict_weak lt ->
  (forall x y, eq x y = negb (lt x y) && negb (lt y x)) -> strict_weak ltT ->
  (forall x y, eqT x y = negb (ltT x y) && negb (ltT y x)) ->
  forall l, exists r, sort3e lt eq ltT eqT compat l = Ok r /\ is_sort_of (lt3 lt eq ltT eqT) l r.
Proof.
  intros W Heq WT HeqT l. unfold sort3e.
  destruct (list_sort_lift (lt3 lt eq ltT eqT) (ge3 lt eq ltT eqT) (eq3 eq eqT) Auto false compat false l []) as (r & E & S).
  - now apply lt3_sw.
  - now apply ge3_spec.
  - now apply eq3_spec.
  - rewrite !app_nil_r in E. exists r. auto.
Qed.
Lemma sort_rev {A} (lt : A -> A -> bool) l r : is_sort_of lt l r -> is_sort_of (fun x y => lt y x) l (rev r).
Proof. intros [P S]. split; [rewrite P; apply Permutation_rev|]. now apply sorted_rev. Qed.

(** C12: nsmallest gives the first [n] items of the stably sorted iterable, nlargest those of
    the stably sorted iterable in descending order, for every [n] (none when [n <= 0]). *)
Theorem C12_nsmallest : forall (T : Type) (lt eq : T -> T -> bool) (compat : bool), strict_weak lt ->
  (forall x y, eq x y = negb (lt x y) && negb (lt y x)) ->
  forall (n : Z) (l s : list T), sorted_asc lt l s ->
  nsmallest lt eq compat n l = Ok (firstn (Z.to_nat n) s).
Proof.
  intros T lt eq compat W Heq n l s Hs. rewrite <- (stable_unique lt W l _ _ (ssort_stable lt W l) Hs).
  unfold nsmallest. destruct (Z.eqb_spec n 1) as [->|N].
  - f_equal. apply (first_best_spec lt W l [] []). reflexivity.
  - destruct (nbest_spec pair (fun x => x) fst fst lt lt (lt2 lt eq) 1 (sort2e lt eq compat) (fun r => r)) with (n := n) (l := l)
      as (r & E & M); auto.
    + now apply lt2_sw.
    + intros x y t u Htu. rewrite (lt2_lex lt eq Heq). unfold lex. cbn [fst snd]. replace (1 * t <? 1 * u) with true by lia.
      destruct (lt x y) eqn:Exy; [now rewrite (sw_asym lt W _ _ Exy)|]. cbn. now rewrite andb_true_r.
    + intros x y t u Hxy. rewrite (lt2_lex lt eq Heq). unfold lex. cbn [fst]. now rewrite Hxy.
    + intros l0. apply tuple_sort_asc; auto.
    + rewrite E. cbn [bind]. now rewrite M.
Qed.
Print Assumptions C12_nsmallest.

Theorem C12_nlargest : forall (T : Type) (lt eq : T -> T -> bool) (compat : bool), strict_weak lt ->
  (forall x y, eq x y = negb (lt x y) && negb (lt y x)) ->
  forall (n : Z) (l s : list T), sorted_desc lt l s ->
  nlargest lt eq compat n l = Ok (firstn (Z.to_nat n) s).
Proof.
  intros T lt eq compat W Heq n l s Hs. pose proof (sw_flip lt W) as WF.
  rewrite <- (stable_unique _ WF l _ _ (ssort_stable _ WF l) Hs).
  unfold nlargest. destruct (Z.eqb_spec n 1) as [->|N].
  - f_equal. apply (first_best_spec _ WF l [] []). reflexivity.
  - destruct (nbest_spec pair (fun x => x) fst fst (fun k top => lt top k) (fun x y => lt y x) (flip (lt2 lt eq)) (-1)
                (sort2e lt eq compat) (@rev (T * Z))) with (n := n) (l := l) as (r & E & M); auto.
    + apply (sw_flip _ (lt2_sw lt eq W Heq)).
    + intros x y t u Htu. unfold flip. rewrite (lt2_lex lt eq Heq). unfold lex. cbn [fst snd]. replace (-1 * u <? -1 * t) with true by lia.
      destruct (lt y x) eqn:Exy; [now rewrite (sw_asym lt W _ _ Exy)|]. cbn. now rewrite andb_true_r.
    + intros x y t u Hxy. unfold flip. rewrite (lt2_lex lt eq Heq). unfold lex. cbn [fst]. now rewrite Hxy.
    + intros l0. destruct (tuple_sort_asc lt eq compat W Heq l0) as (r & E & S). exists r. split; auto. now apply sort_rev.
    + change (flip (flip (lt2 lt eq))) with (lt2 lt eq) in E. rewrite E. cbn [bind]. now rewrite M.
Qed.
Print Assumptions C12_nlargest.

(** The same with a key function; ties in the key keep their order. *)
Theorem C12_nsmallest_key : forall (T K : Type) (key : T -> K) (lt eq : K -> K -> bool) (ltT eqT : T -> T -> bool)
  (compat : bool), strict_weak lt -> (forall x y, eq x y = negb (lt x y) && negb (lt y x)) ->
  strict_weak ltT -> (forall x y, eqT x y = negb (ltT x y) && negb (ltT y x)) ->
  forall (n : Z) (l s : list T), sorted_asc (fun x y => lt (key x) (key y)) l s ->
  nsmallest_key key lt eq ltT eqT compat n l = Ok (firstn (Z.to_nat n) s).
Proof.
  intros T K key lt eq ltT eqT compat W Heq WT HeqT n l s Hs. pose proof (sw_map key lt W) as WK.
  rewrite <- (stable_unique _ WK l _ _ (ssort_stable _ WK l) Hs).
  unfold nsmallest_key. destruct (Z.eqb_spec n 1) as [->|N].
  - f_equal. apply (first_best_spec _ WK l [] []). reflexivity.
  - destruct (nbest_spec (mk3 key) key ekey3 snd lt (fun x y => lt (key x) (key y)) (lt3 lt eq ltT eqT) 1
       (sort3e lt eq ltT eqT compat) (fun r => r)) with (n := n) (l := l) as (r & E & M); auto.
    + now apply lt3_sw.
    + intros x y t u Htu. rewrite (lt3_lex lt eq ltT eqT Heq HeqT). unfold mk3, lex. cbn [fst snd]. rewrite !(lt2_lex lt eq Heq). unfold lex. cbn [fst snd].
      replace (1 * t <? 1 * u) with true by lia. replace (1 * u <? 1 * t) with false by lia.
      destruct (lt (key x) (key y)) eqn:Exy; [now rewrite (sw_asym lt W _ _ Exy)|]. cbn. rewrite andb_true_r.
      destruct (lt (key y) (key x)); reflexivity.
    + intros x y t u Hxy. rewrite (lt3_lex lt eq ltT eqT Heq HeqT). unfold mk3, lex. cbn [fst snd]. rewrite !(lt2_lex lt eq Heq). unfold lex. cbn [fst]. now rewrite Hxy.
    + intros l0. apply tuple3_sort_asc; auto.
    + rewrite E. cbn [bind]. now rewrite M.
Qed.
Print Assumptions C12_nsmallest_key.

Theorem C12_nlargest_key : forall (T K : Type) (key : T -> K) (lt eq : K -> K -> bool) (ltT eqT : T -> T -> bool)
  (compat : bool), strict_weak lt -> (forall x y, eq x y = negb (lt x y) && negb (lt y x)) ->
  strict_weak ltT -> (forall x y, eqT x y = negb (ltT x y) && negb (ltT y x)) ->
  forall (n : Z) (l s : list T), sorted_desc (fun x y => lt (key x) (key y)) l s ->
  nlargest_key key lt eq ltT eqT compat n l = Ok (firstn (Z.to_nat n) s).
Proof.
  intros T K key lt eq ltT eqT compat W Heq WT HeqT n l s Hs. pose proof (sw_flip _ (sw_map key lt W)) as WK.
  rewrite <- (stable_unique _ WK l _ _ (ssort_stable _ WK l) Hs).
  unfold nlargest_key. destruct (Z.eqb_spec n 1) as [->|N].
  - f_equal. apply (first_best_spec _ WK l [] []). reflexivity.
  - destruct (nbest_spec (mk3 key) key ekey3 snd (fun k top => lt top k) (fun x y => lt (key y) (key x)) (flip (lt3 lt eq ltT eqT)) (-1)
       (sort3e lt eq ltT eqT compat) (@rev (K * Z * T))) with (n := n) (l := l) as (r & E & M); auto.
    + apply (sw_flip _ (lt3_sw lt eq ltT eqT W Heq WT HeqT)).
    + intros x y t u Htu. unfold flip. rewrite (lt3_lex lt eq ltT eqT Heq HeqT). unfold mk3, lex. cbn [fst snd]. rewrite !(lt2_lex lt eq Heq). unfold lex. cbn [fst snd].
      replace (-1 * u <? -1 * t) with true by lia. replace (-1 * t <? -1 * u) with false by lia.
      destruct (lt (key y) (key x)) eqn:Exy; [now rewrite (sw_asym lt W _ _ Exy)|]. cbn. rewrite andb_true_r.
      destruct (lt (key x) (key y)); reflexivity.
    + intros x y t u Hxy. unfold flip. rewrite (lt3_lex lt eq ltT eqT Heq HeqT). unfold mk3, lex. cbn [fst snd]. rewrite !(lt2_lex lt eq Heq). unfold lex. cbn [fst]. now rewrite Hxy.
    + intros l0. destruct (tuple3_sort_asc lt eq ltT eqT compat W Heq WT HeqT l0) as (r & E & S). exists r. split; auto. now apply sort_rev.
    + change (flip (flip (lt3 lt eq ltT eqT))) with (lt3 lt eq ltT eqT) in E. rewrite E. cbn [bind]. now rewrite M.
Qed.
Print Assumptions C12_nlargest_key.

(** C12: merging sorted iterables gives their stably sorted concatenation, ascending or
    (reverse=True) descending; unsorted iterables still give all their items once. *)
Theorem C12_merge : forall (T : Type) (lt eq : T -> T -> bool), strict_weak lt ->
  (forall x y, eq x y = negb (lt x y) && negb (lt y x)) ->
  forall (reverse : bool) (its : list (list T)),
  let ord := if reverse then (fun x y => lt y x) else lt in
  exists r, merge lt eq reverse its = Ok r /\ Permutation (concat its) r /\
    (Forall (sorted_by ord) its -> stable_sort_of ord (concat its) r).
Proof.
  intros T lt eq W Heq reverse its. cbv zeta. unfold merge. cbv zeta. destruct reverse.
  - destruct (merge_core (fun x y => lt y x) (-1) (flip (lt_item lt eq)) eq_refl) with (its := its) as (r & E & P & H).
    + intros a b. unfold flip, lt_item. rewrite (lt2_lex lt eq Heq). unfold lex, tag. cbn [fst snd].
      f_equal. f_equal. lia.
    + exists r. split; auto. split; auto. intros. apply H; auto. now apply sw_flip.
  - destruct (merge_core lt 1 (lt_item lt eq) eq_refl) with (its := its) as (r & E & P & H).
    + intros a b. unfold lt_item. rewrite (lt2_lex lt eq Heq). unfold lex, tag. cbn [fst snd]. now rewrite !Z.mul_1_r.
    + exists r. split; auto.
Qed.
Print Assumptions C12_merge.

(** ** C13 *)

(** bisect_left and bisect_right on a window [lo, hi) of a list: they terminate in range for
    every comparison; when the window is sorted they return the split point. *)
Theorem C13_bisect : forall (A : Type) (lt : A -> A -> bool) (a : list A) (x : A) (lo hi : Z),
  0 <= lo <= hi -> hi <= zlen a -> zlen a <= 2^62 ->
  (exists i, bisect_left lt a x lo (Some hi) = Ok i /\ lo <= i <= hi /\
     (strict_weak lt -> sorted_by lt (zsub a lo hi) -> splits (fun y => lt y x) a lo hi i)) /\
  (exists i, bisect_right lt a x lo (Some hi) = Ok i /\ lo <= i <= hi /\
     (strict_weak lt -> sorted_by lt (zsub a lo hi) -> splits (fun y => negb (lt x y)) a lo hi i)).
Proof.
  intros A lt a x lo hi H1 H2 H3.
  assert (SR : sorted_by lt (zsub a lo hi) -> sorted_rng lt x a lo hi).
  { intros S. rewrite <- (sorted_rng_sorted_by lt x) in S. intros i j Hi Hj.
    specialize (S (i - lo) (j - lo)). rewrite !zn_zsub in S by lia.
    replace (lo + (i - lo)) with i in S by lia. replace (lo + (j - lo)) with j in S by lia.
    apply S; [lia|]. unfold zlen. rewrite zsub_length by lia. lia. }
  assert (NT : forall k y, lo <= k -> nth_error a (Z.to_nat k) = Some y -> zn x a k = y).
  { intros k y Hk E. unfold zn. now apply nth_error_nth. }
  split.
  - pose proof (bisect_by_spec (fun y => lt y x) x a lo hi H1 H2 H3) as H. unfold bisect_left.
    destruct (bisect_by (fun y => lt y x) a lo (Some hi)) as [i| | |]; simpl in H; try contradiction. destruct H as (B & H).
    exists i. split; auto. split; auto. intros W S. split; auto. intros k y Hk E. rewrite <- (NT k y) by (auto; lia).
    apply H; auto. apply left_mono; auto. lia.
  - pose proof (bisect_by_spec (fun y => negb (lt x y)) x a lo hi H1 H2 H3) as H. unfold bisect_right.
    destruct (bisect_by (fun y => negb (lt x y)) a lo (Some hi)) as [i| | |]; simpl in H; try contradiction. destruct H as (B & H).
    exists i. split; auto. split; auto. intros W S. split; auto. intros k y Hk E. rewrite <- (NT k y) by (auto; lia).
    apply H; auto. apply right_mono; auto. lia.
Qed.
Print Assumptions C13_bisect.

(** The default window, and the error for a negative [lo]. *)
Theorem C13_bisect_defaults : forall (A : Type) (lt : A -> A -> bool) (a : list A) (x : A) (lo : Z) (hi : option Z),
  (lo < 0 -> bisect_left lt a x lo hi = Raise ValueError /\ bisect_right lt a x lo hi = Raise ValueError) /\
  bisect_left lt a x lo None = bisect_left lt a x lo (Some (zlen a)) /\
  bisect_right lt a x lo None = bisect_right lt a x lo (Some (zlen a)).
Proof.
  intros. split; [|split; reflexivity]. intros H. unfold bisect_left, bisect_right, bisect_by.
  replace (lo <? 0) with true by lia. auto.
Qed.
Print Assumptions C13_bisect_defaults.

(** insort keeps a sorted list sorted, inserting [x] before (left) or after (right) its equals. *)
Theorem C13_insort : forall (A : Type) (lt : A -> A -> bool), strict_weak lt ->
  forall (a : list A) (x : A), sorted_by lt a -> zlen a <= 2^62 ->
  (exists p s, insort_left lt (fun x => x) a x 0 None = Ok (p ++ x :: s) /\ a = p ++ s /\
     sorted_by lt (p ++ x :: s) /\ (forall y, In y p -> lt y x = true) /\ (forall y, In y s -> lt y x = false)) /\
  (exists p s, insort_right lt (fun x => x) a x 0 None = Ok (p ++ x :: s) /\ a = p ++ s /\
     sorted_by lt (p ++ x :: s) /\ (forall y, In y p -> lt x y = false) /\ (forall y, In y s -> lt x y = true)).
Proof.
  intros A lt W a x S L. pose proof (zlen_nonneg a) as Z0.
  assert (SR : sorted_rng lt x a 0 (zlen a)) by (now apply sorted_rng_sorted_by).
  assert (IN : forall (q : A -> bool) i, 0 <= i <= zlen a -> (forall k, 0 <= k < zlen a -> q (zn x a k) = (k <? i)) ->
     (forall y, In y (firstn (Z.to_nat i) a) -> q y = true) /\ (forall y, In y (skipn (Z.to_nat i) a) -> q y = false)).
  { intros q i Hi Hq. split; intros y Hy; destruct (In_nth _ _ x Hy) as (k & Hk & <-).
    - rewrite firstn_length in Hk. rewrite nth_firstn_lt by lia. specialize (Hq (Z.of_nat k)). unfold zn in Hq. rewrite Nat2Z.id in Hq.
      rewrite Hq by (unfold zlen in *; lia). lia.
    - rewrite skipn_length in Hk. rewrite nth_skipn. specialize (Hq (Z.of_nat (Z.to_nat i + k))). unfold zn in Hq. rewrite Nat2Z.id in Hq.
      rewrite Hq by (unfold zlen in *; lia). lia. }
  split.
  - unfold insort_left, bisect_left. rewrite bisect_default.
    pose proof (bisect_by_spec (fun y => lt y x) x a 0 (zlen a) ltac:(lia) ltac:(lia) L) as H.
    destruct (bisect_by (fun y => lt y x) a 0 (Some (zlen a))) as [i| | |]; simpl in H; try contradiction. destruct H as (B & H).
    specialize (H (left_mono lt W x x a 0 (zlen a) ltac:(lia) SR)). cbn [bind]. rewrite insert_at_in by lia.
    exists (firstn (Z.to_nat i) a), (skipn (Z.to_nat i) a). split; auto. split; [now rewrite firstn_skipn|].
    split; [now apply (insert_left_sorted lt W x)|]. apply (IN (fun y => lt y x) i B H).
  - unfold insort_right, bisect_right. rewrite bisect_default.
    pose proof (bisect_by_spec (fun y => negb (lt x y)) x a 0 (zlen a) ltac:(lia) ltac:(lia) L) as H.
    destruct (bisect_by (fun y => negb (lt x y)) a 0 (Some (zlen a))) as [i| | |]; simpl in H; try contradiction. destruct H as (B & H).
    specialize (H (right_mono lt W x x a 0 (zlen a) ltac:(lia) SR)). cbn [bind].
    exists (firstn (Z.to_nat i) a), (skipn (Z.to_nat i) a).
    assert (E : (if i =? zlen a then Ok (a ++ [x]) else Ok (insert_at a i x)) = Ok (firstn (Z.to_nat i) a ++ x :: skipn (Z.to_nat i) a)).
    { destruct (Z.eqb_spec i (zlen a)) as [->|]; [|now rewrite insert_at_in by lia].
      unfold zlen. rewrite Nat2Z.id, firstn_all, skipn_all. reflexivity. }
    rewrite E. split; auto. split; [now rewrite firstn_skipn|].
    split. { rewrite (insert_right_ins lt x x a i B H). now apply ins_sorted. }
    destruct (IN (fun y => negb (lt x y)) i B H) as (I1 & I2). split; intros y Hy; [apply negb_true_iff|apply negb_false_iff]; auto.
Qed.
Print Assumptions C13_insort.

(** ** Non-vacuity *)
Example C11_example :
  heapify Z.ltb [5;3;8;1;9;2] = Ok [1;3;2;5;9;8] /\
  heappop Z.ltb [1;3;2;5;9;8] = Ok (1, [2;3;8;5;9]) /\
  heappush Z.ltb [2;3;8;5;9] 0 = Ok [0;3;2;5;9;8] /\ heappushpop Z.ltb [2;3;8] 1 = Ok (1, [2;3;8]).
Proof. vm_compute. auto. Qed.
Definition fst_lt (a b : Z * Z) : bool := fst a <? fst b.
Definition fst_eq (a b : Z * Z) : bool := fst a =? fst b.
Example C12_example :
  nsmallest fst_lt fst_eq false 3 [(2,0);(1,1);(2,2);(1,3);(0,4);(1,5)] = Ok [(0,4);(1,1);(1,3)] /\
  nlargest fst_lt fst_eq false 3 [(2,0);(1,1);(2,2);(1,3);(0,4);(1,5)] = Ok [(2,0);(2,2);(1,1)] /\
  nsmallest fst_lt fst_eq false (-1) [(2,0)] = Ok [] /\
  merge fst_lt fst_eq false [[(1,0);(3,1)];[];[(1,2);(2,3);(3,4)];[(0,5)]] = Ok [(0,5);(1,0);(1,2);(2,3);(3,1);(3,4)] /\
  merge fst_lt fst_eq true [[(3,0);(1,1)];[(3,2);(2,3)]] = Ok [(3,0);(3,2);(2,3);(1,1)].
Proof. vm_compute. repeat split; reflexivity. Qed.
Example C12_example_order : strict_weak fst_lt /\ forall x y, fst_eq x y = negb (fst_lt x y) && negb (fst_lt y x).
Proof. split; [apply (sw_map fst Z.ltb sw_Zlt)|]. intros x y. unfold fst_eq, fst_lt. lia. Qed.
Example C13_example :
  bisect_left Z.ltb [1;2;2;2;5] 2 0 None = Ok 1 /\ bisect_right Z.ltb [1;2;2;2;5] 2 0 None = Ok 4 /\
  bisect_left Z.ltb [1;2;2;2;5] 2 2 (Some 4) = Ok 2 /\ insort_right Z.ltb (fun x => x) [1;2;5] 9 0 None = Ok [1;2;5;9].
Proof. vm_compute. auto. Qed.
