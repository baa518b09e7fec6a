(** C65: a sorted list. *)
From Coq Require Import List ZArith Lia Bool Permutation Sorted ZifyBool.
From Verif.Common Require Import Result Int64 Arr Ord Stable.
From Verif.Heap Require Import Model SortedListModel SortedListProofs.
Import ListNotations.
Local Open Scope Z_scope.

(** The values a history of additions and clears leaves, in the order they were added. *)
Definition live_values {A} (h : list (slop A)) : list A :=
  fold_left (fun acc o => match o with SAdd v => acc ++ [v] | SClear => [] | SDelete _ _ => acc end) h [].
Definition no_delete {A} (o : slop A) : Prop := match o with SDelete _ _ => False | _ => True end.
(** Internal deletions use positions that are not negative. *)
Definition plain_op {A} (o : slop A) : Prop := match o with SDelete pos idx => 0 <= pos /\ 0 <= idx | _ => True end.

Section Run.
Context {A : Type} (lt : A -> A -> bool) (W : strict_weak lt).

Lemma ins_split (v : A) a b : (forall x, In x a -> lt v x = false) -> (forall x, In x b -> lt v x = true) ->
  a ++ v :: b = ins lt v (a ++ b).
Proof.
  intros Ha Hb. rewrite ins_app_ge by auto. f_equal. destruct b as [|y b]; cbn [ins]; auto. rewrite Hb by (now left). reflexivity.
Qed.

Lemma sl_delete_range (s : slist A) pos idx : 0 <= pos -> 0 <= idx ->
  (exists L1 l L2, sl_lists s = L1 ++ l :: L2 /\ zlen L1 = pos /\ 0 <= idx < zlen l) \/ sl_delete s pos idx = Raise IndexError.
Proof.
  intros Hp Hi. unfold sl_delete. destruct (Z.ltb_spec pos (zlen (sl_lists s))) as [H|H].
  - destruct (split_at (sl_lists s) pos ltac:(lia)) as (L1 & l & L2 & E & Z1). rewrite E, <- Z1, lget_at. cbn [bind].
    destruct (Z.ltb_spec idx (zlen l)) as [H'|H']; [left; exists L1, l, L2; auto with zarith|right].
    unfold ldel. replace (idx <? 0) with false by lia. replace ((idx <? 0) || (zlen l <=? idx)) with true by lia. reflexivity.
  - right. unfold lget. replace (pos <? 0) with false by lia. replace ((pos <? 0) || (zlen (sl_lists s) <=? pos)) with true by lia. reflexivity.
Qed.

Lemma run_inv load h : forall s s', Inv lt s -> sl_load s = load -> Forall plain_op h -> sl_len s + zlen h < 2^62 ->
  sl_run lt s h = Ok s' -> Inv lt s' /\ sl_load s' = load /\ sl_len s' <= sl_len s + zlen h.
Proof.
  induction h as [|o h IH]; intros s s' I EL F B R; cbn [sl_run] in R.
  - injection R as <-. repeat split; auto; try apply I. unfold zlen. cbn. lia.
  - inversion F as [|? ? Fo Fh]; subst. rewrite zlen_cons in *. pose proof (zlen_nonneg h).
    destruct o as [v| |pos idx]; cbn [sl_do] in R.
    + destruct (add_ok lt W s v I ltac:(lia)) as (s1 & a & b & E & E1 & I1 & E2 & E3 & _). rewrite E in R. cbn [bind] in R.
      assert (LN : sl_len s1 = sl_len s + 1).
      { rewrite (iv_len _ _ I1), (iv_len _ _ I). unfold sl_iter in *. rewrite E2, E3, !zlen_app, zlen_cons. lia. }
      destruct (IH s1 s' I1 E1 Fh ltac:(lia) R) as (G1 & G2 & G3). repeat split; auto; try apply G1. lia.
    + cbn [bind] in R. pose proof (iv_len _ _ I) as LN. pose proof (zlen_nonneg (concat (sl_lists s))).
      destruct (IH (sl_clear s) s' (clear_ok _ _ I) eq_refl Fh ltac:(cbn; lia) R) as (G1 & G2 & G3). repeat split; auto; try apply G1. cbn in G3. lia.
    + cbn in Fo. destruct Fo as [P1 P2]. destruct (sl_delete_range s pos idx P1 P2) as [(L1 & l & L2 & EQ & Z1 & Z2)|EE]; [|rewrite EE in R; discriminate].
      destruct (delete_ok lt s pos idx I L1 l L2 EQ Z1 Z2) as (s1 & a & x & b & E & E1 & I1 & E2 & E3 & _). rewrite E in R. cbn [bind] in R.
      assert (LN : sl_len s1 = sl_len s - 1).
      { rewrite (iv_len _ _ I1), (iv_len _ _ I). unfold sl_iter in *. rewrite E2, E3, !zlen_app, zlen_cons. lia. }
      destruct (IH s1 s' I1 E1 Fh ltac:(lia) R) as (G1 & G2 & G3). repeat split; auto; try apply G1. lia.
Qed.

Lemma left_spec s : Inv lt s -> sl_left s = match sl_iter s with [] => Raise IndexError | x :: _ => Ok x end.
Proof.
  intros I. unfold sl_left, sl_iter. destruct (sl_lists s) as [|l L] eqn:E; [reflexivity|].
  pose proof (iv_max _ _ I) as F. rewrite E in F. inversion F as [|? m ? ? (p & ->)]; subst.
  rewrite lget_hd. cbn [bind concat]. destruct p as [|y p]; cbn [app]; apply lget_hd.
Qed.
End Run.

(** After any history of additions and clears on a new list, iterating gives exactly the values
    added since the last clear, sorted, equal ones in the order they were added; the length and
    truth value agree, and [left] is the first of them (IndexError when there is none). *)
Theorem C65_sorted_list : forall (A : Type) (lt : A -> A -> bool), strict_weak lt ->
  forall (load : Z) (h : list (slop A)), 1 <= load -> Forall no_delete h -> zlen h < 2^62 ->
  exists s, sl_run lt (sl_new load) h = Ok s /\
    stable_sort_of lt (live_values h) (sl_iter s) /\
    sl_size s = zlen (live_values h) /\
    sl_bool s = negb (zlen (live_values h) =? 0) /\
    sl_left s = match sl_iter s with [] => Raise IndexError | x :: _ => Ok x end.
Proof.
  intros A lt W load h HL F B.
  assert (G : forall h s, Inv lt s -> sl_load s = load -> Forall no_delete h -> sl_len s + zlen h < 2^62 ->
    forall acc, sl_iter s = ssort lt acc ->
    exists s', sl_run lt s h = Ok s' /\ Inv lt s' /\ sl_iter s' = ssort lt
      (fold_left (fun acc o => match o with SAdd v => acc ++ [v] | SClear => [] | SDelete _ _ => acc end) h acc)).
  { clear h F B. induction h as [|o h IH]; intros s I EL F B acc E; cbn [sl_run fold_left].
    - exists s. auto.
    - inversion F as [|? ? Fo Fh]; subst. rewrite zlen_cons in *. pose proof (zlen_nonneg h).
      destruct o as [v| |pos idx]; cbn [sl_do]; [| |contradiction].
      + destruct (add_ok lt W s v I ltac:(lia)) as (s1 & a & b & E0 & E1 & I1 & E2 & E3 & Ha & Hb). rewrite E0. cbn [bind].
        assert (LN : sl_len s1 = sl_len s + 1).
        { rewrite (iv_len _ _ I1), (iv_len _ _ I). unfold sl_iter in *. rewrite E2, E3, !zlen_app, zlen_cons. lia. }
        apply IH; auto; try lia. rewrite E3, (ins_split lt v a b), <- E2, E, ssort_snoc; auto.
      + cbn [bind]. pose proof (iv_len _ _ I). pose proof (zlen_nonneg (concat (sl_lists s))).
        apply IH; auto; [now apply clear_ok|cbn; lia]. }
  destruct (G h (sl_new load) (new_ok lt load HL) eq_refl F ltac:(cbn; lia) [] eq_refl) as (s & R & I & E).
  exists s. fold (live_values h) in E. pose proof (ssort_stable lt W (live_values h)) as S. rewrite <- E in S.
  assert (LN : sl_size s = zlen (live_values h)).
  { unfold sl_size. rewrite (iv_len _ _ I). unfold sl_iter in S. destruct S as [[P _] _]. apply Permutation_length in P. unfold zlen. lia. }
  split; auto. split; auto. split; auto. split; [|now apply (left_spec lt)].
  unfold sl_bool. unfold sl_size in LN. rewrite LN. pose proof (zlen_nonneg (live_values h)). lia.
Qed.
Print Assumptions C65_sorted_list.

(** In every state a history (now with internal deletions) can reach: the contents are sorted;
    every sublist has between one and twice the load factor elements; adding puts the value after
    everything not greater and before everything greater; deleting at a position of a sublist
    removes exactly that element, and any other position raises IndexError. *)
Theorem C65_operations : forall (A : Type) (lt : A -> A -> bool), strict_weak lt ->
  forall (load : Z) (h : list (slop A)) (s : slist A), 1 <= load -> Forall plain_op h -> zlen h < 2^62 - 1 ->
  sl_run lt (sl_new load) h = Ok s ->
  sorted_by lt (sl_iter s) /\ sl_size s = zlen (sl_iter s) /\
  (forall l, In l (sl_lists s) -> 1 <= zlen l <= 2 * load) /\
  (forall v, exists s' a b, sl_add lt s v = Ok s' /\ sl_iter s = a ++ b /\ sl_iter s' = a ++ v :: b /\
     (forall x, In x a -> lt v x = false) /\ (forall x, In x b -> lt v x = true)) /\
  (forall pos idx, 0 <= pos -> 0 <= idx ->
     (exists before l after, sl_lists s = before ++ l :: after /\ zlen before = pos /\ idx < zlen l /\
        exists s' a x b, sl_delete s pos idx = Ok s' /\ sl_iter s = a ++ x :: b /\ sl_iter s' = a ++ b /\
          zlen a = zlen (concat before) + idx) \/
     ((zlen (sl_lists s) <= pos \/ exists before l after, sl_lists s = before ++ l :: after /\ zlen before = pos /\ zlen l <= idx) /\
        sl_delete s pos idx = Raise IndexError)).
Proof.
  intros A lt W load h s HL F B R.
  destruct (run_inv lt W load h (sl_new load) s (new_ok lt load HL) eq_refl F ltac:(cbn; lia) R) as (I & EL & LN). cbn in LN.
  split; [apply I|]. split; [apply I|]. split; [|split].
  - intros l Hl. split.
    + destruct (Forall2_In_l _ _ _ (iv_max _ _ I) l Hl) as (m & _ & Hm). eapply has_max_zlen; eauto.
    + pose proof (iv_size _ _ I) as S. rewrite Forall_forall in S. rewrite <- EL. auto.
  - intros v. destruct (add_ok lt W s v I ltac:(lia)) as (s1 & a & b & E0 & E1 & I1 & E2 & E3 & Ha & Hb). exists s1, a, b. auto.
  - intros pos idx Hp Hi. destruct (Z.ltb_spec pos (zlen (sl_lists s))) as [H|H].
    + destruct (split_at (sl_lists s) pos ltac:(lia)) as (L1 & l & L2 & E & Z1).
      destruct (Z.ltb_spec idx (zlen l)) as [H'|H'].
      * left. exists L1, l, L2. split; auto. split; auto. split; auto.
        destruct (delete_ok lt s pos idx I L1 l L2 E Z1 ltac:(lia)) as (s1 & a & x & b & D & E1 & I1 & E2 & E3 & E4).
        exists s1, a, x, b. auto.
      * right. split; [right; exists L1, l, L2; auto|].
        destruct (sl_delete_range s pos idx Hp Hi) as [(L1' & l' & L2' & E' & Z1' & Z2')|EE]; auto.
        exfalso. assert (lget (sl_lists s) pos = Ok l /\ lget (sl_lists s) pos = Ok l') as [G1 G2].
        { split; [rewrite E, <- Z1; apply lget_at|rewrite E', <- Z1'; apply lget_at]. }
        rewrite G1 in G2. injection G2 as <-. lia.
    + right. split; [left; auto|].
      destruct (sl_delete_range s pos idx Hp Hi) as [(L1' & l' & L2' & E' & Z1' & Z2')|EE]; auto.
      exfalso. rewrite E', zlen_app, zlen_cons in H. pose proof (zlen_nonneg L2'). lia.
Qed.
Print Assumptions C65_operations.

(** Non-vacuity: keys with payloads, a load factor of one so that sublists split and merge. *)
Definition key_lt (a b : Z * Z) : bool := fst a <? fst b.
Example C65_example :
  (exists s, sl_run key_lt (sl_new 1) [SAdd (9,0); SClear; SAdd (2,1); SAdd (1,2); SAdd (2,3); SAdd (1,4); SAdd (0,5)] = Ok s /\
    sl_iter s = [(0,5); (1,2); (1,4); (2,1); (2,3)] /\ zlen (sl_lists s) = 3 /\ sl_left s = Ok (0,5)) /\
  (exists s, sl_run key_lt (sl_new 1) [SAdd (2,1); SAdd (1,2); SAdd (2,3); SAdd (1,4); SDelete 0 0; SDelete 1 0] = Ok s /\
    sl_iter s = [(1,4); (2,3)]) /\
  strict_weak key_lt /\ sl_left (sl_new 1000 : slist (Z * Z)) = Raise IndexError.
Proof.
  split; [eexists; vm_compute; repeat split|]. split; [eexists; vm_compute; repeat split|].
  split; [apply (sw_map fst), sw_Zlt|reflexivity].
Qed.
