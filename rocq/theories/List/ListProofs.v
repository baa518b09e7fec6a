(** Proofs about the list model: every operation refines its sequence counterpart. *)
From Coq Require Import List ZArith Lia Bool.
From Verif.Common Require Import Result Int64 Arr Tac.
From Verif.List Require Import SliceSpec SliceModel SliceProofs ListSpec ListModel.
Import ListNotations.
Local Open Scope Z_scope.
Local Arguments Z.add : simpl never.
Local Arguments Z.sub : simpl never.
Local Arguments Z.mul : simpl never.
Local Arguments Z.opp : simpl never.
Local Arguments Z.pow : simpl never.
Local Arguments Z.div : simpl never.

(** ** Indexing sequences by [Z] *)
Section Index.
Context {A : Type}.

Definition ze (xs : list A) (i : Z) : option A := nth_error xs (Z.to_nat i).
Notation zc := (zn (@None A)).

Lemma size_zlen (xs : list A) : size xs = zlen xs.
Proof. reflexivity. Qed.

Lemma zlen_app (x y : list A) : zlen (x ++ y) = zlen x + zlen y.
Proof. unfold zlen. rewrite app_length. lia. Qed.
Lemma zlen_cons (x : A) y : zlen (x :: y) = zlen y + 1.
Proof. unfold zlen. simpl length. lia. Qed.
Lemma zlen_nil : zlen (@nil A) = 0. Proof. reflexivity. Qed.
Lemma zlen_take p (x : list A) : 0 <= p <= zlen x -> zlen (take p x) = p.
Proof. unfold zlen, take. intros. rewrite firstn_length. lia. Qed.
Lemma zlen_drop p (x : list A) : 0 <= p <= zlen x -> zlen (drop p x) = zlen x - p.
Proof. unfold zlen, drop. intros. rewrite skipn_length. lia. Qed.
Lemma zlen_rev (x : list A) : zlen (rev x) = zlen x.
Proof. unfold zlen. now rewrite rev_length. Qed.
Lemma zlen_zsub (a : list A) lo hi : 0 <= lo <= hi -> hi <= zlen a -> zlen (zsub a lo hi) = hi - lo.
Proof. intros. unfold zlen at 1. rewrite zsub_length by lia. lia. Qed.
Lemma zlen_repeat (x : A) n : zlen (repeat x n) = Z.of_nat n.
Proof. unfold zlen. now rewrite repeat_length. Qed.

Lemma ze_some xs i : 0 <= i < zlen xs -> exists x, ze xs i = Some x.
Proof.
  intros H. unfold ze, zlen in *. destruct (nth_error xs (Z.to_nat i)) eqn:E; eauto.
  apply nth_error_None in E. lia.
Qed.
Lemma ze_none xs i : zlen xs <= i -> ze xs i = None.
Proof. intros H. unfold ze, zlen in *. apply nth_error_None. lia. Qed.
Lemma ze_range xs i x : 0 <= i -> ze xs i = Some x -> i < zlen xs.
Proof.
  intros H E. destruct (Z_lt_le_dec i (zlen xs)); auto. rewrite ze_none in E by auto. discriminate.
Qed.

Lemma ze_app xs ys i : 0 <= i ->
  ze (xs ++ ys) i = if i <? zlen xs then ze xs i else ze ys (i - zlen xs).
Proof.
  intros H. unfold ze, zlen. destruct (Z.ltb_spec i (Z.of_nat (length xs))).
  - apply nth_error_app1. lia.
  - rewrite nth_error_app2 by lia. f_equal. lia.
Qed.
Lemma ze_cons x xs i : ze (x :: xs) i = if i <=? 0 then Some x else ze xs (i - 1).
Proof.
  unfold ze. destruct (Z.leb_spec i 0).
  { now replace (Z.to_nat i) with 0%nat by lia. }
  replace (Z.to_nat i) with (S (Z.to_nat (i - 1))) by lia. reflexivity.
Qed.
Lemma nth_error_firstn_lt (l : list A) n k : (k < n)%nat -> nth_error (firstn n l) k = nth_error l k.
Proof.
  revert n k; induction l as [|x t IH]; intros [|n] [|k] H; simpl; auto; try lia.
  apply IH; lia.
Qed.
Lemma nth_error_skipn (l : list A) n k : nth_error (skipn n l) k = nth_error l (n + k).
Proof. revert n; induction l as [|x t IH]; intros [|n]; simpl; auto. now destruct k. Qed.
Lemma ze_take p xs i : 0 <= i < p -> ze (take p xs) i = ze xs i.
Proof. intros H. unfold ze, take. apply nth_error_firstn_lt. lia. Qed.
Lemma ze_drop p xs i : 0 <= i -> 0 <= p -> ze (drop p xs) i = ze xs (p + i).
Proof. intros H1 H2. unfold ze, drop. rewrite nth_error_skipn. f_equal. lia. Qed.
Lemma nth_error_rev (xs : list A) k : (k < length xs)%nat ->
  nth_error (rev xs) k = nth_error xs (length xs - 1 - k).
Proof.
  intros H. destruct xs as [|d t]; [simpl in H; lia|].
  set (l := d :: t) in *. rewrite !nth_error_nth' with (d := d) by (rewrite ?rev_length; lia).
  f_equal. rewrite rev_nth by lia. f_equal. lia.
Qed.
Lemma ze_rev xs i : 0 <= i < zlen xs -> ze (rev xs) i = ze xs (zlen xs - 1 - i).
Proof.
  unfold ze, zlen. intros H. rewrite nth_error_rev by lia. f_equal. lia.
Qed.

Lemma ze_ext xs ys : zlen xs = zlen ys -> (forall i, 0 <= i < zlen xs -> ze xs i = ze ys i) -> xs = ys.
Proof.
  revert ys; induction xs as [|x xs IH]; intros [|y ys] HL H; auto;
    try (unfold zlen in HL; simpl length in HL; lia).
  rewrite !zlen_cons in *. pose proof (zlen_nonneg xs).
  f_equal.
  - specialize (H 0 ltac:(lia)). inversion H. reflexivity.
  - apply IH; [lia|]. intros i Hi. specialize (H (i + 1) ltac:(lia)).
    rewrite !ze_cons in H. replace (i + 1 <=? 0) with false in H by lia.
    now replace (i + 1 - 1) with i in H by lia.
Qed.

(** ** Blocks *)
Lemma zc_app (x y : list (option A)) i : 0 <= i ->
  zc (x ++ y) i = if i <? zlen x then zc x i else zc y (i - zlen x).
Proof.
  intros H. unfold zn, zlen. destruct (Z.ltb_spec i (Z.of_nat (length x))).
  - apply app_nth1. lia.
  - rewrite app_nth2 by lia. f_equal. lia.
Qed.
Lemma zc_range (c : list (option A)) i x : 0 <= i -> zc c i = Some x -> i < zlen c.
Proof.
  intros H E. destruct (Z_lt_le_dec i (zlen c)); auto. exfalso.
  unfold zn, zlen in *. rewrite nth_overflow in E by lia. discriminate.
Qed.
Lemma zc_firstn (c : list (option A)) n i : 0 <= i < Z.of_nat n -> zc (firstn n c) i = zc c i.
Proof. intros H. unfold zn. apply nth_firstn_lt. lia. Qed.

(** ** Representation *)

(** [l] holds the sequence [xs]. *)
Definition repr (l : lst A) (xs : list A) : Prop :=
  len l = zlen xs /\ zlen xs <= zlen (cells l) /\
  forall i, 0 <= i < zlen xs -> zc (cells l) i = ze xs i.

(** The same, in structural terms. *)
Lemma repr_iff l xs :
  repr l xs <-> len l = zlen xs /\ exists spare, cells l = map Some xs ++ spare.
Proof.
  assert (Z1 : forall i, zc (map Some xs) i = ze xs i).
  { intros i. unfold zn, ze. generalize (Z.to_nat i) as n. clear.
    induction xs; destruct n; simpl; auto. }
  assert (ML : zlen (map Some xs) = zlen xs) by (unfold zlen; now rewrite map_length).
  split.
  - intros (H1 & H2 & H3). split; [assumption|].
    exists (zsub (cells l) (zlen xs) (zlen (cells l))).
    pose proof (zlen_nonneg xs).
    apply (list_eq_zn None).
    + unfold zlen at 2. rewrite app_length, map_length, zsub_length by lia. unfold zlen in *. lia.
    + intros i Hi. rewrite zc_app by lia. rewrite ML.
      destruct (Z.ltb_spec i (zlen xs)).
      * rewrite H3 by lia. now rewrite Z1.
      * rewrite zn_zsub by lia. f_equal. lia.
  - intros (H1 & spare & E). split; [assumption|]. rewrite E. split.
    + unfold zlen in *. rewrite app_length, map_length. lia.
    + intros i Hi. rewrite zc_app by lia. rewrite ML. replace (i <? zlen xs) with true by lia.
      now rewrite Z1.
Qed.

Lemma repr_len l xs : repr l xs -> len l = zlen xs. Proof. now intros (H & _). Qed.

Lemma get_ok (l : lst A) i x : 0 <= i -> zc (cells l) i = Some x -> get_ l i = Ok x.
Proof.
  intros H E. unfold get_. rewrite (aget_ok None) by (split; [lia|eapply zc_range; eauto]).
  simpl. rewrite E. reflexivity.
Qed.

Lemma get_wp (l : lst A) i x (Q : A -> Prop) : 0 <= i -> zc (cells l) i = Some x -> Q x -> wp (get_ l i) Q.
Proof. intros H E HQ. rewrite (get_ok l i x) by auto. exact HQ. Qed.

Lemma set_wp (l : lst A) i x (Q : lst A -> Prop) : 0 <= i < zlen (cells l) ->
  Q (L (upd (cells l) i (Some x)) (len l)) -> wp (set_ l i x) Q.
Proof. intros H HQ. unfold set_. rewrite aset_ok by lia. exact HQ. Qed.

Lemma realloc_spec (c : list (option A)) n : 0 <= n ->
  wp (realloc c n) (fun c' => zlen c' = n /\
    forall i, 0 <= i < n -> i < zlen c -> zc c' i = zc c i).
Proof.
  intros H. unfold realloc. replace (n <? 0) with false by lia. apply wp_ok. split.
  - unfold zlen in *. rewrite app_length, firstn_length, repeat_length. lia.
  - intros i H1 H2. rewrite zc_app by lia. unfold zlen in *. rewrite firstn_length.
    destruct (Z.ltb_spec i (Z.of_nat (Nat.min (Z.to_nat n) (length c)))); [|lia].
    apply zc_firstn. lia.
Qed.

Lemma memmove_spec (dst : list (option A)) d src s n :
  0 <= n -> (n = 0 \/ 0 <= d /\ 0 <= s /\ d + n <= zlen dst /\ s + n <= zlen src) ->
  wp (memmove dst d src s n) (fun c => zlen c = zlen dst /\
    forall i, 0 <= i ->
      zc c i = if (d <=? i) && (i <? d + n) then zc src (s + (i - d)) else zc dst i).
Proof.
  intros Hn H. unfold memmove. destruct (Z.eqb_spec n 0) as [->|Hne].
  - apply wp_ok. split; [reflexivity|]. intros i Hi.
    replace ((d <=? i) && (i <? d + 0)) with false by lia. reflexivity.
  - destruct H as [H|(H1 & H2 & H3 & H4)]; [lia|].
    replace ((n <? 0) || (d <? 0) || (s <? 0) || (zlen dst <? d + n) || (zlen src <? s + n))
      with false by lia.
    assert (L1 : zlen (zsub dst 0 d) = d).
    { unfold zlen at 1. rewrite zsub_length by lia. lia. }
    assert (L2 : zlen (zsub src s (s + n)) = n).
    { unfold zlen at 1. rewrite zsub_length by lia. lia. }
    apply wp_ok. split.
    + unfold zlen in *. rewrite !app_length. rewrite (zsub_length dst (d + n)) by (unfold zlen; lia).
      unfold zlen. lia.
    + intros i Hi. rewrite zc_app by lia. rewrite L1. destruct (Z.ltb_spec i d).
      * replace ((d <=? i) && (i <? d + n)) with false by lia. rewrite zn_zsub by lia. reflexivity.
      * rewrite zc_app by lia. rewrite L2. destruct (Z.ltb_spec (i - d) n).
        -- replace ((d <=? i) && (i <? d + n)) with true by lia. now rewrite zn_zsub by lia.
        -- replace ((d <=? i) && (i <? d + n)) with false by lia.
           destruct (Z_lt_le_dec i (zlen dst)).
           ++ rewrite zn_zsub by lia. f_equal. lia.
           ++ unfold zn. rewrite !nth_overflow; auto; unfold zlen in *; [lia|].
              rewrite zsub_length by (unfold zlen; lia). lia.
Qed.

End Index.

Notation zc := (zn None).

(** Pointwise goals: expose lengths, split comparisons. *)
Ltac zsz1 := first
  [ rewrite zlen_app | rewrite zlen_cons | rewrite zlen_rev
  | match goal with |- context[zlen (@nil ?T)] => change (zlen (@nil T)) with 0 end
  | rewrite zlen_upd | rewrite zlen_take by (repeat zsz1; lia)
  | rewrite zlen_drop by (repeat zsz1; lia) ].
Ltac zsz := repeat zsz1.

Ltac szz := repeat match goal with
  | |- context[@size ?T] => change (@size T) with (@zlen T)
  | H : context[@size ?T] |- _ => change (@size T) with (@zlen T) in H
  end.

Ltac zcmp := repeat match goal with
  | |- context[?a <? ?b] => destruct (Z.ltb_spec a b)
  | |- context[?a =? ?b] => destruct (Z.eqb_spec a b)
  | |- context[?a <=? ?b] => destruct (Z.leb_spec a b) end.

Section Ops.
Context {A : Type} (eqb ltb : A -> A -> bool).
Notation lst := (lst A).
Notation repr := (@repr A).

Lemma resize_spec (l : lst) xs n : repr l xs -> zlen xs <= n ->
  wp (resize l n) (fun l' => repr l' xs /\ zlen (cells l') = n).
Proof.
  intros (H1 & H2 & H3) Hn. pose proof (zlen_nonneg xs).
  unfold resize. apply wp_bind. eapply wp_conseq; [apply realloc_spec; lia|].
  intros c (Hc & He). apply wp_ok. split; [|exact Hc]. repeat split; simpl; auto; try lia.
  intros i Hi. rewrite He by lia. now apply H3.
Qed.

Lemma resize_if_full_spec (l : lst) xs : repr l xs ->
  wp (resize_if_full l) (fun l' => repr l' xs /\ zlen xs < zlen (cells l')).
Proof.
  intros H. assert (HL := repr_len _ _ H). pose proof (zlen_nonneg xs).
  unfold resize_if_full. apply wp_if; intros E.
  - cbv zeta. pose proof (Z.div_mod (1 + 3 * len l) 2 ltac:(lia)).
    pose proof (Z.mod_pos_bound (1 + 3 * len l) 2 ltac:(lia)).
    destruct (Z.leb_spec ((1 + 3 * len l) / 2) 0) as [G1|G1].
    + eapply wp_conseq; [apply (resize_spec l xs); [assumption|lia]|].
      cbv beta. intros l' (R & C). split; [assumption|lia].
    + eapply wp_conseq; [apply (resize_spec l xs); [assumption|lia]|].
      cbv beta. intros l' (R & C). split; [assumption|lia].
  - apply wp_ok. split; [assumption|]. destruct H as (_ & H & _). lia.
Qed.

Lemma append_spec (l : lst) xs x : repr l xs ->
  wp (append l x) (fun l' => repr l' (xs ++ [x])).
Proof.
  intros H. pose proof (zlen_nonneg xs). unfold append. apply wp_bind.
  eapply wp_conseq; [apply resize_if_full_spec; eassumption|]. intros l1 ((R1 & R2 & R3) & C).
  apply wp_bind. apply set_wp; [lia|]. apply wp_ok. split; [|split]; simpl.
  - zsz. lia.
  - zsz. lia.
  - intros i. zsz. intros Hi. rewrite zn_upd by lia. rewrite ze_app, ze_cons by lia.
    rewrite R1. zcmp; try lia; auto. apply R3; lia.
Qed.

Lemma extend_spec itr : forall (l : lst) xs, repr l xs ->
  wp (extend l itr) (fun l' => repr l' (xs ++ itr)).
Proof.
  induction itr as [|a itr IH]; intros l xs H; simpl.
  - apply wp_ok. now rewrite app_nil_r.
  - apply wp_bind. eapply wp_conseq; [apply append_spec; eassumption|]. intros l1 R.
    eapply wp_conseq; [apply IH; exact R|]. cbv beta. intros l2 R2. now rewrite <- app_assoc in R2.
Qed.

Lemma getitem_ok (l : lst) xs i : repr l xs -> 0 <= i < zlen xs ->
  exists x, ze xs i = Some x /\ get_ l i = Ok x.
Proof.
  intros (H1 & H2 & H3) Hi. destruct (ze_some xs i Hi) as [x E]. exists x. split; auto.
  apply get_ok; [lia|]. now rewrite H3.
Qed.

Lemma getitem_spec (l : lst) xs i : repr l xs ->
  getitem l i = match item xs i with Some x => Ok x | None => Raise IndexError end.
Proof.
  intros R. pose proof (repr_len _ _ R) as HL. unfold getitem, item, valid, norm, idx_check.
  szz; rewrite HL.
  set (k := if i <? 0 then i + zlen xs else i).
  destruct (Z.leb_spec (zlen xs) k); destruct (Z.ltb_spec k 0); destruct (Z.leb_spec 0 k);
    destruct (Z.ltb_spec k (zlen xs)); try lia; simpl; auto.
  destruct (getitem_ok l xs k R ltac:(lia)) as (x & E & ->). unfold ze in E. now rewrite E.
Qed.

Lemma setitem_spec (l : lst) xs i x : repr l xs ->
  if valid xs i then wp (setitem l i x) (fun l' => repr l' (replace_at xs (norm xs i) x))
  else setitem l i x = Raise IndexError.
Proof.
  intros R. assert (R' := R). destruct R' as (HL & HC & HP).
  unfold setitem, valid, norm, idx_check. szz; rewrite HL.
  set (k := if i <? 0 then i + zlen xs else i).
  destruct (Z.leb_spec (zlen xs) k); destruct (Z.ltb_spec k 0); destruct (Z.leb_spec 0 k);
    destruct (Z.ltb_spec k (zlen xs)); try lia; simpl; auto.
  apply set_wp; [lia|]. unfold replace_at. split; [|split]; simpl.
  - zsz. lia.
  - zsz. lia.
  - intros j. zsz. intros Hj. rewrite zn_upd by lia. rewrite ze_app, ze_cons by lia. zsz.
    zcmp; try lia; auto.
    + rewrite ze_take by lia. apply HP; lia.
    + rewrite ze_drop by lia. rewrite HP by lia. f_equal. lia.
Qed.

Lemma delitem_spec (l : lst) xs i : repr l xs ->
  if valid xs i then wp (delitem l i) (fun l' => repr l' (delete_at xs (norm xs i)))
  else delitem l i = Raise IndexError.
Proof.
  intros R. assert (R' := R). destruct R' as (HL & HC & HP).
  unfold delitem, valid, norm, idx_check. szz; rewrite HL.
  set (k := if i <? 0 then i + zlen xs else i).
  destruct (Z.leb_spec (zlen xs) k); destruct (Z.ltb_spec k 0); destruct (Z.leb_spec 0 k);
    destruct (Z.ltb_spec k (zlen xs)); try lia; cbn [bind orb andb]; auto.
  apply wp_bind.
  apply (wp_loop (fun '(l', idx) => len l' = zlen xs /\ zlen (cells l') = zlen (cells l) /\
      k <= idx <= zlen xs - 1 /\
      (forall j, 0 <= j < idx -> zc (cells l') j = ze (delete_at xs k) j) /\
      (forall j, idx <= j < zlen xs -> zc (cells l') j = ze xs j))
    (fun '(l', idx) => Z.to_nat (zlen xs - idx))).
  - intros (l', idx) (I1 & I2 & I3 & I4 & I5). unfold del_body. apply wp_if; intros E; zb.
    + destruct (ze_some xs (idx + 1) ltac:(lia)) as [x Ex].
      apply wp_bind. apply (get_wp l' (idx + 1) x); [lia|rewrite I5 by lia; assumption|].
      apply wp_bind. apply set_wp; [lia|]. apply wp_ok. simpl. split; [|lia].
      split; [lia|]. split; [zsz; lia|]. split; [lia|]. split.
      * intros j Hj. rewrite zn_upd by lia. destruct (Z.eqb_spec j idx) as [->|].
        -- unfold delete_at. rewrite ze_app by lia. zsz. zcmp; [lia|].
           rewrite ze_drop by lia. rewrite <- Ex. f_equal. lia.
        -- apply I4. lia.
      * intros j Hj. rewrite zn_upd by lia. zcmp; [lia|]. apply I5. lia.
    + apply wp_ok. assert (idx = zlen xs - 1) by lia. subst idx.
      unfold delete_at in *. split; [|split]; simpl.
      * zsz. lia.
      * zsz. lia.
      * intros j. zsz. intros Hj. apply I4. lia.
  - repeat split; auto; try lia; intros j Hj; [|apply HP; lia].
    unfold delete_at. rewrite ze_app by lia. zsz.
    zcmp; [|lia]. rewrite ze_take by lia. apply HP. lia.
  - simpl. lia.
Qed.

Lemma insert_spec (l : lst) xs i x : repr l xs ->
  wp (insert l i x) (fun l' => repr l' (insert_at xs i x)).
Proof.
  intros R. pose proof (zlen_nonneg xs) as NN. pose proof (repr_len _ _ R) as HL. unfold insert.
  rewrite HL. cbv zeta.
  set (k := if zlen xs <? (if i <? 0 then if i + zlen xs <? 0 then 0 else i + zlen xs else i)
            then zlen xs else if i <? 0 then if i + zlen xs <? 0 then 0 else i + zlen xs else i).
  assert (Hk : k = Z.min (size xs) (Z.max 0 (norm xs i))).
  { unfold k, norm. szz. destruct (Z.ltb_spec i 0); [destruct (Z.ltb_spec (i + zlen xs) 0)|]; zcmp; lia. }
  assert (Hk' : 0 <= k <= zlen xs). { rewrite Hk; szz; lia. }
  apply wp_bind. eapply wp_conseq; [apply resize_if_full_spec; eassumption|].
  intros l1 ((R1 & R2 & R3) & C). apply wp_bind.
  apply (wp_loop (fun '(l', i) => len l' = zlen xs /\ zlen (cells l') = zlen (cells l1) /\
      k <= i <= zlen xs /\
      (forall j, 0 <= j < i -> zc (cells l') j = ze xs j) /\
      (forall j, i < j <= zlen xs -> zc (cells l') j = ze xs (j - 1)))
    (fun '(l', i) => Z.to_nat i)).
  - intros (l', idx) (I1 & I2 & I3 & I4 & I5). unfold insert_body. apply wp_if; intros E; zb.
    + destruct (ze_some xs (idx - 1) ltac:(lia)) as [y Ex].
      apply wp_bind. apply (get_wp l' (idx - 1) y); [lia|rewrite I4 by lia; assumption|].
      apply wp_bind. apply set_wp; [lia|]. apply wp_ok. simpl. split; [|lia].
      split; [lia|]. split; [zsz; lia|]. split; [lia|]. split.
      * intros j Hj. rewrite zn_upd by lia. zcmp; [lia|]. apply I4; lia.
      * intros j Hj. rewrite zn_upd by lia. zcmp; [subst; auto|]. apply I5. lia.
    + apply wp_ok. assert (idx = k) by lia. subst idx. apply wp_bind. apply set_wp; [lia|].
      apply wp_ok. unfold insert_at. rewrite <- Hk. cbv zeta. split; [|split]; simpl.
      * zsz. lia.
      * zsz. lia.
      * intros j. zsz. intros Hj. rewrite zn_upd by lia. rewrite ze_app, ze_cons by lia. zsz.
        zcmp; try lia; auto.
        -- rewrite ze_take by lia. apply I4. lia.
        -- rewrite ze_drop by lia. rewrite I5 by lia. f_equal. lia.
  - repeat split; auto; lia.
  - lia.
Qed.

Lemma pop_spec (l : lst) xs i : repr l xs ->
  match item xs i with
  | Some x => wp (pop l i) (fun '(y, l') => y = x /\ repr l' (delete_at xs (norm xs i)))
  | None => pop l i = Raise IndexError
  end.
Proof.
  intros R. pose proof (zlen_nonneg xs) as NN. pose proof (repr_len _ _ R) as HL.
  unfold pop, item. pose proof (delitem_spec l xs (norm xs i) R) as D.
  unfold valid in *. unfold idx_check. rewrite HL.
  replace (if i <? 0 then i + zlen xs else i) with (norm xs i) by (unfold norm; szz; reflexivity).
  set (k := norm xs i) in *. unfold norm in D. szz.
  destruct (Z.leb_spec 0 k); destruct (Z.ltb_spec k (zlen xs)); destruct (Z.eqb_spec (zlen xs) 0);
    destruct (Z.leb_spec (zlen xs) k); destruct (Z.ltb_spec k 0); try lia; cbn [bind orb andb]; auto.
  simpl andb in D. cbv beta iota in D.
  destruct (getitem_ok l xs k R ltac:(lia)) as (x & E & ->). unfold ze in E. rewrite E. simpl.
  replace (0 <=? k) with true in D by lia. replace (k <? zlen xs) with true in D by lia. simpl in D.
  apply wp_bind. eapply wp_conseq; [exact D|]. intros l' R'. apply wp_ok. auto.
Qed.

Lemma copy_spec (l : lst) xs : repr l xs -> wp (copy l) (fun l' => repr l' xs).
Proof.
  intros (H1 & H2 & H3). unfold copy, alloc. pose proof (zlen_nonneg xs). pose proof (zlen_nonneg (cells l)).
  apply wp_bind. eapply wp_conseq; [apply realloc_spec; lia|]. intros p (Lp & _).
  apply wp_bind. eapply wp_conseq; [apply memmove_spec; lia|]. cbv beta. intros c (Lc & Ec).
  apply wp_ok. split; [|split]; simpl; auto; try lia.
  intros i Hi. rewrite Ec by lia. replace ((0 <=? i) && (i <? 0 + zlen (cells l))) with true by lia.
  rewrite <- H3 by lia. f_equal. lia.
Qed.

Lemma new_cap_spec n : 0 <= n ->
  wp (list_new_cap n) (fun l' : lst => zlen (cells l') = n /\ len l' = 0).
Proof.
  intros H. unfold list_new_cap. replace (n <? 0) with false by lia. unfold alloc.
  apply wp_bind. eapply wp_conseq; [apply realloc_spec; lia|]. intros p (Lp & _). now apply wp_ok.
Qed.

Lemma list_new_spec : wp list_new (fun l' : lst => repr l' []).
Proof. apply wp_ok. split; [|split]; auto; unfold zlen; simpl; lia. Qed.

Lemma empty_repr (l : lst) : len l = 0 -> repr l [].
Proof.
  intros H. pose proof (zlen_nonneg (cells l)). split; [|split]; auto.
  intros i. change (zlen (@nil A)) with 0. lia.
Qed.

Lemma add_spec (l o : lst) xs ys : repr l xs -> repr o ys ->
  wp (add l o) (fun l' => repr l' (xs ++ ys)).
Proof.
  intros (H1 & H2 & H3) (O1 & O2 & O3). pose proof (zlen_nonneg xs). pose proof (zlen_nonneg ys).
  unfold add. rewrite H1, O1.
  apply wp_bind. eapply wp_conseq; [apply new_cap_spec; lia|]. intros v (Lv & _).
  apply wp_bind. eapply wp_conseq; [apply memmove_spec; lia|]. intros c1 (L1 & E1).
  apply wp_bind. eapply wp_conseq; [apply memmove_spec; lia|]. intros c2 (L2 & E2).
  apply wp_ok. split; [|split]; simpl.
  - zsz. lia.
  - zsz. lia.
  - intros i. zsz. intros Hi. rewrite E2, E1 by lia. rewrite ze_app by lia.
    destruct (Z.ltb_spec i (zlen xs)).
    + replace ((zlen xs <=? i) && (i <? zlen xs + zlen ys)) with false by lia.
      replace ((0 <=? i) && (i <? 0 + zlen xs)) with true by lia.
      rewrite <- H3 by lia. f_equal; lia.
    + replace ((zlen xs <=? i) && (i <? zlen xs + zlen ys)) with true by lia.
      rewrite O3 by lia. f_equal; lia.
Qed.

Lemma iadd_core (l1 : lst) xs (src : list (option A)) ys :
  repr l1 xs -> zlen xs + zlen ys <= zlen (cells l1) -> zlen ys <= zlen src ->
  (forall i, 0 <= i < zlen ys -> zc src i = ze ys i) ->
  wp (bind (memmove (cells l1) (len l1) src 0 (zlen ys))
        (fun c => Ok (L c (zlen xs + zlen ys)))) (fun l' => repr l' (xs ++ ys)).
Proof.
  intros (H1 & H2 & H3) HC HS HE. pose proof (zlen_nonneg xs). pose proof (zlen_nonneg ys).
  rewrite H1. apply wp_bind. eapply wp_conseq; [apply memmove_spec; lia|]. intros c (Lc & Ec).
  apply wp_ok. split; [|split]; simpl.
  - zsz. lia.
  - zsz. lia.
  - intros i. zsz. intros Hi. rewrite Ec by lia. rewrite ze_app by lia.
    destruct (Z.ltb_spec i (zlen xs)).
    + replace ((zlen xs <=? i) && (i <? zlen xs + zlen ys)) with false by lia. now rewrite H3 by lia.
    + replace ((zlen xs <=? i) && (i <? zlen xs + zlen ys)) with true by lia.
      rewrite HE by lia. f_equal; lia.
Qed.

Lemma iadd_spec (l o : lst) xs ys : repr l xs -> repr o ys ->
  wp (iadd l o) (fun l' => repr l' (xs ++ ys)).
Proof.
  intros R (O1 & O2 & O3). pose proof (repr_len _ _ R) as HL. unfold iadd. rewrite HL, O1. cbv zeta.
  pose proof (zlen_nonneg ys). apply wp_bind. apply wp_if; intros E; zb.
  - eapply wp_conseq; [apply (resize_spec l xs); [assumption|lia]|]. intros l1 (R1 & C1).
    apply iadd_core; auto; lia.
  - apply wp_ok. apply iadd_core; auto; lia.
Qed.

Lemma iadd_self_spec (l : lst) xs : repr l xs -> wp (iadd_self l) (fun l' => repr l' (xs ++ xs)).
Proof.
  intros R. pose proof (repr_len _ _ R) as HL. unfold iadd_self. rewrite HL. cbv zeta.
  pose proof (zlen_nonneg xs). apply wp_bind. apply wp_if; intros E; zb.
  - eapply wp_conseq; [apply (resize_spec l xs); [assumption|lia]|]. intros l1 (R1 & C1).
    rewrite (repr_len _ _ R1) at 2. apply iadd_core; auto; try lia; apply R1.
  - apply wp_ok. rewrite HL at 2. apply iadd_core; auto; try lia; apply R.
Qed.

(** [for a in src: dst.append(a)] *)
Lemma append_all_spec (src dst : lst) xs ys : repr src xs -> repr dst ys ->
  forall fuel, (Z.to_nat (zlen xs) < fuel)%nat ->
  wp (loop fuel (mul_inner src) (dst, 0)) (fun v => repr v (ys ++ xs)).
Proof.
  intros R Rd fuel Hf. pose proof (repr_len _ _ R) as HL.
  apply (wp_loop (fun '(v, j) => 0 <= j <= zlen xs /\ repr v (ys ++ take j xs))
    (fun '(v, j) => Z.to_nat (zlen xs - j))).
  - intros (v, j) (Hj & Rv). unfold mul_inner. rewrite HL. apply wp_if; intros E; zb.
    + destruct (getitem_ok src xs j R ltac:(lia)) as (x & Ex & ->).
      apply wp_bind. apply wp_ok. apply wp_bind.
      eapply wp_conseq; [apply append_spec; exact Rv|]. intros v1 R1. apply wp_ok.
      split; [|lia]. split; [lia|]. rewrite <- app_assoc in R1.
      replace (take (j + 1) xs) with (take j xs ++ [x]); [assumption|].
      apply ze_ext; zsz; [lia|]. intros i Hi. rewrite ze_app, ze_cons by lia. zsz.
      rewrite (ze_take (j + 1)) by lia. zcmp; try lia.
      * apply ze_take. lia.
      * rewrite <- Ex. f_equal. lia.
    + apply wp_ok. replace (take j xs) with xs in Rv; [assumption|].
      unfold take. rewrite firstn_all2; auto. unfold zlen in *. lia.
  - split; [pose proof (zlen_nonneg xs); lia|]. unfold take. simpl. now rewrite app_nil_r.
  - lia.
Qed.

Lemma times_succ n (xs : list A) : 0 <= n -> times (n + 1) xs = times n xs ++ xs.
Proof.
  intros H. unfold times. replace (Z.to_nat (n + 1)) with (Z.to_nat n + 1)%nat by lia.
  rewrite repeat_app, concat_app. simpl. now rewrite app_nil_r.
Qed.
Lemma times_nonpos n (xs : list A) : n <= 0 -> times n xs = [].
Proof. intros H. unfold times. now replace (Z.to_nat n) with 0%nat by lia. Qed.
Lemma zlen_times n (xs : list A) : 0 <= n -> zlen (times n xs) = n * zlen xs.
Proof.
  intros H. rewrite <- (Z2Nat.id n H) at 2. unfold times. generalize (Z.to_nat n) as m.
  induction m; simpl repeat; simpl concat; [reflexivity|]. rewrite zlen_app, IHm. lia.
Qed.

Lemma mul_spec (l : lst) xs n : repr l xs -> zlen (times n xs) <= 2^59 ->
  wp (mul l n) (fun l' => repr l' (times n xs)).
Proof.
  intros R HB. pose proof (repr_len _ _ R) as HL. pose proof (zlen_nonneg xs). unfold mul. apply wp_if; intros E; zb.
  - rewrite times_nonpos by lia. apply list_new_spec.
  - rewrite zlen_times in HB by lia. rewrite HL, w64_small by nia. rewrite <- HL.
    apply wp_bind. eapply wp_conseq; [apply new_cap_spec; nia|]. intros v (Lv & Lv0).
    apply (wp_loop (fun '(v, i) => 0 <= i <= n /\ repr v (times i xs))
             (fun '(v, i) => Z.to_nat (n - i))).
    + intros (v', i) (Hi & Rv). unfold mul_outer. apply wp_if; intros E'; zb.
      * apply wp_bind. eapply wp_conseq; [apply (append_all_spec l v' xs); eauto; lia|].
        cbv beta. intros v1 R1. apply wp_ok. split; [|lia]. split; [lia|].
        now rewrite times_succ by lia.
      * apply wp_ok. now replace n with i by lia.
    + split; [lia|]. rewrite times_nonpos by lia. now apply empty_repr.
    + lia.
Qed.

Lemma ze_times n (xs : list A) i : 0 <= n -> 0 <= i < n * zlen xs ->
  ze (times n xs) i = ze xs (i mod zlen xs).
Proof.
  intros Hn. rewrite <- (Z2Nat.id n Hn). unfold times. rewrite Nat2Z.id.
  generalize (Z.to_nat n) as m. intros m. revert i. pose proof (zlen_nonneg xs).
  induction m as [|m IH]; intros i Hi; [lia|]. simpl repeat. simpl concat.
  rewrite ze_app by lia. zcmp.
  - rewrite Z.mod_small by lia. reflexivity.
  - rewrite IH by lia. f_equal.
    replace i with (i - zlen xs + 1 * zlen xs) at 2 by lia. rewrite Z.mod_add by lia. reflexivity.
Qed.

Lemma imul_spec (l : lst) xs n : repr l xs -> zlen (times n xs) <= 2^59 ->
  wp (imul l n) (fun l' => repr l' (times n xs)).
Proof.
  intros R HB. pose proof (repr_len _ _ R) as HL. pose proof (zlen_nonneg xs). unfold imul.
  apply wp_if; intros E; zb; [|apply wp_if; intros E2; zb].
  - subst n. apply wp_ok. unfold times. simpl. now rewrite app_nil_r.
  - apply wp_ok. rewrite times_nonpos by lia. now apply empty_repr.
  - rewrite zlen_times in HB by lia. rewrite HL, w64_small by nia. cbv zeta.
    apply wp_bind.
    assert (HM : wp (if zlen (cells l) <? n * zlen xs then resize l (n * zlen xs) else Ok l)
               (fun l1 => repr l1 xs /\ n * zlen xs <= zlen (cells l1))).
    { apply wp_if; intros E3; zb.
      - eapply wp_conseq; [apply (resize_spec l xs); [assumption|nia]|]. cbv beta. intros l1 (R1 & C1).
        split; [assumption|lia].
      - apply wp_ok. auto. }
    eapply wp_conseq; [exact HM|]. intros l1 ((R1 & R2 & R3) & C1). apply wp_bind.
    set (m := zlen xs) in *.
    apply (wp_loop (fun '(l', idx, i) => 0 <= i <= n - 1 /\ idx = (i + 1) * m /\
        zlen (cells l') = zlen (cells l1) /\
        forall j, 0 <= j < idx -> zc (cells l') j = ze xs (j mod m))
      (fun '(l', idx, i) => Z.to_nat (n - i))).
    + intros ((l', idx), i) (I1 & I2 & I3 & I4). unfold imul_outer. apply wp_if; intros E3; zb.
      * apply wp_bind.
        apply (wp_loop (fun '(l2, id2, j) => 0 <= j <= m /\ id2 = idx + j /\
            zlen (cells l2) = zlen (cells l1) /\
            forall k, 0 <= k < id2 -> zc (cells l2) k = ze xs (k mod m))
          (fun '(l2, id2, j) => Z.to_nat (m - j))).
        -- intros ((l2, id2), j) (J1 & J2 & J3 & J4). unfold imul_inner. apply wp_if; intros E4; zb.
           ++ destruct (ze_some xs j ltac:(fold m; lia)) as [x Ex].
              assert (MB : (i + 1) * m <= (n - 1) * m) by (apply Z.mul_le_mono_nonneg_r; lia).
              assert (m <= (i + 1) * m) by nia.
              apply wp_bind. apply (get_wp l2 j x); [lia| |].
              { rewrite J4 by lia. rewrite Z.mod_small by lia. assumption. }
              apply wp_bind. apply set_wp; [nia|]. apply wp_ok. split; [|lia].
              split; [lia|]. split; [lia|]. split; [simpl; zsz; lia|]. simpl.
              intros k Hk. rewrite zn_upd by (try rewrite J3; nia). destruct (Z.eqb_spec k id2) as [->|].
              ** rewrite J2, I2. replace ((i + 1) * m + j) with (j + (i + 1) * m) by lia.
                 rewrite Z.mod_add by lia. rewrite Z.mod_small by lia. auto.
              ** apply J4. lia.
           ++ apply wp_ok. apply wp_ok. split; [|lia]. split; [lia|]. split; [|split; auto].
              rewrite J2, I2. replace j with m by lia. lia.
        -- split; [lia|]. split; [lia|]. split; auto.
        -- lia.
      * apply wp_ok. assert (i = n - 1) by lia. subst i.
        split; [|split]; simpl.
        -- rewrite zlen_times by lia. reflexivity.
        -- rewrite zlen_times by lia. fold m. lia.
        -- intros j. rewrite zlen_times by lia. fold m. intros Hj.
           rewrite ze_times by (fold m; lia). fold m. apply I4. lia.
    + split; [lia|]. split; [lia|]. split; auto. intros j Hj. rewrite Z.mod_small by lia. apply R3. lia.
    + lia.
Qed.

Lemma first_index_bound (xs : list A) x i : first_index eqb xs x = Some i -> 0 <= i < zlen xs.
Proof.
  revert i; induction xs as [|a xs IH]; intros i H; simpl in H; [discriminate|].
  rewrite zlen_cons. pose proof (zlen_nonneg xs).
  destruct (eqb a x); [inversion H; lia|].
  destruct (first_index eqb xs x); [|discriminate]. inversion H. specialize (IH z eq_refl). lia.
Qed.

Lemma drop_cons j (xs : list A) x : 0 <= j -> ze xs j = Some x -> drop j xs = x :: drop (j + 1) xs.
Proof.
  intros Hj E. assert (j < zlen xs) by (eapply ze_range; eauto).
  apply ze_ext; zsz; [lia|]. intros i Hi. rewrite ze_cons, ze_drop by lia.
  zcmp; [replace (j + i) with j by lia; assumption|]. rewrite ze_drop by lia. f_equal. lia.
Qed.
Lemma drop_all j (xs : list A) : zlen xs <= j -> drop j xs = [].
Proof. intros H. unfold drop. apply skipn_all2. unfold zlen in H. lia. Qed.
Lemma drop_zero (xs : list A) : drop 0 xs = xs.
Proof. reflexivity. Qed.

Lemma find_spec (l : lst) xs x : repr l xs ->
  find eqb l x = Ok (match first_index eqb xs x with Some i => i | None => -1 end).
Proof.
  intros R. pose proof (repr_len _ _ R) as HL. pose proof (zlen_nonneg xs). unfold find. rewrite HL.
  assert (W : wp (loop (S (Z.to_nat (zlen xs))) (find_body eqb l x) 0)
     (fun r => r = match first_index eqb xs x with Some i => i | None => -1 end)).
  { apply (wp_loop (fun i => 0 <= i <= zlen xs /\
       match first_index eqb xs x with Some i => i | None => -1 end =
       match first_index eqb (drop i xs) x with Some j => i + j | None => -1 end)
      (fun i => Z.to_nat (zlen xs - i))).
    - intros i (I1 & I2). unfold find_body. rewrite HL. apply wp_if; intros E; zb.
      + destruct (getitem_ok l xs i R ltac:(lia)) as (a & Ea & ->). apply wp_bind, wp_ok.
        rewrite (drop_cons i xs a) in I2 by (auto; lia). simpl in I2.
        apply wp_if; intros E1; rewrite E1 in I2; apply wp_ok.
        * lia.
        * split; [|lia]. split; [lia|]. rewrite I2.
          destruct (first_index eqb (drop (i + 1) xs) x); lia.
      + apply wp_ok. rewrite drop_all in I2 by lia. simpl in I2. lia.
    - split; [lia|]. rewrite drop_zero. destruct (first_index eqb xs x); lia.
    - lia. }
  apply wp_inv in W. destruct W as (r & -> & ->). reflexivity.
Qed.

Lemma existsb_first_index (xs : list A) x :
  existsb (fun a => eqb a x) xs = match first_index eqb xs x with Some _ => true | None => false end.
Proof.
  induction xs as [|a xs IH]; simpl; auto. destruct (eqb a x); simpl; auto.
  rewrite IH. destruct (first_index eqb xs x); auto.
Qed.

Lemma count_spec (l : lst) xs x : repr l xs -> count eqb l x = Ok (occurrences eqb xs x).
Proof.
  intros R. pose proof (repr_len _ _ R) as HL. pose proof (zlen_nonneg xs). unfold count. rewrite HL.
  assert (W : wp (loop (S (Z.to_nat (zlen xs))) (count_body eqb l x) (0, 0))
     (fun r => r = occurrences eqb xs x)).
  { apply (wp_loop (fun '(i, c) => 0 <= i <= zlen xs /\
       c + occurrences eqb (drop i xs) x = occurrences eqb xs x)
      (fun '(i, c) => Z.to_nat (zlen xs - i))).
    - intros (i, c) (I1 & I2). unfold count_body. rewrite HL. apply wp_if; intros E; zb.
      + destruct (getitem_ok l xs i R ltac:(lia)) as (a & Ea & ->). apply wp_bind, wp_ok. apply wp_ok.
        rewrite (drop_cons i xs a) in I2 by (auto; lia). unfold occurrences in *. simpl filter in I2.
        split; [|lia]. split; [lia|]. destruct (eqb a x); auto.
        szz. rewrite zlen_cons in I2. lia.
      + apply wp_ok. rewrite drop_all in I2 by lia. unfold occurrences in *. simpl filter in I2.
        szz. change (zlen (@nil A)) with 0 in I2. lia.
    - rewrite drop_zero. split; lia.
    - lia. }
  apply wp_inv in W. destruct W as (r & -> & ->). reflexivity.
Qed.

Lemma reverse_spec (l : lst) xs : repr l xs -> wp (reverse l) (fun l' => repr l' (rev xs)).
Proof.
  intros (HL & HC & HP). pose proof (zlen_nonneg xs). unfold reverse. rewrite HL.
  set (n := zlen xs) in *.
  pose proof (Z.div_mod n 2 ltac:(lia)). pose proof (Z.mod_pos_bound n 2 ltac:(lia)).
  apply (wp_loop (fun '(l', i) => 0 <= i <= n / 2 /\ len l' = n /\ zlen (cells l') = zlen (cells l) /\
      forall j, 0 <= j < n -> zc (cells l') j = if (j <? i) || (n - i <=? j) then ze xs (n - 1 - j) else ze xs j)
    (fun '(l', i) => Z.to_nat (n - i))).
  - intros (l', i) (I1 & I2 & I3 & I4). unfold reverse_body. rewrite I2. apply wp_if; intros E; zb.
    + destruct (ze_some xs i ltac:(fold n; lia)) as [x Ex].
      destruct (ze_some xs (n - i - 1) ltac:(fold n; lia)) as [y Ey].
      apply wp_bind. apply (get_wp l' i x); [lia| |].
      { rewrite I4 by lia. now replace ((i <? i) || (n - i <=? i)) with false by lia. }
      apply wp_bind. apply (get_wp l' (n - i - 1) y); [lia| |].
      { rewrite I4 by lia. now replace ((n - i - 1 <? i) || (n - i <=? n - i - 1)) with false by lia. }
      apply wp_bind. apply set_wp; [lia|]. apply wp_bind. apply set_wp; [simpl; zsz; lia|].
      apply wp_ok. simpl. split; [|lia]. split; [lia|]. split; [auto|]. split; [zsz; lia|].
      intros j Hj. rewrite !zn_upd by (zsz; lia).
      destruct (Z.eqb_spec j (n - i - 1)) as [->|].
      { replace ((n - i - 1 <? i + 1) || (n - (i + 1) <=? n - i - 1)) with true by lia.
        rewrite <- Ex. f_equal. lia. }
      destruct (Z.eqb_spec j i) as [->|].
      { replace ((i <? i + 1) || (n - (i + 1) <=? i)) with true by lia. rewrite <- Ey. f_equal. lia. }
      rewrite I4 by lia. destruct ((j <? i) || (n - i <=? j)) eqn:B.
      * now replace ((j <? i + 1) || (n - (i + 1) <=? j)) with true by lia.
      * now replace ((j <? i + 1) || (n - (i + 1) <=? j)) with false by lia.
    + apply wp_ok. split; [|split].
      * rewrite zlen_rev. auto.
      * rewrite zlen_rev. fold n. lia.
      * intros j. rewrite zlen_rev. fold n. intros Hj. rewrite ze_rev by (fold n; lia). fold n.
        rewrite I4 by lia. destruct ((j <? i) || (n - i <=? j)) eqn:B; [reflexivity|].
        f_equal. lia.
  - split; [lia|]. split; [auto|]. split; [auto|]. intros j Hj.
    replace ((j <? 0) || (n - 0 <=? j)) with false by lia. apply HP. lia.
  - lia.
Qed.

Lemma list_eq_spec (l o : lst) xs ys : repr l xs -> repr o ys ->
  list_eq eqb l o = Ok (equal_lists eqb xs ys).
Proof.
  intros R O. pose proof (repr_len _ _ R) as HL. pose proof (repr_len _ _ O) as OL.
  pose proof (zlen_nonneg xs). unfold list_eq. rewrite HL, OL.
  destruct (Z.eqb_spec (zlen xs) (zlen ys)) as [E|E]; simpl negb; cbv iota.
  - assert (W : wp (loop (S (Z.to_nat (zlen xs))) (eq_body eqb l o) 0) (fun r => r = equal_lists eqb xs ys)).
    { apply (wp_loop (fun i => 0 <= i <= zlen xs /\
        equal_lists eqb xs ys = equal_lists eqb (drop i xs) (drop i ys)) (fun i => Z.to_nat (zlen xs - i))).
      - intros i (I1 & I2). unfold eq_body. rewrite HL. apply wp_if; intros B; zb.
        + destruct (getitem_ok l xs i R ltac:(lia)) as (a & Ea & ->).
          destruct (getitem_ok o ys i O ltac:(lia)) as (b & Eb & ->).
          apply wp_bind, wp_ok, wp_bind, wp_ok.
          rewrite (drop_cons i xs a), (drop_cons i ys b) in I2 by (auto; lia). simpl in I2.
          destruct (eqb a b); simpl; [|auto]. split; [|lia]. split; [lia|auto].
        + apply wp_ok. rewrite !drop_all in I2 by lia. auto.
      - rewrite !drop_zero. split; [lia|auto].
      - lia. }
    apply wp_inv in W. destruct W as (r & -> & ->). reflexivity.
  - f_equal. clear -E. revert ys E. induction xs as [|x xs IH]; intros [|y ys] E; simpl; auto.
    rewrite <- IH; [now rewrite andb_false_r|]. rewrite !zlen_cons in E. lia.
Qed.

Lemma lex_ends (xs ys : list A) i : zlen (drop i xs) = 0 \/ zlen (drop i ys) = 0 ->
  lex eqb ltb (drop i xs) (drop i ys) =
  if zlen (drop i xs) <? zlen (drop i ys) then -1 else if zlen (drop i xs) =? zlen (drop i ys) then 0 else 1.
Proof.
  destruct (drop i xs), (drop i ys); rewrite ?zlen_cons, ?zlen_nil; simpl lex; auto; intros H.
  - pose proof (zlen_nonneg l). zcmp; try lia; auto.
  - pose proof (zlen_nonneg l). zcmp; try lia; auto.
  - pose proof (zlen_nonneg l). pose proof (zlen_nonneg l0). lia.
Qed.

Lemma cmp_spec (l o : lst) xs ys : repr l xs -> repr o ys ->
  cmp eqb ltb l o = Ok (lex eqb ltb xs ys).
Proof.
  intros R O. pose proof (repr_len _ _ R) as HL. pose proof (repr_len _ _ O) as OL.
  pose proof (zlen_nonneg xs). pose proof (zlen_nonneg ys). unfold cmp. rewrite HL, OL. cbv zeta.
  set (nmin := if zlen xs <? zlen ys then zlen xs else zlen ys).
  assert (NM : nmin = Z.min (zlen xs) (zlen ys)) by (unfold nmin; zcmp; lia).
  assert (W : wp (loop (S (Z.to_nat nmin)) (cmp_body eqb ltb l o nmin) 0)
    (fun r => lex eqb ltb xs ys = match r with Some c => c | None =>
       if zlen xs <? zlen ys then -1 else if zlen xs =? zlen ys then 0 else 1 end)).
  { apply (wp_loop (fun i => 0 <= i <= nmin /\
        lex eqb ltb xs ys = lex eqb ltb (drop i xs) (drop i ys)) (fun i => Z.to_nat (nmin - i))).
      - intros i (I1 & I2). unfold cmp_body. apply wp_if; intros B; zb.
        + destruct (getitem_ok l xs i R ltac:(lia)) as (a & Ea & ->).
          destruct (getitem_ok o ys i O ltac:(lia)) as (b & Eb & ->).
          apply wp_bind, wp_ok, wp_bind, wp_ok.
          rewrite (drop_cons i xs a), (drop_cons i ys b) in I2 by (auto; lia). simpl in I2.
          destruct (ltb a b); simpl; [auto|]. destruct (eqb a b); simpl; auto.
          split; [|lia]. split; [lia|auto].
        + apply wp_ok. rewrite I2. assert (i = nmin) by lia. subst i.
          rewrite lex_ends by (zsz; lia). zsz. zcmp; try lia; auto.
      - rewrite !drop_zero. split; [lia|auto].
      - lia. }
  apply wp_inv in W. destruct W as (r & -> & E). simpl. destruct r; now rewrite E.
Qed.

End Ops.
