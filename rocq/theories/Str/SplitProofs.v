(** [count], [partition], [split], [rsplit] and their relatives. *)
From Coq Require Import List ZArith Lia Bool.
From Verif.Common Require Import Result Int64.
From Verif.Str Require Import Model Spec Basic FindProofs.
Import ListNotations.
Local Open Scope Z_scope.

Lemma loop_ext {S R} (b1 b2 : S -> res (S + R)) : (forall s, b1 s = b2 s) ->
  forall fuel s, loop fuel b1 s = loop fuel b2 s.
Proof.
  intros H fuel. induction fuel as [|f IH]; intros s; cbn [loop]; auto.
  rewrite H. destruct (b2 s) as [[|]| | |]; auto.
Qed.

(** ** Cuts *)

(** What the first occurrence in the rest of a text says. *)
Lemma cut_first s sep i r : 0 <= i <= len s -> first_position (occurs sep (sub s i (len s))) r ->
  (r = -1 /\ forall j, ~ occurs sep (sub s i (len s)) j) \/
  (0 <= r /\ i + r + len sep <= len s /\
   sub s i (len s) = sub s i (i + r) ++ sep ++ sub s (i + r + len sep) (len s) /\
   forall j, occurs sep (sub s i (i + r) ++ sep ++ sub s (i + r + len sep) (len s)) j ->
     size (sub s i (i + r)) <= j).
Proof.
  intros Hi [[A B]|[A B]]; [right|left; auto].
  pose proof (len_nonneg sep).
  pose proof A as A0. apply occurs_in_sub in A0; try lia. destruct A0 as (R1 & R2 & R3).
  split; [auto|]. split; [lia|].
  assert (E : sub s i (len s) = sub s i (i + r) ++ sep ++ sub s (i + r + len sep) (len s)).
  { apply occurs_sub in R3. destruct R3 as (_ & _ & R3).
    rewrite (sub_split s i (i + r) (len s)) by lia.
    rewrite (sub_split s (i + r) (i + r + len sep) (len s)) by lia. now rewrite R3. }
  split; [exact E|]. rewrite <- E. intros j Hj. change (size (sub s i (i + r))) with (len (sub s i (i + r))).
  rewrite sub_len by lia. specialize (B j Hj). lia.
Qed.

Lemma cut_last s sep e r : 0 <= e <= len s -> last_position (occurs sep (sub s 0 e)) r ->
  (r = -1 /\ forall j, ~ occurs sep (sub s 0 e) j) \/
  (0 <= r /\ r + len sep <= e /\
   sub s 0 e = sub s 0 r ++ sep ++ sub s (r + len sep) e /\
   forall j, occurs sep (sub s 0 r ++ sep ++ sub s (r + len sep) e) j -> j <= size (sub s 0 r)).
Proof.
  intros Hi [[A B]|[A B]]; [right|left; auto].
  pose proof (len_nonneg sep).
  pose proof A as A0. apply occurs_in_sub in A0; try lia. destruct A0 as (R1 & R2 & R3).
  rewrite Z.add_0_l in *.
  split; [auto|]. split; [lia|].
  assert (E : sub s 0 e = sub s 0 r ++ sep ++ sub s (r + len sep) e).
  { apply occurs_sub in R3. destruct R3 as (_ & _ & R3).
    rewrite (sub_split s 0 r e) by lia.
    rewrite (sub_split s r (r + len sep) e) by lia. now rewrite R3. }
  split; [exact E|]. rewrite <- E. intros j Hj. change (size (sub s 0 r)) with (len (sub s 0 r)).
  rewrite sub_len by lia. specialize (B j Hj). lia.
Qed.

Lemma occurs_mid sep a b : occurs sep (a ++ sep ++ b) (size a).
Proof. exists a, b. auto. Qed.
Lemma app_len_inj (a b c d : list Z) : size a = size c -> a ++ b = c ++ d -> a = c /\ b = d.
Proof.
  unfold size. intros L E.
  assert (firstn (length a) (a ++ b) = firstn (length a) (c ++ d)) as F by now rewrite E.
  replace (length a) with (length c) in F at 2 by lia.
  rewrite !firstn_app, !firstn_all, !Nat.sub_diag, !firstn_O, !app_nil_r in F.
  subst c. split; auto. now apply app_inv_head in E.
Qed.

Lemma split_left_fun sep m s l : split_left sep m s l -> forall l', split_left sep m s l' -> l = l'.
Proof.
  induction 1 as [m s H|m a b l Hm Hf _ IH]; intros l' H'.
  - inversion H' as [m' s' _ E1 E2|m' a b l2 Hm Hf _ E1 E2]; subst; auto.
    exfalso. destruct H as [->|H]; [congruence|]. apply (H (size a)). apply occurs_mid.
  - remember (a ++ sep ++ b) as s eqn:E. destruct H' as [m s [H|H]|m a' b' l2 Hm' Hf' H'].
    + congruence.
    + subst s. exfalso. apply (H (size a)). apply occurs_mid.
    + assert (S : size a = size a').
      { apply Z.le_antisymm.
        - apply Hf. apply occurs_mid.
        - apply Hf'. rewrite E. apply occurs_mid. }
      apply app_len_inj in E; auto. destruct E as [-> E]. apply app_inv_head in E. subst b'.
      f_equal. auto.
Qed.
Lemma split_right_fun sep m s l : split_right sep m s l -> forall l', split_right sep m s l' -> l = l'.
Proof.
  induction 1 as [m s H|m a b l Hm Hf _ IH]; intros l' H'.
  - inversion H' as [m' s' _ E1 E2|m' a b l2 Hm Hf _ E1 E2]; subst; auto.
    exfalso. destruct H as [->|H]; [congruence|]. apply (H (size a)). apply occurs_mid.
  - remember (a ++ sep ++ b) as s eqn:E. destruct H' as [m s [H|H]|m a' b' l2 Hm' Hf' H'].
    + congruence.
    + subst s. exfalso. apply (H (size a)). apply occurs_mid.
    + assert (S : size a = size a').
      { apply Z.le_antisymm.
        - apply Hf'. rewrite E. apply occurs_mid.
        - apply Hf. apply occurs_mid. }
      apply app_len_inj in E; auto. destruct E as [-> E]. apply app_inv_head in E. subst b'.
      f_equal. auto.
Qed.
Lemma split_left_nonempty sep m s l : split_left sep m s l -> l <> [].
Proof. destruct 1; discriminate. Qed.
Lemma join_split_left sep m s l : split_left sep m s l -> join sep l = s.
Proof.
  induction 1 as [m s H|m a b l Hm Hf H IH]; [reflexivity|].
  apply split_left_nonempty in H. cbn [join]. destruct l; [congruence|]. now rewrite IH.
Qed.
Lemma join_snoc sep l b : l <> [] -> join sep (l ++ [b]) = join sep l ++ sep ++ b.
Proof.
  induction l as [|a l IH]; [congruence|]. intros _. destruct l as [|c l]; [reflexivity|].
  change ((a :: c :: l) ++ [b]) with (a :: (c :: l) ++ [b]).
  change (join sep (a :: c :: l)) with (a ++ sep ++ join sep (c :: l)).
  rewrite <- !app_assoc. rewrite <- IH by discriminate. reflexivity.
Qed.
Lemma split_right_nonempty sep m s l : split_right sep m s l -> l <> [].
Proof. destruct 1; [discriminate|]. now destruct l. Qed.
Lemma join_split_right sep m s l : split_right sep m s l -> join sep l = s.
Proof.
  induction 1 as [m s H|m a b l Hm Hf H IH]; [reflexivity|].
  apply split_right_nonempty in H. now rewrite join_snoc, IH.
Qed.
(** The number of cuts is within the limit. *)
Lemma split_left_count sep m s l : split_left sep m s l ->
  split_left sep (Z.of_nat (length l) - 1) s l /\ (0 <= m -> Z.of_nat (length l) - 1 <= m).
Proof.
  induction 1 as [m s H|m a b l Hm Hf H [IH1 IH2]].
  - cbn [length]. split; [|lia]. constructor. left. reflexivity.
  - apply split_left_nonempty in H. cbn [length]. split.
    + constructor; auto; [destruct l; [congruence|]; cbn [length]; lia|].
      replace (Z.of_nat (S (length l)) - 1 - 1) with (Z.of_nat (length l) - 1) by lia. auto.
    + intros. specialize (IH2 ltac:(lia)). lia.
Qed.
Lemma join_length new sep m s l : split_left sep m s l ->
  len (join new l) = len s + (Z.of_nat (length l) - 1) * (len new - len sep).
Proof.
  induction 1 as [m s H|m a b l Hm Hf H IH].
  - cbn [join length]. lia.
  - apply split_left_nonempty in H. cbn [join length]. destruct l as [|c l]; [congruence|].
    autorewrite with len. rewrite IH. rewrite Nat2Z.inj_succ. cbn [length]. lia.
Qed.

(** [mc] cuts may still be made and the specification allows [m]. *)
Definition limit (mc m : Z) (rest : Z) : Prop := (m < 0 /\ rest < mc) \/ (m = mc /\ 0 <= m).
Lemma limit_start m n : n < MAX -> limit (max_or m) m n.
Proof. unfold max_or, limit. destruct (Z.leb_spec 0 m); lia. Qed.

(** ** [count] *)
Lemma count_loop s sep : 1 <= len sep -> forall f tmp occ, 0 <= tmp <= len s -> (Z.to_nat (len s - tmp) < f)%nat ->
  exists l, split_left sep (-1) (sub s tmp (len s)) l /\
    loop f (fun '(tmp, occ) =>
      bind (slice_ s tmp (len s)) (fun sl => bind (forward_find sl sep) (fun pos =>
      if pos =? -1 then Ok (inr occ) else Ok (inl (tmp + (pos + len sep), occ + 1))))) (tmp, occ)
    = Ok (occ + Z.of_nat (length l) - 1).
Proof.
  intros Hk f. induction f as [|f IH]; intros tmp occ H1 H2; [lia|].
  cbn [loop]. rewrite slice_ok by lia. cbn [bind].
  destruct (forward_find_ok (sub s tmp (len s)) sep) as (r & -> & F). cbn [bind].
  destruct (cut_first s sep tmp r H1 F) as [(-> & N)|(R1 & R2 & E & M)].
  - exists [sub s tmp (len s)]. split; [constructor; auto|]. cbn. f_equal. lia.
  - replace (r =? -1) with false by lia.
    destruct (IH (tmp + (r + len sep)) (occ + 1)) as (l & S & L); [lia|lia|].
    exists (sub s tmp (tmp + r) :: l). split.
    + rewrite E. constructor; [lia|exact M|]. replace (tmp + r + len sep) with (tmp + (r + len sep)) by lia.
      (* no limit on either side *)
      revert S. generalize (sub s (tmp + (r + len sep)) (len s)) as t. clear. intros t S.
      assert (G : forall m t l, split_left sep m t l -> m < 0 -> forall m', m' < 0 -> split_left sep m' t l).
      { clear. induction 1 as [m s H|m a b l Hm Hf H IH]; intros L m' L'.
        - constructor. right. destruct H; [lia|auto].
        - constructor; [lia|auto|]. apply IH; lia. }
      eapply G; eauto; lia.
    + cbv zeta in L. rewrite L. cbn [length]. f_equal; lia.
Qed.
Lemma count_all_ok s sep : 1 <= len sep -> exists l, split_left sep (-1) s l /\
  count_all s sep = Ok (Z.of_nat (length l) - 1).
Proof.
  intros Hk. unfold count_all. replace (len sep =? 0) with false by lia.
  destruct (count_loop s sep Hk (S (length s)) 0 0) as (l & S & L).
  - pose proof (len_nonneg s). lia.
  - unfold len. lia.
  - rewrite sub_all in S. exists l. split; [auto|]. etransitivity; [exact L|]. f_equal; lia.
Qed.

Lemma count_max_loop s sep maxcount : 1 <= len sep -> forall f tmp occ m,
  0 <= tmp <= len s -> (Z.to_nat (len s - tmp) < f)%nat ->
  limit (maxcount - occ) m (len s - tmp) -> 0 < maxcount - occ ->
  exists l, split_left sep m (sub s tmp (len s)) l /\
    loop f (fun '(tmp, occ) =>
      bind (slice_ s tmp (len s)) (fun sl => bind (forward_find sl sep) (fun pos =>
      if pos =? -1 then Ok (inr occ)
      else let occ := occ + 1 in
        if occ =? maxcount then Ok (inr occ) else Ok (inl (tmp + (pos + len sep), occ))))) (tmp, occ)
    = Ok (occ + Z.of_nat (length l) - 1).
Proof.
  intros Hk f. induction f as [|f IH]; intros tmp occ m H1 H2 Hl Hp; [lia|].
  cbn [loop]. rewrite slice_ok by lia. cbn [bind].
  destruct (forward_find_ok (sub s tmp (len s)) sep) as (r & -> & F). cbn [bind].
  destruct (cut_first s sep tmp r H1 F) as [(-> & N)|(R1 & R2 & E & M)].
  - exists [sub s tmp (len s)]. split; [constructor; auto|]. cbn. f_equal. lia.
  - replace (r =? -1) with false by lia. cbv zeta.
    destruct (Z.eqb_spec (occ + 1) maxcount) as [E2|E2].
    + exists [sub s tmp (tmp + r); sub s (tmp + r + len sep) (len s)]. split.
      * rewrite E. unfold limit in Hl. constructor; [lia|exact M|]. constructor. left. lia.
      * cbn [length]. f_equal. lia.
    + destruct (IH (tmp + (r + len sep)) (occ + 1) (m - 1)) as (l & S & L); [lia|lia|unfold limit in *; lia|lia|].
      exists (sub s tmp (tmp + r) :: l). split.
      * rewrite E. constructor; [unfold limit in *; lia|exact M|].
        replace (tmp + r + len sep) with (tmp + (r + len sep)) by lia. auto.
      * cbv zeta in L. rewrite L. cbn [length]. f_equal; lia.
Qed.
Lemma count_max_ok s sep maxcount m : 1 <= len sep -> 0 < maxcount -> limit maxcount m (len s) ->
  exists l, split_left sep m s l /\ count_with_max s sep maxcount = Ok (Z.of_nat (length l) - 1).
Proof.
  intros Hk Hp Hl. unfold count_with_max. replace (len sep =? 0) with false by lia.
  replace (maxcount =? 0) with false by lia.
  destruct (count_max_loop s sep maxcount Hk (S (length s)) 0 0 m) as (l & S & L).
  - pose proof (len_nonneg s). lia.
  - unfold len. lia.
  - now rewrite !Z.sub_0_r.
  - lia.
  - rewrite sub_all in S. exists l. split; [auto|]. etransitivity; [exact L|]. f_equal; lia.
Qed.

Lemma countchar_loop s c maxcount : forall f tmp occ m,
  0 <= tmp <= len s -> (Z.to_nat (len s - tmp) < f)%nat ->
  limit (maxcount - occ) m (len s - tmp) -> 0 < maxcount - occ ->
  exists l, split_left [c] m (sub s tmp (len s)) l /\
    loop f (fun '(start, count) =>
      bind (slice_ s start (len s)) (fun sl =>
      match memchr c sl with
      | None => Ok (inr count)
      | Some p => let count := count + 1 in
          if maxcount <=? count then Ok (inr count) else Ok (inl (start + p + 1, count))
      end)) (tmp, occ)
    = Ok (occ + Z.of_nat (length l) - 1).
Proof.
  intros f. induction f as [|f IH]; intros tmp occ m H1 H2 Hl Hp; [lia|].
  cbn [loop]. rewrite slice_ok by lia. cbn [bind].
  pose proof (memchr_first c (sub s tmp (len s))) as F.
  apply cut_first in F; auto. pose proof (memchr_spec c (sub s tmp (len s))) as MS.
  destruct (memchr c (sub s tmp (len s))) as [r|].
  - destruct F as [(-> & N)|(R1 & R2 & E & M)]; [lia|]. autorewrite with len in *. cbv zeta.
    destruct (Z.leb_spec maxcount (occ + 1)) as [E2|E2].
    + exists [sub s tmp (tmp + r); sub s (tmp + r + 1) (len s)]. split.
      * rewrite E. unfold limit in Hl. constructor; [lia|exact M|]. constructor. left. lia.
      * cbn [length]. f_equal. lia.
    + destruct (IH (tmp + r + 1) (occ + 1) (m - 1)) as (l & S & L); [lia|lia|unfold limit in *; lia|lia|].
      exists (sub s tmp (tmp + r) :: l). split.
      * rewrite E. constructor; [unfold limit in *; lia|exact M|]. auto.
      * cbv zeta in L. rewrite L. cbn [length]. f_equal; lia.
  - destruct F as [(_ & N)|(R1 & _)]; [|lia].
    exists [sub s tmp (len s)]. split; [constructor; auto|]. cbn. f_equal. lia.
Qed.
Lemma countchar_ok s c maxcount m : 0 < maxcount -> limit maxcount m (len s) ->
  exists l, split_left [c] m s l /\ countchar s c maxcount = Ok (Z.of_nat (length l) - 1).
Proof.
  intros Hp Hl. unfold countchar.
  destruct (countchar_loop s c maxcount (fuel s) 0 0 m) as (l & S & L).
  - pose proof (len_nonneg s). lia.
  - unfold fuel, len. lia.
  - now rewrite !Z.sub_0_r.
  - lia.
  - rewrite sub_all in S. exists l. split; [auto|]. etransitivity; [exact L|]. f_equal; lia.
Qed.

(** ** [split] *)
Lemma split_loop s sep : 1 <= len sep -> forall f mc i v m,
  0 <= i <= len s -> (Z.to_nat (len s - i) < f)%nat -> limit mc m (len s - i) ->
  exists l i' v', split_left sep m (sub s i (len s)) l /\ 0 <= i' <= len s /\
    loop f (fun '(maxsplit, i, v) =>
            if 0 <? maxsplit then
              bind (slice_ s i (len s)) (fun sl => bind (forward_find sl sep) (fun pos =>
              if pos <? 0 then Ok (inr (i, v))
              else
                let j := i + pos in
                bind (slice_ s i j) (fun w => Ok (inl (maxsplit - 1, j + len sep, v ++ [w])))))
            else Ok (inr (i, v))) (mc, i, v) = Ok (i', v') /\
    v' ++ [sub s i' (len s)] = v ++ l.
Proof.
  intros Hk f. induction f as [|f IH]; intros mc i v m H1 H2 Hl; [lia|]. cbn [loop].
  destruct (Z.ltb_spec 0 mc) as [P|P].
  - rewrite slice_ok by lia. cbn [bind].
    destruct (forward_find_ok (sub s i (len s)) sep) as (r & -> & F). cbn [bind].
    destruct (cut_first s sep i r H1 F) as [(-> & N)|(R1 & R2 & E & M)].
    + exists [sub s i (len s)], i, v. split; [constructor; auto|]. split; [lia|]. split; reflexivity.
    + replace (r <? 0) with false by lia. cbv zeta. rewrite slice_ok by lia. cbn [bind].
      destruct (IH (mc - 1) (i + r + len sep) (v ++ [sub s i (i + r)]) (m - 1)) as (l & i' & v' & S & I & L & A);
        [lia|lia|unfold limit in *; lia|].
      exists (sub s i (i + r) :: l), i', v'. split.
      * rewrite E. constructor; [unfold limit in *; lia|exact M|auto].
      * split; auto. split; [exact L|]. rewrite A, <- app_assoc. reflexivity.
  - exists [sub s i (len s)], i, v. split; [constructor; unfold limit in *; lia|]. split; [lia|]. split; reflexivity.
Qed.

Lemma split_char_loop s c : forall f mc i j v m,
  0 <= j <= i -> i <= len s -> (Z.to_nat (len s - i) < f)%nat -> limit mc m (len s - i) ->
  (forall x, j <= x < i -> byte_at s x <> c) ->
  exists l j' v', split_left [c] m (sub s j (len s)) l /\ 0 <= j' <= len s /\
    loop f (fun '(maxcount, i, j, l) =>
      if (i <? len s) && (0 <? maxcount) then
        bind (get s i) (fun x =>
        if x =? c then
          bind (slice_ s j i) (fun w => Ok (inl (maxcount - 1, i + 1, i + 1, l ++ [w])))
        else Ok (inl (maxcount, i + 1, j, l)))
      else Ok (inr (j, l))) (mc, i, j, v) = Ok (j', v') /\
    v' ++ [sub s j' (len s)] = v ++ l.
Proof.
  intros f. induction f as [|f IH]; intros mc i j v m H1 H2 Hf Hl N; [lia|]. cbn [loop].
  destruct (Z.ltb_spec i (len s)) as [Hi|Hi]; cbn [andb].
  - destruct (Z.ltb_spec 0 mc) as [P|P].
    + rewrite get_ok by lia. cbn [bind]. destruct (Z.eqb_spec (byte_at s i) c) as [E|E].
      * rewrite slice_ok by lia. cbn [bind].
        destruct (IH (mc - 1) (i + 1) (i + 1) (v ++ [sub s j i]) (m - 1)) as (l & j' & v' & S & I & L & A);
          [lia|lia|lia|unfold limit in *; lia|lia|].
        assert (D : sub s j (len s) = sub s j i ++ [c] ++ sub s (i + 1) (len s)).
        { rewrite (sub_split s j i (len s)) by lia. f_equal. rewrite sub_cons by lia. now rewrite E. }
        exists (sub s j i :: l), j', v'. split.
        -- rewrite D. constructor; [unfold limit in *; lia| |auto].
           intros x Ox. rewrite <- D in Ox. apply occurs_1 in Ox. destruct Ox as [X1 X2].
           rewrite sub_len in X1 by lia. rewrite sub_byte in X2 by lia.
           change (size (sub s j i)) with (len (sub s j i)). rewrite sub_len by lia.
           destruct (Z.lt_ge_cases (j + x) i); [|lia]. exfalso. apply (N (j + x)); auto. lia.
        -- split; auto. split; [exact L|]. rewrite A, <- app_assoc. reflexivity.
      * destruct (IH mc (i + 1) j v m) as (l & j' & v' & S & I & L & A); [lia|lia|lia|unfold limit in *; lia| |].
        { intros x Hx. destruct (Z.eq_dec x i) as [->|]; auto. apply N. lia. }
        exists l, j', v'. auto.
    + exists [sub s j (len s)], j, v. split; [constructor; unfold limit in *; lia|]. split; [lia|]. split; reflexivity.
  - exists [sub s j (len s)], j, v. split; [|split; [lia|split; reflexivity]].
    constructor. right. intros x Ox. apply occurs_1 in Ox. destruct Ox as [X1 X2].
    rewrite sub_len in X1 by lia. rewrite sub_byte in X2 by lia. apply (N (j + x)); auto. lia.
Qed.

Lemma split_char_ok s c mc m : limit mc m (len s) ->
  exists l, split_char s c mc = Ok l /\ split_left [c] m s l.
Proof.
  intros Hl. pose proof (len_nonneg s). unfold split_char.
  destruct (split_char_loop s c (fuel s) mc 0 0 [] m) as (l & j' & v' & S & I & L & A);
    [lia|lia|unfold fuel, len; lia|now rewrite Z.sub_0_r|lia|].
  cbv zeta in L |- *. rewrite L. cbn [bind]. rewrite slice_ok by lia. cbn [bind].
  rewrite sub_all in S. exists l. split; auto. f_equal. exact A.
Qed.

Theorem str_split_ok s sep m : len s < MAX ->
  if len sep =? 0 then str_split s (Some sep) m = Raise ValueError
  else exists l, str_split s (Some sep) m = Ok l /\ split_left sep m s l.
Proof.
  intros Hs. unfold str_split. pose proof (len_nonneg s). pose proof (len_nonneg sep).
  destruct (Z.eqb_spec (len sep) 0) as [E|E]; auto.
  destruct (Z.eqb_spec (len sep) 1) as [E1|E1].
  - destruct sep as [|c [|d sep]]; rewrite ?len_cons, ?len_nil in *; try (pose proof (len_nonneg sep)); try lia.
    cbn. apply split_char_ok. now apply limit_start.
  - destruct (split_loop s sep ltac:(lia) (fuel s) (max_or m) 0 [] m) as (l & i' & v' & S & I & L & A);
      [lia|unfold fuel, len; lia|rewrite Z.sub_0_r; now apply limit_start|].
    cbv zeta in L |- *. rewrite L. cbn [bind]. rewrite slice_ok by lia. cbn [bind].
    rewrite sub_all in S. exists l. split; auto. f_equal. exact A.
Qed.

(** ** [rsplit] *)
Lemma rsplit_char_loop s c : forall f mc i j v m,
  -1 <= i <= j -> j < len s -> (Z.to_nat (i + 1) < f)%nat -> limit mc m (i + 1) ->
  (forall x, i < x <= j -> byte_at s x <> c) ->
  exists l j' v', split_right [c] m (sub s 0 (j + 1)) l /\ -1 <= j' < len s /\
    loop f (fun '(maxcount, i, j, l) =>
      if (0 <=? i) && (0 <? maxcount) then
        bind (get s i) (fun x =>
        if x =? c then
          bind (slice_ s (i + 1) (j + 1)) (fun w => Ok (inl (maxcount - 1, i - 1, i - 1, l ++ [w])))
        else Ok (inl (maxcount, i - 1, j, l)))
      else Ok (inr (j, l))) (mc, i, j, v) = Ok (j', v') /\
    rev (v' ++ [sub s 0 (j' + 1)]) = l ++ rev v.
Proof.
  intros f. induction f as [|f IH]; intros mc i j v m H1 H2 Hf Hl N; [lia|]. cbn [loop].
  destruct (Z.leb_spec 0 i) as [Hi|Hi]; cbn [andb].
  - destruct (Z.ltb_spec 0 mc) as [P|P].
    + rewrite get_ok by lia. cbn [bind]. destruct (Z.eqb_spec (byte_at s i) c) as [E|E].
      * rewrite slice_ok by lia. cbn [bind].
        destruct (IH (mc - 1) (i - 1) (i - 1) (v ++ [sub s (i + 1) (j + 1)]) (m - 1)) as (l & j' & v' & S & I & L & A);
          [lia|lia|lia|unfold limit in *; lia|lia|].
        replace (i - 1 + 1) with i in S by lia.
        assert (D : sub s 0 (j + 1) = sub s 0 i ++ [c] ++ sub s (i + 1) (j + 1)).
        { rewrite (sub_split s 0 i (j + 1)) by lia. f_equal. rewrite sub_cons by lia. now rewrite E. }
        exists (l ++ [sub s (i + 1) (j + 1)]), j', v'. split.
        -- rewrite D. constructor; [unfold limit in *; lia| |auto].
           intros x Ox. rewrite <- D in Ox. apply occurs_1 in Ox. destruct Ox as [X1 X2].
           rewrite sub_len in X1 by lia. rewrite sub_byte in X2 by lia. rewrite Z.add_0_l in X2.
           change (size (sub s 0 i)) with (len (sub s 0 i)). rewrite sub_len by lia.
           destruct (Z.lt_ge_cases i x); [|lia]. exfalso. apply (N x); auto. lia.
        -- split; auto. split; auto. rewrite A, rev_app_distr, <- app_assoc. reflexivity.
      * destruct (IH mc (i - 1) j v m) as (l & j' & v' & S & I & L & A); [lia|lia|lia|unfold limit in *; lia| |].
        { intros x Hx. destruct (Z.eq_dec x i) as [->|]; auto. apply N. lia. }
        exists l, j', v'. auto.
    + exists [sub s 0 (j + 1)], j, v. split; [constructor; unfold limit in *; lia|]. split; [lia|]. split; [reflexivity|].
      now rewrite rev_app_distr.
  - exists [sub s 0 (j + 1)], j, v. split; [|split; [lia|split; [reflexivity|now rewrite rev_app_distr]]].
    constructor. right. intros x Ox. apply occurs_1 in Ox. destruct Ox as [X1 X2].
    rewrite sub_len in X1 by lia. rewrite sub_byte in X2 by lia. apply (N (0 + x)); auto. lia.
Qed.

Lemma rsplit_loop s sep : 2 <= len sep -> len s - len sep + 1 < 10 -> forall f mc j v m,
  0 <= j <= len s -> (Z.to_nat j < f)%nat -> limit mc m j ->
  exists l j' v', split_right sep m (sub s 0 j) l /\ 0 <= j' <= len s /\
    loop f (fun '(maxsplit, j, v) =>
            if 0 <? maxsplit then
              bind (slice_ s 0 j) (fun sl => bind (backward_find sl sep) (fun pos =>
              if pos <? 0 then Ok (inr (j, v))
              else
                bind (slice_ s (pos + len sep) j) (fun w => Ok (inl (maxsplit - 1, pos, v ++ [w])))))
            else Ok (inr (j, v))) (mc, j, v) = Ok (j', v') /\
    rev (v' ++ [sub s 0 j']) = l ++ rev v.
Proof.
  intros Hk Hs f. induction f as [|f IH]; intros mc j v m H1 H2 Hl; [lia|]. cbn [loop].
  destruct (Z.ltb_spec 0 mc) as [P|P].
  - rewrite slice_ok by lia. cbn [bind].
    assert (HF : forall t, len t = j -> exists r, backward_find t sep = Ok r /\ last_position (occurs sep t) r).
    { intros t Ht. destruct (Z.lt_ge_cases j (len sep)).
      - unfold backward_find. replace (len sep =? 0) with false by lia.
        replace (len t <? len sep) with true by lia. exists (-1). split; auto. right. split; auto.
        intros x Ox. apply occurs_range in Ox. lia.
      - apply backward_find_ok. unfold rfind_fits. rewrite Z.mod_small by lia. lia. }
    destruct (HF (sub s 0 j)) as (r & -> & F); [rewrite sub_len; lia|]. cbn [bind].
    destruct (cut_last s sep j r H1 F) as [(-> & N)|(R1 & R2 & E & M)].
    + exists [sub s 0 j], j, v. split; [constructor; auto|]. split; [lia|]. split; [reflexivity|]. now rewrite rev_app_distr.
    + replace (r <? 0) with false by lia. rewrite slice_ok by lia. cbn [bind].
      destruct (IH (mc - 1) r (v ++ [sub s (r + len sep) j]) (m - 1)) as (l & j' & v' & S & I & L & A);
        [lia|lia|unfold limit in *; lia|].
      exists (l ++ [sub s (r + len sep) j]), j', v'. split.
      * rewrite E. constructor; [unfold limit in *; lia|exact M|auto].
      * split; auto. split; auto. rewrite A, rev_app_distr, <- app_assoc. reflexivity.
  - exists [sub s 0 j], j, v. split; [constructor; unfold limit in *; lia|]. split; [lia|]. split; [reflexivity|].
    now rewrite rev_app_distr.
Qed.

Theorem str_rsplit_ok s sep m : len s < MAX -> len sep <= 1 \/ len s < len sep + 9 ->
  if len sep =? 0 then str_rsplit s (Some sep) m = Raise ValueError
  else exists l, str_rsplit s (Some sep) m = Ok l /\ split_right sep m s l.
Proof.
  intros Hs Hc. unfold str_rsplit. pose proof (len_nonneg s). pose proof (len_nonneg sep).
  destruct (Z.eqb_spec (len sep) 0) as [E|E]; auto.
  destruct (Z.eqb_spec (len sep) 1) as [E1|E1].
  - destruct sep as [|c [|d sep]]; rewrite ?len_cons, ?len_nil in *; try (pose proof (len_nonneg sep)); try lia.
    cbn -[rsplit_char]. unfold rsplit_char.
    destruct (rsplit_char_loop s c (fuel s) (max_or m) (len s - 1) (len s - 1) [] m) as (l & j' & v' & S & I & L & A);
      [lia|lia|unfold fuel, len; lia| |lia|].
    { replace (len s - 1 + 1) with (len s) by lia. now apply limit_start. }
    cbv zeta in L |- *. rewrite L. cbn [bind]. rewrite slice_ok by lia. cbn [bind].
    replace (len s - 1 + 1) with (len s) in S by lia. rewrite sub_all in S. exists l. split; auto.
    f_equal. cbn [rev] in A. rewrite app_nil_r in A. exact A.
  - destruct (rsplit_loop s sep ltac:(lia) ltac:(lia) (fuel s) (max_or m) (len s) [] m) as (l & i' & v' & S & I & L & A);
      [lia|unfold fuel, len; lia|now apply limit_start|].
    cbv zeta in L |- *. rewrite L. cbn [bind]. rewrite slice_ok by lia. cbn [bind].
    rewrite sub_all in S. exists l. split; auto. f_equal. cbn [rev] in A. rewrite app_nil_r in A. exact A.
Qed.
