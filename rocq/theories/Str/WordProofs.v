(** White-space splitting, lines, partition, joining and stripping. *)
From Coq Require Import List ZArith Lia Bool.
From Verif.Common Require Import Result Int64.
From Verif.Str Require Import Model Spec Basic FindProofs SplitProofs.
Import ListNotations.
Local Open Scope Z_scope.

Lemma isspace_white c : isspace c = true <-> white c.
Proof.
  unfold isspace, white. cbn [In]. rewrite orb_true_iff, andb_true_iff, Z.eqb_eq, !Z.leb_le. lia.
Qed.
Lemma not_white c : isspace c = false <-> ~ white c.
Proof. rewrite <- isspace_white. destruct (isspace c); split; congruence. Qed.

Lemma sub_forall (P : Z -> Prop) s i j : 0 <= i <= j -> j <= len s ->
  (forall x, i <= x < j -> P (byte_at s x)) -> Forall P (sub s i j).
Proof.
  intros H1 H2 H. apply Forall_forall. intros c Hc. apply In_nth with (d := 0) in Hc.
  destruct Hc as (x & Hx & <-). pose proof (sub_len s i j H1 H2) as L. unfold len in L at 1.
  pose proof (sub_byte s i j (Z.of_nat x) H1 H2 ltac:(lia)) as B. unfold byte_at in B at 1.
  rewrite Nat2Z.id in B. rewrite B. apply H. lia.
Qed.
Lemma sub_starts (P : Z -> Prop) s i j : 0 <= i < j -> j <= len s -> P (byte_at s i) -> starts P (sub s i j).
Proof. intros. rewrite sub_cons by lia. auto. Qed.
Lemma sub_ends (P : Z -> Prop) s i j : 0 <= i <= j -> j < len s -> P (byte_at s j) -> ends P (sub s i (j + 1)).
Proof. intros. unfold ends. rewrite sub_snoc by lia. rewrite rev_app_distr. auto. Qed.

Lemma scan_ok p s : forall f i, 0 <= i <= len s -> (Z.to_nat (len s - i) < f)%nat ->
  exists j, scan f p s i = Ok j /\ i <= j <= len s /\ (forall x, i <= x < j -> p (byte_at s x) = true) /\
    (j < len s -> p (byte_at s j) = false).
Proof.
  induction f as [|f IH]; intros i H1 H2; [lia|]. cbn [scan].
  destruct (Z.ltb_spec i (len s)).
  - rewrite get_ok by lia. cbn [bind]. destruct (p (byte_at s i)) eqn:E.
    + destruct (IH (i + 1) ltac:(lia) ltac:(lia)) as (j & S & J & A & B). exists j. repeat split; auto; try lia.
      intros x Hx. destruct (Z.eq_dec x i) as [->|]; auto. apply A. lia.
    + exists i. repeat split; auto; try lia.
  - exists i. repeat split; auto; lia.
Qed.
Lemma rscan_ok p s : forall f i, -1 <= i < len s -> (Z.to_nat (i + 1) < f)%nat ->
  exists j, rscan f p s i = Ok j /\ -1 <= j <= i /\ (forall x, j < x <= i -> p (byte_at s x) = true) /\
    (0 <= j -> p (byte_at s j) = false).
Proof.
  induction f as [|f IH]; intros i H1 H2; [lia|]. cbn [rscan].
  destruct (Z.leb_spec 0 i).
  - rewrite get_ok by lia. cbn [bind]. destruct (p (byte_at s i)) eqn:E.
    + destruct (IH (i - 1) ltac:(lia) ltac:(lia)) as (j & S & J & A & B). exists j. repeat split; auto; try lia.
      intros x Hx. destruct (Z.eq_dec x i) as [->|]; auto. apply A. lia.
    + exists i. repeat split; auto; try lia.
  - exists i. repeat split; auto; lia.
Qed.

(** ** Words *)
Definition words_end (s : str) (i : Z) (l : list str) : res (list str) :=
  if i <? len s then
    bind (scan (fuel s) isspace s i) (fun i =>
    if negb (i =? len s) then bind (slice_ s i (len s)) (fun w => Ok (l ++ [w])) else Ok l)
  else Ok l.
Lemma words_loop s : forall f mc i l m,
  0 <= i <= len s -> (Z.to_nat (len s - i) < f)%nat -> limit mc m (len s - i) ->
  exists ws i' l', words m (sub s i (len s)) ws /\
    loop f (fun '(maxcount, i, l) =>
      if 0 <? maxcount then
        bind (scan (fuel s) isspace s i) (fun i =>
        if i =? len s then Ok (inr (i, l))
        else
          let j := i in
          bind (scan (fuel s) (fun c => negb (isspace c)) s (i + 1)) (fun i =>
          bind (slice_ s j i) (fun w =>
          Ok (inl (maxcount - 1, i, l ++ [w])))))
      else Ok (inr (i, l))) (mc, i, l) = Ok (i', l') /\
    words_end s i' l' = Ok (l ++ ws).
Proof.
  intros f. induction f as [|f IH]; intros mc i l m H1 H2 Hl; [lia|]. cbn [loop].
  assert (Hfuel : forall j, 0 <= j -> (Z.to_nat (len s - j) < fuel s)%nat) by (intros; unfold fuel, len; lia).
  assert (E0 : forall j l, j = len s -> words_end s j l = Ok l).
  { intros j l0 ->. unfold words_end. now replace (len s <? len s) with false by lia. }
  destruct (scan_ok isspace s (fuel s) i ltac:(lia) (Hfuel i ltac:(lia))) as (j & Sc & J & A & B).
  assert (WA : Forall white (sub s i j)) by (apply sub_forall; [lia|lia|]; intros; apply isspace_white; auto).
  destruct (Z.ltb_spec 0 mc) as [P|P].
  - rewrite Sc. cbn [bind]. destruct (Z.eqb_spec j (len s)) as [E|E].
    + exists [], j, l. split; [|split; [reflexivity|rewrite app_nil_r; now apply E0]].
      constructor. now rewrite <- E.
    + cbv zeta.
      destruct (scan_ok (fun c => negb (isspace c)) s (fuel s) (j + 1) ltac:(lia) (Hfuel (j + 1) ltac:(lia))) as (k & Sk & K & A2 & B2).
      rewrite Sk. cbn [bind]. rewrite slice_ok by lia. cbn [bind].
      destruct (IH (mc - 1) k (l ++ [sub s j k]) (m - 1)) as (ws & i' & l' & W & L & F);
        [lia|lia|unfold limit in *; lia|].
      exists (sub s j k :: ws), i', l'. split; [|split; [exact L|rewrite F, <- app_assoc; reflexivity]].
      rewrite (sub_split s i j (len s)), (sub_split s j k (len s)) by lia.
      constructor; auto.
      * unfold limit in *; lia.
      * intros Z0. pose proof (sub_len s j k ltac:(lia) ltac:(lia)) as L0. rewrite Z0, len_nil in L0. lia.
      * apply sub_forall; [lia|lia|]. intros x Hx. apply not_white.
        destruct (Z.eq_dec x j) as [->|]; [apply B; lia|]. specialize (A2 x ltac:(lia)). now apply negb_true_iff.
      * destruct (Z.eq_dec k (len s)) as [->|]; [left; apply sub_empty|right].
        apply sub_starts; [lia|lia|]. apply isspace_white. specialize (B2 ltac:(lia)). now apply negb_false_iff.
  - assert (m = 0) as -> by (unfold limit in *; lia).
    destruct (Z.eq_dec j (len s)) as [E|E].
    + exists [], i, l. split; [|split; [reflexivity|]].
      * constructor. now rewrite <- E.
      * rewrite app_nil_r. unfold words_end. destruct (i <? len s); auto. rewrite Sc. cbn [bind].
        now replace (j =? len s) with true by lia.
    + exists [sub s j (len s)], i, l. split; [|split; [reflexivity|]].
      * rewrite (sub_split s i j (len s)) by lia. constructor; auto.
        apply sub_starts; [lia|lia|]. apply not_white. apply B. lia.
      * unfold words_end. replace (i <? len s) with true by lia. rewrite Sc. cbn [bind].
        replace (j =? len s) with false by lia. cbn [negb]. now rewrite slice_ok by lia.
Qed.
Theorem split_words_ok s m : len s < MAX -> exists ws, str_split s None m = Ok ws /\ words m s ws.
Proof.
  intros Hs. pose proof (len_nonneg s). unfold str_split, split_whitespace.
  destruct (words_loop s (fuel s) (max_or m) 0 [] m) as (ws & i' & l' & W & L & F);
    [lia|unfold fuel, len; lia|rewrite Z.sub_0_r; now apply limit_start|].
  rewrite sub_all in W. exists ws. split; auto. cbv zeta in L |- *. rewrite L. exact F.
Qed.

Definition rwords_end (s : str) (i : Z) (l : list str) : res (list str) :=
  if 0 <=? i then
    bind (rscan (fuel s) isspace s i) (fun i =>
    if 0 <=? i then bind (slice_ s 0 (i + 1)) (fun w => Ok (l ++ [w])) else Ok l)
  else Ok l.
Lemma rwords_loop s : forall f mc i l m,
  -1 <= i < len s -> (Z.to_nat (i + 1) < f)%nat -> limit mc m (i + 1) ->
  exists ws i' l' l2, rwords m (sub s 0 (i + 1)) ws /\
    loop f (fun '(maxcount, i, l) =>
      if 0 <? maxcount then
        bind (rscan (fuel s) isspace s i) (fun i =>
        if i <? 0 then Ok (inr (i, l))
        else
          let j := i in
          bind (rscan (fuel s) (fun c => negb (isspace c)) s (i - 1)) (fun i =>
          bind (slice_ s (i + 1) (j + 1)) (fun w =>
          Ok (inl (maxcount - 1, i, l ++ [w])))))
      else Ok (inr (i, l))) (mc, i, l) = Ok (i', l') /\
    rwords_end s i' l' = Ok l2 /\ rev l2 = ws ++ rev l.
Proof.
  intros f. induction f as [|f IH]; intros mc i l m H1 H2 Hl; [lia|]. cbn [loop].
  assert (Hfuel : forall j, j < len s -> (Z.to_nat (j + 1) < fuel s)%nat) by (intros; unfold fuel, len in *; lia).
  destruct (rscan_ok isspace s (fuel s) i ltac:(lia) (Hfuel i ltac:(lia))) as (j & Sc & J & A & B).
  assert (WA : Forall white (sub s (j + 1) (i + 1))) by (apply sub_forall; [lia|lia|]; intros; apply isspace_white; apply A; lia).
  destruct (Z.ltb_spec 0 mc) as [P|P].
  - rewrite Sc. cbn [bind]. destruct (Z.ltb_spec j 0) as [E|E].
    + exists [], j, l, l. split; [|split; [reflexivity|split; [|reflexivity]]].
      * constructor. replace 0 with (j + 1) by lia. auto.
      * unfold rwords_end. now replace (0 <=? j) with false by lia.
    + cbv zeta.
      destruct (rscan_ok (fun c => negb (isspace c)) s (fuel s) (j - 1) ltac:(lia) (Hfuel (j - 1) ltac:(lia))) as (k & Sk & K & A2 & B2).
      rewrite Sk. cbn [bind]. rewrite slice_ok by lia. cbn [bind].
      destruct (IH (mc - 1) k (l ++ [sub s (k + 1) (j + 1)]) (m - 1)) as (ws & i' & l' & l2 & W & L & F & R);
        [lia|lia|unfold limit in *; lia|].
      exists (ws ++ [sub s (k + 1) (j + 1)]), i', l', l2. split; [|split; [exact L|split; [exact F|rewrite R, rev_app_distr, <- app_assoc; reflexivity]]].
      rewrite (sub_split s 0 (k + 1) (i + 1)), (sub_split s (k + 1) (j + 1) (i + 1)) by lia.
      constructor; auto.
      * unfold limit in *; lia.
      * intros Z0. pose proof (sub_len s (k + 1) (j + 1) ltac:(lia) ltac:(lia)) as L0. rewrite Z0, len_nil in L0. lia.
      * apply sub_forall; [lia|lia|]. intros x Hx. apply not_white.
        destruct (Z.eq_dec x j) as [->|]; [apply B; lia|]. specialize (A2 x ltac:(lia)). now apply negb_true_iff.
      * destruct (Z.eq_dec k (-1)) as [->|]; [left; apply sub_empty|right].
        apply sub_ends; [lia|lia|]. apply isspace_white. specialize (B2 ltac:(lia)). now apply negb_false_iff.
  - assert (m = 0) as -> by (unfold limit in *; lia).
    destruct (Z.lt_ge_cases j 0) as [E|E].
    + exists [], i, l, l. split; [|split; [reflexivity|split; [|reflexivity]]].
      * constructor. replace 0 with (j + 1) by lia. auto.
      * unfold rwords_end. destruct (0 <=? i); auto. rewrite Sc. cbn [bind].
        now replace (0 <=? j) with false by lia.
    + exists [sub s 0 (j + 1)], i, l, (l ++ [sub s 0 (j + 1)]). split; [|split; [reflexivity|split]].
      * rewrite (sub_split s 0 (j + 1) (i + 1)) by lia. constructor; auto.
        apply sub_ends; [lia|lia|]. apply not_white. apply B. lia.
      * unfold rwords_end. replace (0 <=? i) with true by lia. rewrite Sc. cbn [bind].
        replace (0 <=? j) with true by lia. now rewrite slice_ok by lia.
      * now rewrite rev_app_distr.
Qed.
Theorem rsplit_words_ok s m : len s < MAX -> exists ws, str_rsplit s None m = Ok ws /\ rwords m s ws.
Proof.
  intros Hs. pose proof (len_nonneg s). unfold str_rsplit, rsplit_whitespace.
  destruct (rwords_loop s (fuel s) (max_or m) (len s - 1) [] m) as (ws & i' & l' & l2 & W & L & F & R);
    [lia|unfold fuel, len; lia|replace (len s - 1 + 1) with (len s) by lia; now apply limit_start|].
  replace (len s - 1 + 1) with (len s) in W by lia. rewrite sub_all in W. exists ws. split; auto.
  cbv zeta in L |- *. rewrite L. cbn [bind]. unfold rwords_end in F. rewrite F. cbn [bind].
  f_equal. rewrite R. cbn [rev]. apply app_nil_r.
Qed.

(** ** Lines *)
Lemma lines_loop s keep : forall f i v, 0 <= i <= len s -> (Z.to_nat (len s - i) < f)%nat ->
  exists ls, lines keep (sub s i (len s)) ls /\
    loop f (fun '(i, j, v) =>
      if i <? len s then
        bind (scan (fuel s) (fun c => negb (is_break c)) s i) (fun i =>
        bind
          (if i <? len s then
             bind (get s i) (fun c =>
             bind (if (c =? 13) && (i + 1 <? len s) then
                      bind (get s (i + 1)) (fun d => Ok (if d =? 10 then i + 2 else i + 1))
                    else Ok (i + 1)) (fun i' =>
             Ok (i', if keep then i' else i)))
           else Ok (i, i)) (fun '(i, eol) =>
        if (j =? 0) && (eol =? len s) then Ok (inr (v ++ [s]))
        else bind (slice_ s j eol) (fun w => Ok (inl (i, i, v ++ [w])))))
      else Ok (inr v)) (i, i, v) = Ok (v ++ ls).
Proof.
  intros f. induction f as [|f IH]; intros i v H1 H2; [lia|]. cbn [loop].
  destruct (Z.ltb_spec i (len s)) as [Hi|Hi].
  2:{ exists []. replace i with (len s) by lia. rewrite sub_empty, app_nil_r. split; [constructor|auto]. }
  destruct (scan_ok (fun c => negb (is_break c)) s (fuel s) i ltac:(lia)) as (j & Sc & J & A & B).
  { unfold fuel, len; lia. }
  rewrite Sc. cbn [bind].
  assert (NB : no_break (sub s i j)).
  { apply sub_forall; [lia|lia|]. intros x Hx. specialize (A x Hx). unfold is_break in A. lia. }
  destruct (Z.ltb_spec j (len s)) as [Hj|Hj].
  - (* a line end at [j] *)
    rewrite get_ok by lia. cbn [bind]. specialize (B Hj).
    set (i' := if (byte_at s j =? 13) && (j + 1 <? len s) then (if byte_at s (j + 1) =? 10 then j + 2 else j + 1) else j + 1).
    assert (LE : j < i' <= len s /\ line_end (sub s j i') (sub s i' (len s))).
    { unfold i'. unfold is_break in B. destruct (Z.eqb_spec (byte_at s j) 13) as [E|E]; cbn [andb].
      - destruct (Z.ltb_spec (j + 1) (len s)) as [L|L].
        + destruct (Z.eqb_spec (byte_at s (j + 1)) 10) as [E2|E2].
          * split; [lia|]. right. left. replace (j + 2) with (j + 1 + 1) by lia.
            rewrite sub_snoc, sub_cons, sub_empty by lia. now rewrite E, E2.
          * split; [lia|]. right. right. split.
            -- rewrite sub_cons, sub_empty by lia. now rewrite E.
            -- rewrite sub_cons by lia. cbn. auto.
        + split; [lia|]. right. right. split.
          * rewrite sub_cons, sub_empty by lia. now rewrite E.
          * replace (j + 1) with (len s) by lia. rewrite sub_empty. auto.
      - split; [lia|]. left. rewrite sub_cons, sub_empty by lia. f_equal. lia. }
    destruct LE as [LI LE].
    assert (EI : bind (if (byte_at s j =? 13) && (j + 1 <? len s) then
                      bind (get s (j + 1)) (fun d => Ok (if d =? 10 then j + 2 else j + 1))
                    else Ok (j + 1)) (fun i' => Ok (i', if keep then i' else j)) = Ok (i', if keep then i' else j)).
    { unfold i'. destruct ((byte_at s j =? 13) && (j + 1 <? len s)) eqn:E; auto. rewrite get_ok by lia. reflexivity. }
    rewrite EI. cbn [bind]. clearbody i'. clear EI.
    destruct (IH i' (v ++ [sub s i (if keep then i' else j)]) ltac:(lia) ltac:(lia)) as (ls & Ls & L).
    assert (D : sub s i (len s) = sub s i j ++ sub s j i' ++ sub s i' (len s)).
    { rewrite <- (sub_split s j i' (len s)), <- (sub_split s i j (len s)) by lia. reflexivity. }
    assert (K : (if keep then sub s i j ++ sub s j i' else sub s i j) = sub s i (if keep then i' else j)).
    { destruct keep; auto. rewrite <- sub_split by lia. reflexivity. }
    destruct (Z.eqb_spec i 0) as [E0|E0]; cbn [andb].
    + destruct (Z.eqb_spec (if keep then i' else j) (len s)) as [E1|E1].
      * exists [s]. split; [|reflexivity]. rewrite D.
        replace [s] with ((if keep then sub s i j ++ sub s j i' else sub s i j) :: []).
        2:{ rewrite K, E1, E0, sub_all. reflexivity. }
        constructor; auto. destruct keep; [|lia]. rewrite E1, sub_empty. constructor.
      * rewrite slice_ok by (destruct keep; lia). cbn [bind].
        exists (sub s i (if keep then i' else j) :: ls). split.
        -- rewrite D, <- K. constructor; auto.
        -- rewrite <- app_assoc in L. exact L.
    + rewrite slice_ok by (destruct keep; lia). cbn [bind].
      exists (sub s i (if keep then i' else j) :: ls). split.
      * rewrite D, <- K. constructor; auto.
      * rewrite <- app_assoc in L. exact L.
  - assert (j = len s) as -> by lia. cbn [bind].
    destruct (IH (len s) (v ++ [sub s i (len s)]) ltac:(lia) ltac:(lia)) as (ls & Ls & L).
    assert (LL : lines keep (sub s i (len s)) [sub s i (len s)]).
    { apply lines_last; auto. intros E. pose proof (sub_len s i (len s) ltac:(lia) ltac:(lia)) as Z0.
      rewrite E, len_nil in Z0. lia. }
    destruct ((i =? 0) && (len s =? len s)) eqn:E.
    + exists [s]. split; [|reflexivity]. replace i with 0 in * by lia. rewrite sub_all in LL. now rewrite sub_all.
    + rewrite slice_ok by lia. cbn [bind]. exists [sub s i (len s)]. split; auto.
      rewrite sub_empty in Ls. inversion Ls as [E1|s0 N0 _ E1|s0 e r l0 N0 LE _ E1]; subst.
      * etransitivity; [exact L|]. now rewrite app_nil_r.
      * congruence.
      * apply app_eq_nil in E1. destruct E1 as [_ E1]. apply app_eq_nil in E1. destruct E1 as [-> _].
        destruct LE as [LE|[LE|[LE _]]]; discriminate.
Qed.
Theorem splitlines_ok s keep : exists ls, str_splitlines s keep = Ok ls /\ lines keep s ls.
Proof.
  pose proof (len_nonneg s). unfold str_splitlines.
  destruct (lines_loop s keep (fuel s) 0 []) as (ls & Ls & L); [lia|unfold fuel, len; lia|].
  rewrite sub_all in Ls. exists ls. split; auto.
Qed.

(** ** Partition *)
Theorem partition_ok s sep :
  if len sep =? 0 then str_partition s sep = Raise ValueError
  else exists a m b, str_partition s sep = Ok (a, m, b) /\
    ((m = [] /\ a = s /\ b = [] /\ forall i, ~ occurs sep s i) \/
     (m = sep /\ s = a ++ sep ++ b /\ forall i, occurs sep s i -> size a <= i)).
Proof.
  pose proof (len_nonneg s). pose proof (len_nonneg sep).
  unfold str_partition. destruct (Z.eqb_spec (len sep) 0) as [E|E]; auto.
  destruct (forward_find_ok s sep) as (r & -> & F). cbn [bind].
  pose proof F as F0. rewrite <- (sub_all s) in F. apply cut_first in F; [|lia]. rewrite !sub_all in F.
  destruct F as [(-> & N)|(R1 & R2 & D & M)].
  - exists s, [], []. split; auto.
  - replace (r <? 0) with false by lia. rewrite !slice_ok by lia. cbn [bind].
    rewrite Z.add_0_l in *. exists (sub s 0 r), sep, (sub s (r + len sep) (len s)). split; auto.
    right. split; auto. split; auto. rewrite <- D in M. auto.
Qed.
Theorem rpartition_ok s sep : rfind_fits s sep = true ->
  if len sep =? 0 then str_rpartition s sep = Raise ValueError
  else exists a m b, str_rpartition s sep = Ok (a, m, b) /\
    ((m = [] /\ a = [] /\ b = s /\ forall i, ~ occurs sep s i) \/
     (m = sep /\ s = a ++ sep ++ b /\ forall i, occurs sep s i -> i <= size a)).
Proof.
  intros Hf. pose proof (len_nonneg s). pose proof (len_nonneg sep).
  unfold str_rpartition. destruct (Z.eqb_spec (len sep) 0) as [E|E]; auto.
  destruct (backward_find_ok s sep Hf) as (r & -> & F). cbn [bind].
  pose proof F as F0. rewrite <- (sub_all s) in F. apply cut_last in F; [|lia]. rewrite !sub_all in F.
  destruct F as [(-> & N)|(R1 & R2 & D & M)].
  - exists [], [], s. split; auto.
  - replace (r <? 0) with false by lia. rewrite !slice_ok by lia. cbn [bind].
    exists (sub s 0 r), sep, (sub s (r + len sep) (len s)). split; auto.
    right. split; auto. split; auto. rewrite <- D in M. auto.
Qed.

(** ** Joining *)
Lemma put_ok cap out src : len out + len src <= cap -> put cap out src = Ok (out ++ src).
Proof. intros. unfold put. now replace (len out + len src <=? cap) with true by lia. Qed.
Lemma full_ok cap out : len out = cap -> full cap out = Ok out.
Proof. intros. unfold full. now replace (len out =? cap) with true by lia. Qed.
Lemma alloc_ok n : 0 <= n -> alloc n = Ok tt.
Proof. intros. unfold alloc. now replace (n <? 0) with false by lia. Qed.

Lemma len_concat l : len (concat l) = total l.
Proof. induction l as [|a l IH]; [reflexivity|]. cbn [concat total fold_right]. rewrite len_app, IH. reflexivity. Qed.
Lemma total_nonneg l : 0 <= total l.
Proof. rewrite <- len_concat. apply len_nonneg. Qed.
Lemma put_list_ok cap l : forall out, len out + total l <= cap -> put_list cap out l = Ok (out ++ concat l).
Proof.
  induction l as [|a l IH]; intros out H; cbn [put_list concat]; [now rewrite app_nil_r|].
  pose proof (total_nonneg l). change (total (a :: l)) with (len a + total l) in H.
  rewrite put_ok by lia. cbn [bind]. rewrite IH; rewrite ?len_app; [now rewrite <- app_assoc|lia].
Qed.
Lemma cat_ok l : str_cat l = Ok (concat l).
Proof.
  unfold str_cat. pose proof (total_nonneg l). rewrite alloc_ok by lia. cbn [bind].
  rewrite put_list_ok by (rewrite len_nil; lia). cbn [bind app]. apply full_ok. apply len_concat.
Qed.
Lemma join_nil l : join [] l = concat l.
Proof.
  induction l as [|a l IH]; [reflexivity|]. destruct l as [|b l].
  - cbn. now rewrite app_nil_r.
  - change (join [] (a :: b :: l)) with (a ++ join [] (b :: l)). rewrite IH. reflexivity.
Qed.
Lemma join_len_ok sep l : len (join sep l) = join_len sep l.
Proof.
  induction l as [|a l IH]; [reflexivity|]. destruct l as [|b l].
  - cbn. lia.
  - change (join sep (a :: b :: l)) with (a ++ sep ++ join sep (b :: l)).
    rewrite !len_app, IH. change (join_len sep (a :: b :: l)) with (len a + len sep + join_len sep (b :: l)). lia.
Qed.
Lemma put_join_ok cap sep l : forall out, len out + join_len sep l <= cap ->
  put_join cap sep out l = Ok (out ++ join sep l).
Proof.
  induction l as [|a l IH]; intros out H; [cbn; now rewrite app_nil_r|].
  pose proof (len_nonneg sep). pose proof (len_nonneg (join sep l)) as N. rewrite join_len_ok in N.
  cbn [put_join]. cbn [join_len] in H. destruct l as [|b l].
  - rewrite put_ok by lia. cbn [bind put_join join]. reflexivity.
  - rewrite put_ok by lia. cbn [bind]. rewrite put_ok by (rewrite len_app; lia). cbn [bind].
    rewrite IH by (rewrite !len_app; lia).
    change (join sep (a :: b :: l)) with (a ++ sep ++ join sep (b :: l)). now rewrite <- !app_assoc.
Qed.
Theorem join_ok sep l : str_join sep l = Ok (join sep l).
Proof.
  unfold str_join. destruct l as [|a [|b l]]; auto.
  destruct (Z.eqb_spec (len sep) 0) as [E|E].
  - apply len_0 in E. subst. rewrite cat_ok. now rewrite join_nil.
  - pose proof (len_nonneg (join sep (a :: b :: l))) as N. rewrite join_len_ok in N.
    rewrite alloc_ok by lia. cbn [bind]. rewrite put_join_ok by (rewrite len_nil; lia). cbn [bind app].
    apply full_ok. apply join_len_ok.
Qed.

Lemma grow_ok : forall n m needed, 0 < m -> needed <= m * 2 ^ Z.of_nat n ->
  exists m', grow (S n) m needed = Ok m' /\ needed <= m' /\ m <= m'.
Proof.
  induction n as [|n IH]; intros m needed Hm H.
  - cbn in *. replace (m <? needed) with false by lia. exists m. repeat split; lia.
  - cbn [grow]. destruct (Z.ltb_spec m needed); [|exists m; repeat split; lia].
    destruct (IH (m * 2) needed) as (m' & G & A & B); [lia| |].
    + replace (Z.of_nat (S n)) with (Z.of_nat n + 1) in H by lia. rewrite Z.pow_add_r in H by lia. lia.
    + exists m'. repeat split; auto; lia.
Qed.
Lemma sb_append_ok b s : 16 <= sb_m b -> len (sb_data b) + len s <= 2 ^ 62 ->
  exists b', sb_append b s = Ok b' /\ 16 <= sb_m b' /\ sb_data b' = sb_data b ++ s.
Proof.
  intros Hm H. unfold sb_append.
  assert (G : exists m', (if sb_m b <? len (sb_data b) + len s then grow 64 (sb_m b) (len (sb_data b) + len s) else Ok (sb_m b)) = Ok m'
              /\ len (sb_data b) + len s <= m' /\ sb_m b <= m').
  { destruct (Z.ltb_spec (sb_m b) (len (sb_data b) + len s)); [|exists (sb_m b); repeat split; lia].
    apply grow_ok; [lia|]. change (2 ^ Z.of_nat 63) with (2 ^ 63). lia. }
  destruct G as (m' & -> & A & B). cbn [bind]. rewrite put_ok by lia. cbn [bind].
  eexists. split; [reflexivity|]. cbn. split; [lia|auto].
Qed.
Definition more (sep : list Z) (l : list (list Z)) : list Z := match l with [] => [] | _ => sep ++ join sep l end.
Lemma sb_join_ok (sep : str) (osep : option str) : osep = (if len sep =? 0 then None else Some sep) ->
  forall l b (first : bool), 16 <= sb_m b ->
  len (sb_data b) + len (if first then join sep l else more sep l) <= 2 ^ 62 ->
  exists b', sb_join b osep first l = Ok b' /\ 16 <= sb_m b' /\
    sb_data b' = sb_data b ++ (if first then join sep l else more sep l).
Proof.
  intros Ho. induction l as [|a l IH]; intros b first Hm H.
  - cbn. exists b. split; auto. split; auto. destruct first; cbn; now rewrite app_nil_r.
  - cbn [sb_join]. pose proof (len_nonneg sep).
    assert (J : join sep (a :: l) = a ++ more sep l).
    { destruct l; [cbn; now rewrite app_nil_r|reflexivity]. }
    assert (J2 : more sep (a :: l) = sep ++ a ++ more sep l) by (rewrite <- J; reflexivity).
    rewrite J, J2 in H. pose proof (len_nonneg (more sep l)). pose proof (len_nonneg a).
    assert (X : exists b1, (match osep with Some sep => if first then Ok b else sb_append b sep | None => Ok b end) = Ok b1
              /\ 16 <= sb_m b1 /\ sb_data b1 = sb_data b ++ (if first then [] else sep)).
    { subst osep. destruct (Z.eqb_spec (len sep) 0) as [E|E].
      - apply len_0 in E. subst sep. exists b. split; auto. split; auto. destruct first; now rewrite app_nil_r.
      - destruct first; [exists b; split; auto; split; auto; now rewrite app_nil_r|].
        apply sb_append_ok; auto. rewrite !len_app in H. pose proof (len_nonneg a). lia. }
    destruct X as (b1 & -> & M1 & D1). cbn [bind].
    destruct (sb_append_ok b1 a) as (b2 & -> & M2 & D2); auto.
    { rewrite D1, len_app. destruct first; rewrite !len_app in H; rewrite ?len_nil; lia. }
    cbn [bind]. destruct (IH b2 false M2) as (b3 & -> & M3 & D3).
    { rewrite D2, D1, !len_app. destruct first; rewrite !len_app in H; rewrite ?len_nil; lia. }
    exists b3. split; auto. split; auto. rewrite D3, D2, D1, J, J2. destruct first; rewrite <- ?app_assoc; reflexivity.
Qed.
Theorem join_gen_ok sep l : len (join sep l) <= 2 ^ 62 -> str_join_gen sep l = Ok (join sep l).
Proof.
  intros H. unfold str_join_gen.
  destruct (sb_join_ok sep _ eq_refl l (SB [] 16) true) as (b & -> & _ & D).
  - cbn. lia.
  - exact H.
  - cbn [bind]. f_equal. exact D.
Qed.

(** ** Stripping *)
(** The bytes that [strip] removes. *)
Definition strip_set (chars : list Z) (c : Z) : Prop :=
  match chars with [] => white c | _ => In c chars end.
Lemma has_char_ok chars c : has_char chars c = true <-> strip_set chars c.
Proof.
  unfold has_char, strip_set. destruct chars as [|d l]; [apply isspace_white|].
  rewrite existsb_exists. split.
  - intros (x & Hx & E). apply Z.eqb_eq in E. now subst.
  - intros H. exists c. split; auto. apply Z.eqb_refl.
Qed.
Lemma has_char_not chars c : has_char chars c = false <-> ~ strip_set chars c.
Proof. rewrite <- has_char_ok. destruct (has_char chars c); split; congruence. Qed.
Theorem lstrip_ok s chars : exists r, str_lstrip s chars = Ok r /\ stripped_left (strip_set chars) s r.
Proof.
  pose proof (len_nonneg s). unfold str_lstrip.
  destruct (scan_ok (has_char chars) s (fuel s) 0 ltac:(lia)) as (i & -> & I & A & B); [unfold fuel, len; lia|].
  cbn [bind]. rewrite slice_ok by lia. eexists. split; [reflexivity|]. exists (sub s 0 i). split; [|split].
  - rewrite <- sub_split by lia. symmetry. apply sub_all.
  - apply sub_forall; [lia|lia|]. intros. apply has_char_ok. auto.
  - destruct (Z.eq_dec i (len s)) as [->|]; [rewrite sub_empty; auto|].
    rewrite sub_cons by lia. cbn. apply has_char_not. apply B. lia.
Qed.
Theorem rstrip_ok s chars : exists r, str_rstrip s chars = Ok r /\ stripped_right (strip_set chars) s r.
Proof.
  pose proof (len_nonneg s). unfold str_rstrip.
  destruct (rscan_ok (has_char chars) s (fuel s) (len s - 1) ltac:(lia)) as (i & -> & I & A & B); [unfold fuel, len; lia|].
  cbn [bind]. rewrite slice_ok by lia. eexists. split; [reflexivity|]. exists (sub s (i + 1) (len s)). split; [|split].
  - rewrite <- sub_split by lia. symmetry. apply sub_all.
  - apply sub_forall; [lia|lia|]. intros. apply has_char_ok. apply A. lia.
  - destruct (Z.eq_dec i (-1)) as [->|]; [rewrite sub_empty; auto|].
    unfold ends. rewrite sub_snoc by lia. rewrite rev_app_distr. cbn. apply has_char_not. apply B. lia.
Qed.
Theorem strip_ok s chars : exists t r, str_strip s chars = Ok r /\
  stripped_left (strip_set chars) s t /\ stripped_right (strip_set chars) t r.
Proof.
  unfold str_strip. destruct (lstrip_ok s chars) as (t & -> & T). cbn [bind].
  destruct (rstrip_ok t chars) as (r & -> & R). eauto.
Qed.
