(** Reshaping visits the same offsets in the same order. *)
From Coq Require Import List ZArith Lia Bool Permutation.
From Verif.Common Require Import Result Int64.
From Verif.Nd Require Import Spec Model Grid Copy.
Import ListNotations.
Local Open Scope Z_scope.

(** ** Groups of dimensions *)

Lemma product_pos l : Forall (fun d => 0 < d) l -> 0 < product l.
Proof. induction 1; [reflexivity|]. rewrite product_cons. nia. Qed.

Lemma grab_ok fuel : forall np op gn go news olds,
  np = product gn -> op = product (map fst go) ->
  Forall (fun d => 0 < d) gn -> Forall (fun d => 0 < d) (map fst go) ->
  Forall (fun d => 0 < d) news -> Forall (fun d => 0 < d) (map fst olds) ->
  np * product news = op * product (map fst olds) ->
  (length news + length olds < fuel)%nat ->
  exists gn' go' news' olds',
    grab fuel np op gn go news olds = Some (gn', go', news', olds') /\
    gn' ++ news' = gn ++ news /\ go' ++ olds' = go ++ olds /\
    product gn' = product (map fst go') /\
    product news' = product (map fst olds') /\
    (length gn <= length gn')%nat /\ (length go <= length go')%nat.
Proof.
  induction fuel as [|fuel IH]; intros np op gn go news olds En Eo Fgn Fgo Fn Fo E L; [lia|].
  pose proof (product_pos _ Fgn). pose proof (product_pos _ Fgo).
  pose proof (product_pos _ Fn). pose proof (product_pos _ Fo).
  cbn [grab]. destruct (Z.eqb_spec np op) as [->|Hne].
  - exists gn, go, news, olds. repeat split; auto; try lia; try congruence. nia.
  - destruct (Z.ltb_spec np op).
    + destruct news as [|n news]; [exfalso; change (product []) with 1 in E; nia|].
      inversion Fn; subst. rewrite product_cons in E.
      destruct (IH (product gn * n) (product (map fst go)) (gn ++ [n]) go news olds)
        as (gn' & go' & news' & olds' & -> & A1 & A2 & A3 & A4 & A5 & A6).
      * rewrite product_app, product_cons. change (product []) with 1. lia.
      * reflexivity.
      * apply Forall_app; auto.
      * assumption.
      * assumption.
      * assumption.
      * lia.
      * simpl in L. lia.
      * exists gn', go', news', olds'. rewrite <- app_assoc in A1. rewrite app_length in A5.
        simpl in A5. repeat split; auto. lia.
    + destruct olds as [|o olds]; [exfalso; change (product (map fst [])) with 1 in E; nia|].
      simpl in Fo. inversion Fo; subst. simpl map in E. rewrite product_cons in E.
      destruct (IH (product gn) (product (map fst go) * fst o) gn (go ++ [o]) news olds)
        as (gn' & go' & news' & olds' & -> & A1 & A2 & A3 & A4 & A5 & A6).
      * reflexivity.
      * rewrite map_app, product_app. simpl map. rewrite product_cons. change (product []) with 1. lia.
      * assumption.
      * rewrite map_app. apply Forall_app. simpl. auto.
      * assumption.
      * assumption.
      * lia.
      * simpl in L. lia.
      * exists gn', go', news', olds'. rewrite <- app_assoc in A2. rewrite app_length in A6.
        simpl in A6. repeat split; auto. lia.
Qed.

(** A group that may be walked with one stride is a line. *)
Lemma one_stride_line go o : go <> [] -> one_stride false go = true ->
  Forall (fun d => 0 <= d) (map fst go) ->
  snd (hd (0, 0) go) * fst (hd (0, 0) go) = product (map fst go) * snd (last go (0, 0)) /\
  offs (map fst go) (map snd go) o = line (product (map fst go)) (snd (last go (0, 0))) o.
Proof.
  revert o. induction go as [|[d1 s1] go IH]; intros o N H F; [congruence|].
  destruct go as [|[d2 s2] go].
  - cbn [map fst snd last hd]. rewrite product_cons. change (product []) with 1.
    split; [lia|]. rewrite offs_line. f_equal. lia.
  - cbn [one_stride] in H. apply andb_true_iff in H. destruct H as [H1 H].
    apply Z.eqb_eq in H1.
    inversion F as [|? ? Hd F']; subst.
    assert (X : forall o, _ ) by (intros o'; exact (IH o' ltac:(discriminate) H F')).
    set (g := (d2, s2) :: go) in *. clear IH.
    change (last ((d1, d2 * s2) :: g) (0, 0)) with (last g (0, 0)).
    cbn [map fst snd hd]. rewrite product_cons. destruct (X o) as [X1 _].
    unfold g in X1 at 1 2. cbn [hd fst snd] in X1.
    split; [nia|]. rewrite offs_cons.
    transitivity (flat_map (line (product (map fst g)) (snd (last g (0, 0))))
                    (line d1 (product (map fst g) * snd (last g (0, 0))) o)).
    + unfold line at 2. rewrite flat_map_map. apply flat_map_ext. intros i.
      destruct (X (o + i * (d2 * s2))) as [_ X2]. rewrite X2, <- X1. f_equal. ring.
    + apply line_line; [assumption|]. now apply product_nonneg.
Qed.

Lemma one_stride_cons f d1 s1 d2 s2 l : one_stride f ((d1, s1) :: (d2, s2) :: l) =
  (if f then s2 =? d1 * s1 else s1 =? d2 * s2) && one_stride f ((d2, s2) :: l).
Proof. reflexivity. Qed.

Lemma one_stride_snoc f go x : one_stride f (go ++ [x]) = true <->
  one_stride f go = true /\
  (go <> [] -> let y := last go (0, 0) in
     if f then snd x = fst y * snd y else snd y = fst x * snd x).
Proof.
  induction go as [|[d1 s1] go IH].
  { destruct x. simpl. split; [split; [reflexivity|congruence]|reflexivity]. }
  destruct go as [|[d2 s2] go].
  - destruct x as [d s]. simpl. destruct f; rewrite andb_true_r, Z.eqb_eq; intuition congruence.
  - rewrite <- app_comm_cons in *. rewrite <- app_comm_cons. rewrite !one_stride_cons.
    rewrite !andb_true_iff, IH.
    change (last ((d1, s1) :: (d2, s2) :: go) (0, 0)) with (last ((d2, s2) :: go) (0, 0)).
    split; [intros (A & B & C)|intros ((A & B) & C)]; repeat split; auto; intros _; apply C; discriminate.
Qed.

Lemma last_rev {A} (l : list A) d : last (rev l) d = hd d l.
Proof. destruct l; simpl; [reflexivity|]. apply last_last. Qed.

Lemma one_stride_rev go : one_stride true go = true -> one_stride false (rev go) = true.
Proof.
  induction go as [|[d1 s1] go IH]; [reflexivity|]. intros H. simpl rev. apply one_stride_snoc.
  destruct go as [|[d2 s2] go].
  - split; [reflexivity|]. simpl. congruence.
  - cbn [one_stride] in H. apply andb_true_iff in H. destruct H as [H1 H]. apply Z.eqb_eq in H1.
    split; [now apply IH|]. intros _. rewrite last_rev. simpl. exact H1.
Qed.

(** ** The matching *)

(** Offsets in the order meant. *)
Definition ooffs (f : bool) (sh st : list Z) (o : Z) : list Z :=
  if f then offs (rev sh) (rev st) o else offs sh st o.

Lemma offs_ones n st o : length st = n -> offs (repeat 1 n) st o = [o].
Proof.
  revert st o. induction n; intros [|s st] o H; simpl in *; try discriminate.
  - apply offs_nil.
  - rewrite offs_cons. simpl. rewrite app_nil_r, IHn by lia. f_equal. lia.
Qed.

Lemma product_1 l : Forall (fun d => 0 < d) l -> product l = 1 -> l = repeat 1 (length l).
Proof.
  induction 1 as [|d l Hd F IH]; intros E; [reflexivity|]. rewrite product_cons in E.
  pose proof (product_pos _ F). assert (d = 1) by nia. subst. simpl. f_equal. apply IH. lia.
Qed.

Lemma product_big l : Forall (fun d => 2 <= d) l -> product l = 1 -> l = [].
Proof.
  destruct 1 as [|d l Hd F]; intros E; [reflexivity|]. exfalso. rewrite product_cons in E.
  assert (0 < product l) by (apply product_pos; eapply Forall_impl; [|exact F]; simpl; lia). nia.
Qed.

Lemma ooffs_app f s1 t1 s2 t2 o : length s1 = length t1 -> length s2 = length t2 ->
  ooffs f (s1 ++ s2) (t1 ++ t2) o =
  if f then flat_map (ooffs f s1 t1) (ooffs f s2 t2 o)
  else flat_map (ooffs f s2 t2) (ooffs f s1 t1 o).
Proof.
  intros H1 H2. unfold ooffs. destruct f.
  - rewrite !rev_app_distr. apply offs_app. now rewrite !rev_length.
  - now apply offs_app.
Qed.

Lemma group_same f gn go o : go <> [] -> one_stride f go = true ->
  Forall (fun d => 0 <= d) gn -> Forall (fun d => 0 <= d) (map fst go) ->
  product gn = product (map fst go) ->
  ooffs f gn (group_strides f gn go) o = ooffs f (map fst go) (map snd go) o.
Proof.
  intros N H Fn Fo E. unfold ooffs, group_strides. destruct f.
  - rewrite <- strides_walk_spread, offs_walk, <- !map_rev by assumption.
    destruct (one_stride_line (rev go) o) as [_ ->].
    + destruct go; [congruence|]. simpl. intros C. now apply app_eq_nil in C as [_ C].
    + now apply one_stride_rev.
    + rewrite map_rev. now apply Forall_rev.
    + rewrite map_rev, product_rev, last_rev. now rewrite E.
  - rewrite <- strides_walk_spread. rewrite <- (rev_involutive gn) at 1.
    rewrite offs_walk by (now apply Forall_rev).
    destruct (one_stride_line go o) as [_ ->]; auto.
    now rewrite product_rev, E.
Qed.

Lemma spread_length l s : length (spread_walk l s) = length l.
Proof. revert s. induction l; intros; simpl; auto. Qed.

Lemma group_length f gn go : length (group_strides f gn go) = length gn.
Proof. unfold group_strides. destruct f; rewrite ?rev_length, spread_length, ?rev_length; auto. Qed.

Lemma match_ok f i fuel : forall done ldim news olds,
  Forall (fun d => 0 < d) news -> Forall (fun d => 2 <= d) (map fst olds) ->
  product news = product (map fst olds) -> (length news < fuel)%nat ->
  exists r, match_groups fuel f i done ldim news olds = Ok r /\
    forall st, r = Some st -> exists st', st = done ++ st' /\ length st' = length news /\
      forall o, ooffs f news st' o = ooffs f (map fst olds) (map snd olds) o.
Proof.
  induction fuel as [|fuel IH]; intros done ldim news olds Fn Fo E L; [lia|].
  assert (Fo' : Forall (fun d => 0 < d) (map fst olds))
    by (eapply Forall_impl; [|exact Fo]; simpl; lia).
  cbn [match_groups]. destruct news as [|n news], olds as [|o olds].
  - eexists. split; [reflexivity|]. intros st [= <-]. exists []. repeat split; auto.
  - exfalso. change (product []) with 1 in E. symmetry in E. apply product_big in E; [discriminate|assumption].
  - set (ls := if f then _ else _). remember (repeat ls (length (n :: news))) as rs eqn:Ers.
    eexists. split; [reflexivity|]. intros st [= <-]. exists rs. split; [reflexivity|]. subst rs.
    split; [now rewrite repeat_length|]. intros b. generalize ls. clear ls. intros ls.
    change (product (map fst [])) with 1 in E. apply product_1 in E; [|assumption].
    simpl map. unfold ooffs. remember (length (n :: news)) as k eqn:Ek. clear Ek. destruct f.
    + rewrite E.
      assert (R : forall n, rev (repeat 1 n) = repeat 1 n).
      { induction n0; [reflexivity|]. simpl. rewrite IHn0. rewrite <- repeat_cons. reflexivity. }
      rewrite R, offs_ones, offs_nil by (rewrite rev_length, repeat_length; reflexivity).
      reflexivity.
    + rewrite E, offs_ones, offs_nil by apply repeat_length.
      reflexivity.
  - inversion Fn as [|? ? Hn Fn']; subst. cbn [map] in Fo, Fo'.
    inversion Fo as [|? ? Ho Foo]; subst. inversion Fo' as [|? ? Ho' Foo']; subst.
    destruct (grab_ok (length (n :: news) + length (o :: olds)) n (fst o) [n] [o] news olds)
      as (gn & go & news' & olds' & -> & A1 & A2 & A3 & A4 & A5 & A6); auto.
    { rewrite product_cons. change (product []) with 1. lia. }
    { cbn [map]. rewrite product_cons. change (product []) with 1. lia. }
    { simpl. auto. }
    { simpl. lia. }
    assert (Fgn : Forall (fun d => 0 < d) (gn ++ news')) by (rewrite A1; simpl; auto).
    assert (Fgo : Forall (fun d => 2 <= d) (map fst (go ++ olds'))) by (rewrite A2; simpl; auto).
    apply Forall_app in Fgn. destruct Fgn as [Fgn Fnn]. rewrite map_app in Fgo.
    apply Forall_app in Fgo. destruct Fgo as [Fgo Fool].
    destruct (one_stride f go) eqn:S.
    + destruct (IH (done ++ group_strides f gn go) (last gn 0) news' olds') as (r & Hr & K); auto.
      { apply (f_equal (@length Z)) in A1. rewrite !app_length in A1. simpl in *. lia. }
      exists r. split; [exact Hr|]. intros st Est. destruct (K st Est) as (st' & -> & L' & K').
      exists (group_strides f gn go ++ st'). rewrite app_assoc. split; [reflexivity|].
      split. { rewrite app_length, group_length, L', <- app_length, A1. reflexivity. }
      intros b. change (o :: olds) with ([o] ++ olds). rewrite <- A2.
      change (n :: news) with ([n] ++ news). rewrite <- A1. rewrite !map_app.
      rewrite !ooffs_app by (now rewrite ?group_length, ?map_length).
      assert (G : forall b, ooffs f gn (group_strides f gn go) b = ooffs f (map fst go) (map snd go) b).
      { intros b'. apply group_same; auto.
        - destruct go; [simpl in A6; lia|discriminate].
        - eapply Forall_impl; [|exact Fgn]. simpl. lia.
        - eapply Forall_impl; [|exact Fgo]. simpl. lia. }
      destruct f; rewrite ?K', ?G; apply flat_map_ext; intros; auto.
    + exists None. split; [reflexivity|]. discriminate.
Qed.

(** ** [_attempt_reshape_nocopy] *)

Lemma no_empty a : wf a -> forall z, contig a <> (z, z) \/ z = false -> 0 < product (shape a) /\ ~ In 0 (shape a) \/ contig a = (true, true).
Proof.
  intros [L F P] z _. unfold contig.
  destruct (contig_walk (rev (combine (shape a) (strides a))) (isz a)) as [cc|] eqn:E; [|auto].
  left. apply walk_some in E. rewrite map_rev, combine_fst in E by congruence.
  rewrite <- in_rev in E. split; [|assumption]. apply product_pos.
  rewrite Forall_forall in *. intros d Hd. specialize (F d Hd). simpl in F.
  destruct (Z.eq_dec d 0); [subst; contradiction|lia].
Qed.

Lemma foffs_ooffs (f : bool) sh st o : length sh = length st ->
  map (fun c => o + dot c st) (ogrid (if f then OF else OC) sh) = ooffs f sh st o.
Proof. intros H. destruct f; [now apply foffs_rev|reflexivity]. Qed.

Theorem nocopy_ok a sh f : wf a -> 0 < product (shape a) ->
  Forall (fun d => 0 <= d) sh -> product sh = product (shape a) ->
  exists r, reshape_nocopy a sh f = Ok r /\
    forall st, r = Some st -> length st = length sh /\
      forall o, ooffs f sh st o = ooffs f (shape a) (strides a) o.
Proof.
  intros [L F P] Hp Fs E. unfold reshape_nocopy.
  set (l := combine (shape a) (strides a)).
  assert (Fst : map fst l = shape a) by (apply combine_fst; congruence).
  assert (Snd : map snd l = strides a) by (apply combine_snd; congruence).
  assert (NZ : forall s, Forall (fun d => 0 <= d) s -> 0 < product s -> Forall (fun d => 0 < d) s).
  { clear. intros s H. induction H as [|d s Hd H IH]; intros X; [constructor|].
    rewrite product_cons in X. pose proof (product_nonneg _ H). assert (0 < d) by nia. constructor; [assumption|]. apply IH. nia. }
  destruct (match_ok f (isz a) (S (length sh)) [] 0 sh (filter (fun d => negb (fst d =? 1)) l))
    as (r & -> & K).
  - apply NZ; [assumption|lia].
  - assert (X : Forall (fun d => 0 < d) (map fst l)) by (rewrite Fst; auto).
    clear - X. induction l as [|[d s] l IH]; simpl in *; [constructor|].
    inversion X; subst. destruct (Z.eqb_spec d 1); simpl; [auto|]. constructor; [lia|auto].
  - now rewrite product_drop1, Fst.
  - lia.
  - exists r. split; [reflexivity|]. intros st Est. destruct (K st Est) as (st' & -> & L' & K').
    split; [exact L'|]. intros o. simpl. rewrite K'. rewrite <- Fst, <- Snd. unfold ooffs.
    destruct f.
    + rewrite <- !map_rev, <- filter_rev, <- offs_drop1. reflexivity.
    + now rewrite <- offs_drop1.
Qed.

(** ** The shape asked for *)

Definition knowns (req : list Z) : list Z := filter (fun r => 0 <=? r) req.
Definition unknowns (req : list Z) : nat := length (filter (fun r => r <? 0) req).

Lemma known_spec req : forall s s' u, s = w64 s' ->
  known req s u =
  if (unknowns req + (if u then 1 else 0) <=? 1)%nat
  then Ok (w64 (s' * product (knowns req)), u || (0 <? unknowns req)%nat)
  else Raise ValueError.
Proof.
  induction req as [|d req IH]; intros s s' u ->; unfold unknowns, knowns in *; cbn [known filter].
  - simpl length. replace (product []) with 1 by reflexivity. rewrite Z.mul_1_r.
    destruct u; reflexivity.
  - destruct (Z.ltb_spec d 0), (Z.leb_spec 0 d); try lia.
    + simpl length. destruct u.
      * match goal with |- context [(S ?m + 1 <=? 1)%nat] =>
          destruct (Nat.leb_spec (S m + 1) 1); [lia|reflexivity] end.
      * rewrite (IH (w64 s') s' true eq_refl).
        match goal with |- context [(S ?m + 0)%nat] =>
          replace (S m + 0)%nat with (m + 1)%nat by lia end.
        destruct (_ <=? 1)%nat; [|reflexivity]. f_equal.
    + rewrite (IH (w64 (w64 s' * d)) (s' * d) u) by (symmetry; now rewrite w64_mul_l).
      rewrite product_cons, Z.mul_assoc. reflexivity.
Qed.

Definition fix_general (size : Z) (req : list Z) : res (list Z) :=
  if (unknowns req =? 0)%nat then
    if size =? product (knowns req) then Ok req else Raise ValueError
  else if (unknowns req =? 1)%nat then
    if (product (knowns req) =? 0) || negb (size mod product (knowns req) =? 0)
    then Raise ValueError
    else Ok (map (fun d => if d <? 0 then size / product (knowns req) else d) req)
  else Raise ValueError.

Lemma knowns_nonneg req : Forall (fun d => 0 <= d) (knowns req).
Proof.
  unfold knowns. apply Forall_forall. intros d H. apply filter_In in H. destruct H as [_ H].
  now apply Z.leb_le.
Qed.

Lemma fix_unknown_general size req : 0 <= size < 2^63 -> product (knowns req) < 2^63 ->
  fix_unknown size req = fix_general size req.
Proof.
  intros Hs Hk. pose proof (product_nonneg _ (knowns_nonneg req)) as Hk0.
  assert (W : w64 (1 * product (knowns req)) = product (knowns req)).
  { rewrite Z.mul_1_l. apply w64_id. unfold in64, min64, max64. lia. }
  assert (G : (known req 1 false = Raise ValueError /\ (1 < unknowns req)%nat) \/
              (known req 1 false = Ok (product (knowns req), (0 <? unknowns req)%nat) /\ (unknowns req <= 1)%nat)).
  { rewrite (known_spec req 1 1 false eq_refl), W, Nat.add_0_r.
    destruct (Nat.leb_spec (unknowns req) 1); auto. }
  assert (GG : (match known req 1 false with
     | Ok (s_known, unknown) =>
         if (unknown : bool) then
           if (s_known =? 0) || negb (Z.rem size s_known =? 0) then Raise ValueError
           else Ok (map (fun d => if d <? 0 then Z.quot size s_known else d) req)
         else if negb (size =? s_known) then Raise ValueError else Ok req
     | Raise e => Raise e | Undef => Undef | NoFuel => NoFuel end) = fix_general size req).
  { unfold fix_general. destruct G as [[-> H]|[-> H]].
    - destruct (unknowns req) as [|[|]]; simpl; try lia; reflexivity.
    - destruct (unknowns req) as [|[|]] eqn:U; simpl; [| |lia].
      + destruct (size =? product (knowns req)); reflexivity.
      + destruct (Z.eqb_spec (product (knowns req)) 0) as [|N]; [reflexivity|]. simpl.
        rewrite Z.rem_mod_nonneg, Z.quot_div_nonneg by lia. reflexivity. }
  destruct req as [|d [|d2 req]].
  - unfold fix_unknown, fix_general. simpl. rewrite Z.eqb_sym.
    change (product (knowns [])) with 1. rewrite Z.eqb_sym. destruct (size =? 1); reflexivity.
  - cbn [fix_unknown]. unfold fix_general, unknowns, knowns. cbn [filter].
    destruct (Z.ltb_spec d 0), (Z.leb_spec 0 d); try lia; simpl length; cbn [Nat.eqb].
    + change (product []) with 1. simpl. rewrite Z.mod_1_r, Z.div_1_r. simpl.
      destruct (Z.ltb_spec d 0); [reflexivity|lia].
    + rewrite product_cons. change (product []) with 1. rewrite Z.mul_1_r, Z.eqb_sym.
      destruct (size =? d); reflexivity.
  - rewrite <- GG. cbn [fix_unknown].
    destruct (known (d :: d2 :: req) 1 false) as [[sk u]| | |]; reflexivity.
Qed.

Lemma unknowns_cons d req : unknowns (d :: req) = ((if (d <? 0)%Z then 1 else 0) + unknowns req)%nat.
Proof. unfold unknowns. simpl. destruct (d <? 0); reflexivity. Qed.

Lemma knowns_cons d req : knowns (d :: req) = (if 0 <=? d then [d] else []) ++ knowns req.
Proof. unfold knowns. simpl. destruct (0 <=? d); reflexivity. Qed.

Lemma wanted_none req sh : unknowns req = O -> Forall2 (fun r d => r < 0 \/ r = d) req sh ->
  req = sh /\ knowns req = req.
Proof.
  intros U H. induction H as [|r d req sh Hr H IH]; [auto|]. rewrite unknowns_cons in U.
  destruct (Z.ltb_spec r 0); [lia|]. destruct IH as [-> E]; [lia|]. split; [f_equal; lia|].
  rewrite knowns_cons, E. destruct (Z.leb_spec 0 r); [reflexivity|lia].
Qed.

Lemma wanted_one req sh : unknowns req = 1%nat -> Forall2 (fun r d => r < 0 \/ r = d) req sh ->
  Forall (fun d => 0 <= d) sh ->
  exists q, 0 <= q /\ sh = map (fun d => if d <? 0 then q else d) req /\
    product sh = q * product (knowns req).
Proof.
  intros U H. induction H as [|r d req sh Hr H IH]; intros F; [discriminate|].
  rewrite unknowns_cons in U. inversion F; subst. rewrite knowns_cons, product_app, product_cons.
  cbn [map]. destruct (Z.ltb_spec r 0), (Z.leb_spec 0 r); try lia.
  - destruct (wanted_none req sh) as [-> E]; [lia|assumption|]. exists d. rewrite E.
    change (product []) with 1. split; [assumption|]. split; [|lia].
    f_equal. rewrite <- (map_id sh) at 1. apply map_ext_in. intros x Hx.
    destruct (Z.ltb_spec x 0); [|reflexivity]. exfalso.
    assert (0 <= x) by (rewrite Forall_forall in *; auto). lia.
  - destruct IH as (q & Hq & -> & E); [lia|assumption|]. exists q. split; [assumption|].
    split; [f_equal; lia|]. rewrite E, product_cons. change (product []) with 1.
    assert (r = d) by lia. subst. lia.
Qed.

Lemma repl_inj req q q' : unknowns req = 1%nat ->
  map (fun d => if d <? 0 then q else d) req = map (fun d => if d <? 0 then q' else d) req -> q = q'.
Proof.
  induction req as [|d req IH]; intros U E; [discriminate|]. rewrite unknowns_cons in U.
  simpl in E. injection E as E1 E2. destruct (d <? 0); [congruence|]. now apply IH.
Qed.

Lemma fix_wanted size req sh : 0 <= size < 2^63 -> product (knowns req) < 2^63 ->
  (fix_unknown size req = Ok sh <-> wanted size req sh).
Proof.
  intros Hs Hk. rewrite fix_unknown_general by assumption. unfold fix_general, wanted.
  fold (knowns req). fold (unknowns req). pose proof (product_nonneg _ (knowns_nonneg req)) as K0.
  assert (NN : Forall (fun r => 0 <= r) req <-> unknowns req = O).
  { clear. induction req as [|d req IH]; [split; auto|]. rewrite unknowns_cons. split; intros H.
    - inversion H; subst. destruct (Z.ltb_spec d 0); [lia|]. apply IH. assumption.
    - destruct (Z.ltb_spec d 0); [lia|]. constructor; [assumption|]. now apply IH. }
  assert (R : forall q, Forall2 (fun r d => r < 0 \/ r = d) req (map (fun d => if d <? 0 then q else d) req)).
  { intros q. clear. induction req; simpl; constructor; auto. destruct (Z.ltb_spec a 0); auto. }
  destruct (Nat.eqb_spec (unknowns req) 0) as [U|U].
  - assert (KK : knowns req = req).
    { destruct (wanted_none req req U) as [_ E]; [|exact E]. clear. induction req; constructor; auto. }
    rewrite KK. destruct (Z.eqb_spec size (product req)) as [E|E]; split.
    + intros [= <-]. split; [auto|]. split; [now apply NN|]. split; [|split; [lia|]].
      * clear. induction req; constructor; auto.
      * intros _. now apply NN.
    + intros (E1 & F & H & _). apply (wanted_none req sh U) in H. destruct H as [-> _]. reflexivity.
    + discriminate.
    + intros (E1 & F & H & _). apply (wanted_none req sh U) in H. destruct H as [-> _]. congruence.
  - destruct (Nat.eqb_spec (unknowns req) 1) as [U1|U1].
    + destruct (Z.eqb_spec (product (knowns req)) 0) as [Z|Z]; simpl.
      * split; [discriminate|]. intros (_ & _ & _ & _ & X). apply NN in X; [congruence|assumption].
      * destruct (Z.eqb_spec (size mod product (knowns req)) 0) as [M|M]; simpl; split.
        -- intros [= <-]. assert (Q : 0 <= size / product (knowns req)) by (apply Z.div_pos; lia).
           assert (F : Forall (fun d => 0 <= d)
              (map (fun d => if d <? 0 then size / product (knowns req) else d) req)).
           { apply Forall_forall. intros x Hx. apply in_map_iff in Hx. destruct Hx as (y & <- & _).
             destruct (Z.ltb_spec y 0); lia. }
           destruct (wanted_one req _ U1 (R (size / product (knowns req))) F) as (q & Hq & E1 & E2).
           assert (q = size / product (knowns req)).
           { symmetry. exact (repl_inj req _ _ U1 E1). }
           subst q. split; [|split; [assumption|split; [apply R|split; [lia|congruence]]]].
           rewrite E2. apply Z.div_exact in M; lia.
        -- intros (E1 & F & H & _). destruct (wanted_one req sh U1 H F) as (q & Hq & -> & E2).
           rewrite E2 in E1. f_equal. apply map_ext. intros d. destruct (d <? 0); [|reflexivity].
           rewrite <- E1. apply Z.div_mul. assumption.
        -- discriminate.
        -- intros (E1 & F & H & _). destruct (wanted_one req sh U1 H F) as (q & Hq & -> & E2).
           exfalso. apply M. rewrite <- E1, E2. now apply Z.mod_mul.
    + split; [discriminate|]. intros (_ & _ & _ & X & _). lia.
Qed.

Lemma fix_total size req : 0 <= size < 2^63 -> product (knowns req) < 2^63 ->
  fix_unknown size req = Raise ValueError \/ exists sh, fix_unknown size req = Ok sh.
Proof.
  intros Hs Hk. rewrite fix_unknown_general by assumption. unfold fix_general.
  destruct (_ =? 0)%nat; [destruct (_ =? _); eauto|].
  destruct (_ =? 1)%nat; [destruct (_ || _); eauto|auto].
Qed.
