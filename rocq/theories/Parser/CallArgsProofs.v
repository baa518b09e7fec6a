(** Proofs about argument binding. *)
From Coq Require Import List Bool Arith Lia String Permutation Sorted.
From Verif.Parser Require Import CallArgs CallArgsSpec.
Import ListNotations.
Open Scope string_scope.
Open Scope nat_scope.
Open Scope list_scope.

(** * Maps *)
Lemma mput_fresh k v m : ~ In k (map fst m) -> Permutation (mput k v m) ((k, v) :: m).
Proof.
  induction m as [|[k' v'] m IH]; intros F; [apply Permutation_refl|]. simpl.
  destruct (String.eqb_spec k k') as [->|N]; [exfalso; apply F; left; reflexivity|].
  destruct (String.ltb k k'); [apply Permutation_refl|].
  eapply Permutation_trans; [apply perm_skip, IH; intros I; apply F; right; exact I|apply perm_swap].
Qed.

Lemma mget_in k v m : mget k m = Some v -> In (k, v) m.
Proof.
  unfold mget. destruct (find _ m) as [[k' v']|] eqn:E; [|discriminate]. intros X. injection X as <-.
  apply find_some in E. destruct E as [I E]. apply String.eqb_eq in E. cbn in E. subst. exact I.
Qed.
Lemma mget_none k m : mget k m = None -> ~ In k (map fst m).
Proof.
  unfold mget. destruct (find _ m) as [e|] eqn:E; [discriminate|]. intros _ I.
  apply in_map_iff in I. destruct I as [[k' v'] [<- I]].
  pose proof (find_none _ _ E _ I) as X. cbn in X. rewrite String.eqb_refl in X. discriminate.
Qed.

(** * Counting *)
Lemma count_S f k : count f (S k) = count f k + (if f k then 1 else 0).
Proof. unfold count. rewrite seq_S, filter_app, app_length. cbn. destruct (f k); reflexivity. Qed.
Lemma count_0 f : count f 0 = 0. Proof. reflexivity. Qed.
Lemma count_mono f i j : i <= j -> count f i <= count f j.
Proof. induction 1; [lia|]. rewrite count_S. lia. Qed.
Lemma count_lt f i j : i < j -> f i = true -> count f i < count f j.
Proof. intros L F. pose proof (count_mono f (S i) j L). rewrite count_S, F in H. lia. Qed.
Lemma count_inj f i j : f i = true -> f j = true -> count f i = count f j -> i = j.
Proof.
  intros I J E. destruct (Nat.lt_trichotomy i j) as [L|[L|L]]; [|exact L|];
    [pose proof (count_lt f i j L I)|pose proof (count_lt f j i L J)]; lia.
Qed.
Lemma count_flat f i j : i <= j -> (forall k, i <= k < j -> f k = false) -> count f j = count f i.
Proof.
  induction 1 as [|j L IH]; intros F; [reflexivity|]. rewrite count_S, IH, F; [lia|lia|].
  intros k K. apply F. lia.
Qed.
(** the [k]-th element satisfying [f] exists as long as [k] is below the count *)
Lemma count_nth f m k : k < count f m -> exists i, i < m /\ f i = true /\ count f i = k.
Proof.
  induction m as [|m IH]; intros L; [rewrite count_0 in L; lia|]. rewrite count_S in L.
  destruct (f m) eqn:F.
  - destruct (Nat.eq_dec k (count f m)) as [->|N]; [exists m; repeat split; [lia|exact F]|].
    destruct IH as [i [A [B C]]]; [lia|]. exists i. repeat split; try assumption. lia.
  - destruct IH as [i [A [B C]]]; [lia|]. exists i. repeat split; try assumption. lia.
Qed.

Section Loop.
Context (ps : list param) (known : nat -> bool) (args0 : list string).
Notation n := (n ps).
Notation star := (starArgIndex ps).
Definition limit : nat := match starArgIndex ps with Some s => s | None => n end.
Definition free (i : nat) : bool := negb (known i).

(** what the first loop puts in slot [j] after [ai] arguments *)
Definition slotAt (ai j : nat) : list nat :=
  filter (fun a => isPos args0 a && (free j && (j <? limit)) && (count free j =? count (isPos args0) a)) (seq 0 ai).
Definition extraAt (ai : nat) : list nat :=
  filter (fun a => isPos args0 a && (count free limit <=? count (isPos args0) a)) (seq 0 ai).

Definition name_at (a : nat) : string := nth a args0 "".
Definition namedAt (ai : nat) : list (string * nat) :=
  map (fun a => (name_at a, a)) (filter (fun a => negb (isPos args0 a)) (seq 0 ai)).

Context (star_ok : forall s, star = Some s -> s < n /\ known s = false).
Context (nodup : forall a b, a < List.length args0 -> b < List.length args0 -> isPos args0 a = false -> name_at a = name_at b -> a = b).

Lemma limit_le : limit <= n.
Proof. unfold limit. destruct star as [s|]; [destruct (star_ok s eq_refl); lia|lia]. Qed.
Lemma limit_free : limit < n -> known limit = false.
Proof. unfold limit. destruct star as [s|]; [intros _; apply (star_ok s eq_refl)|lia]. Qed.
Lemma fits_limit si : fits ps si = (si <? limit).
Proof.
  unfold fits. pose proof limit_le as L. unfold limit in *. destruct star as [s|].
  - destruct (Nat.ltb_spec si n), (Nat.ltb_spec si s); cbn; try reflexivity; lia.
  - rewrite andb_true_r. reflexivity.
Qed.

Lemma skip_ok fuel si : n - si <= fuel -> si <= limit ->
  let r := skip ps known fuel si in
  si <= r <= limit /\ count free r = count free si /\ (r < limit -> free r = true).
Proof.
  revert si. induction fuel as [|fuel IH]; intros si F L; cbn [skip]; cbv zeta.
  - pose proof limit_le. repeat split; [lia|lia|]. intros X. lia.
  - destruct (Nat.ltb_spec si n) as [A|A]; cbn [andb]; [|pose proof limit_le; repeat split; [lia|lia|intros X; lia]].
    destruct (known si) eqn:K.
    + assert (si < limit) as Sl.
      { destruct (Nat.eq_dec si limit) as [->|N]; [rewrite limit_free in K by lia; discriminate|lia]. }
      destruct (IH (S si)) as [B [C D]]; [lia|lia|]. cbv zeta in B, C, D. repeat split; [lia|lia| |exact D].
      rewrite C, count_S. unfold free at 2. rewrite K. cbn. lia.
    + repeat split; [lia|lia|]. intros _. unfold free. rewrite K. reflexivity.
Qed.

Definition pinv (ai si : nat) : Prop :=
  si <= limit /\ count free si = Nat.min (count (isPos args0) ai) (count free limit).

Lemma filter_none {A} (f : A -> bool) l : (forall x, In x l -> f x = false) -> filter f l = [].
Proof.
  induction l as [|x l IH]; intros H; [reflexivity|]. cbn. rewrite (H x) by (left; reflexivity).
  apply IH. intros y I. apply H. right. exact I.
Qed.

Lemma slotAt_S ai j : slotAt (S ai) j = slotAt ai j ++
  (if isPos args0 ai && (free j && (j <? limit)) && (count free j =? count (isPos args0) ai) then [ai] else []).
Proof. unfold slotAt. rewrite seq_S, filter_app. cbn. reflexivity. Qed.
Lemma extraAt_S ai : extraAt (S ai) = extraAt ai ++
  (if isPos args0 ai && (count free limit <=? count (isPos args0) ai) then [ai] else []).
Proof. unfold extraAt. rewrite seq_S, filter_app. cbn. reflexivity. Qed.
Lemma namedAt_S ai : namedAt (S ai) = (namedAt ai ++ if isPos args0 ai then [] else [(name_at ai, ai)])%list.
Proof.
  unfold namedAt. rewrite seq_S, filter_app, map_app. cbn. destruct (isPos args0 ai); reflexivity.
Qed.

Definition sinv (ai : nat) (s : st) : Prop :=
  (forall j, slots s j = slotAt ai j) /\ extra s = extraAt ai /\ Permutation (named s) (namedAt ai).

Lemma assign_ok args pre ai si s :
  args0 = (pre ++ args)%list -> ai = List.length pre -> pinv ai si -> sinv ai s ->
  sinv (List.length args0) (assign ps known args ai si s).
Proof.
  revert pre ai si s. induction args as [|a args IH]; intros pre ai si s E A P [I1 [I2 I3]].
  - cbn. rewrite app_nil_r in E. subst pre ai. repeat split; assumption.
  - cbn [assign]. set (r := skip ps known (n - si) si).
    assert (nth_error args0 ai = Some a) as Na.
    { subst ai. rewrite E, nth_error_app2, Nat.sub_diag by lia. reflexivity. }
    assert (ai < List.length args0) as La by (apply nth_error_Some; congruence).
    assert (isPos args0 ai = String.eqb a "") as Pa by (unfold isPos; rewrite Na; reflexivity).
    assert (args0 = ((pre ++ [a]) ++ args)%list) as E' by (rewrite <- app_assoc; exact E).
    assert (S ai = List.length (pre ++ [a])) as A' by (rewrite app_length; cbn; lia).
    destruct P as [P1 P2].
    destruct (String.eqb a "") eqn:Z.
    + destruct (skip_ok (n - si) si (le_n _) P1) as [S1 [S2 S3]]. fold r in S1, S2, S3.
      rewrite fits_limit. destruct (Nat.ltb_spec r limit) as [L|L].
      * specialize (S3 L). pose proof (count_lt free r limit L S3) as C1.
        assert (count free r = count (isPos args0) ai) as C2 by lia.
        apply (IH (pre ++ [a])%list); [exact E'|exact A'| |].
        -- split; [lia|]. rewrite !count_S, S3, Pa. lia.
        -- repeat split; cbn [slots extra named].
           ++ intros j. rewrite slotAt_S, Pa. unfold upd. cbn [andb].
              destruct (Nat.eqb_spec j r) as [->|N].
              ** rewrite S3, C2, Nat.eqb_refl. destruct (Nat.ltb_spec r limit); [cbn|lia].
                 rewrite <- I1, I1. unfold slotAt. rewrite filter_none; [reflexivity|].
                 intros x X. apply in_seq in X.
                 destruct (isPos args0 x) eqn:Px; [cbn|reflexivity].
                 rewrite (proj2 (Nat.eqb_neq _ _)); [apply andb_false_r|].
                 pose proof (count_lt (isPos args0) x ai ltac:(lia) Px). lia.
              ** rewrite I1. destruct (free j) eqn:Fj; cbn [andb]; [|rewrite app_nil_r; reflexivity].
                 destruct (Nat.eqb_spec (count free j) (count (isPos args0) ai)) as [C|C].
                 { exfalso. apply N. apply (count_inj free); [exact Fj|exact S3|congruence]. }
                 rewrite andb_false_r, app_nil_r. reflexivity.
           ++ rewrite extraAt_S, Pa, I2. cbn [andb]. rewrite (proj2 (Nat.leb_gt _ _)) by lia. rewrite app_nil_r. reflexivity.
           ++ rewrite namedAt_S, Pa, app_nil_r. exact I3.
      * assert (r = limit) as R by lia. assert (count free limit <= count (isPos args0) ai) as C by (rewrite <- R; lia).
        apply (IH (pre ++ [a])%list); [exact E'|exact A'| |].
        -- split; [lia|]. rewrite count_S, Pa, R. lia.
        -- repeat split; cbn [slots extra named].
           ++ intros j. rewrite slotAt_S, Pa, I1. cbn [andb].
              destruct (free j) eqn:Fj; cbn [andb]; [|rewrite app_nil_r; reflexivity].
              destruct (Nat.ltb_spec j limit) as [Lj|Lj]; cbn [andb]; [|rewrite app_nil_r; reflexivity].
              pose proof (count_lt free j limit Lj Fj). rewrite (proj2 (Nat.eqb_neq _ _)) by lia.
              rewrite app_nil_r. reflexivity.
           ++ rewrite extraAt_S, Pa, I2. cbn [andb]. rewrite (proj2 (Nat.leb_le _ _)) by lia. reflexivity.
           ++ rewrite namedAt_S, Pa, app_nil_r. exact I3.
    + apply (IH (pre ++ [a])%list); [exact E'|exact A'| |].
      * split; [exact P1|]. rewrite count_S, Pa. rewrite P2. lia.
      * repeat split; cbn [slots extra named].
        -- intros j. rewrite slotAt_S, Pa, I1. cbn. rewrite app_nil_r. reflexivity.
        -- rewrite extraAt_S, Pa, I2. cbn. rewrite app_nil_r. reflexivity.
        -- rewrite namedAt_S, Pa.
           assert (name_at ai = a) as Nm by (unfold name_at; apply nth_error_nth; exact Na).
           eapply Permutation_trans; [apply mput_fresh|].
           { intros X. eapply Permutation_in in X; [|apply Permutation_map; exact I3].
             unfold namedAt in X. rewrite map_map in X. apply in_map_iff in X. destruct X as [b [X B]].
             apply filter_In in B. destruct B as [B1 B2]. apply in_seq in B1. cbn in X.
             assert (b = ai); [|lia]. apply nodup; [lia|exact La| |congruence].
             destruct (isPos args0 b); [discriminate|reflexivity]. }
           rewrite Nm. eapply Permutation_trans; [apply perm_skip; exact I3|]. apply Permutation_cons_append.
Qed.

Lemma assign_all : sinv (List.length args0) (assign ps known args0 0 0 (St (fun _ => []) [] [])).
Proof.
  apply (assign_ok args0 []); [reflexivity|reflexivity| |].
  - split; [lia|]. rewrite !count_0. lia.
  - repeat split. apply Permutation_refl.
Qed.
End Loop.

(** * Keywords *)
Lemma mget_mput k k' v m : mget k (mput k' v m) = if String.eqb k' k then Some v else mget k m.
Proof.
  unfold mget. induction m as [|[k2 v2] m IH]; cbn.
  - destruct (String.eqb k' k); reflexivity.
  - destruct (String.eqb_spec k' k2) as [->|N]; cbn.
    + destruct (String.eqb_spec k2 k); reflexivity.
    + destruct (String.ltb k' k2); cbn; [destruct (String.eqb k' k); reflexivity|].
      destruct (String.eqb_spec k2 k) as [->|N2].
      * destruct (String.eqb_spec k' k); [congruence|reflexivity].
      * exact IH.
Qed.

Section Names.
Context (ps : list param) (known : nat -> bool).
Definition look (name : string) : option nat := mget name (slotNames known ps 0 []).

Lemma slotNames_some l i0 m k i :
  mget k (slotNames known l i0 m) = Some i ->
  (exists p, i0 <= i /\ nth_error l (i - i0) = Some p /\ pname p = k /\ known i = false) \/ mget k m = Some i.
Proof.
  revert i0 m. induction l as [|p l IH]; intros i0 m E; [right; exact E|]. cbn [slotNames] in E.
  destruct (IH _ _ E) as [[q [A [B C]]]|X].
  - left. exists q. split; [lia|]. split; [|exact C].
    replace (i - i0) with (S (i - S i0)) by lia. exact B.
  - destruct (known i0) eqn:K; [right; exact X|]. rewrite mget_mput in X.
    destruct (String.eqb_spec (pname p) k) as [Ek|N]; [|right; exact X].
    injection X as <-. left. exists p. rewrite Nat.sub_diag. repeat split; [lia|exact Ek|exact K].
Qed.
Lemma slotNames_none l i0 m k :
  mget k (slotNames known l i0 m) = None ->
  mget k m = None /\ forall j p, nth_error l j = Some p -> known (i0 + j) = false -> pname p <> k.
Proof.
  revert i0 m. induction l as [|p l IH]; intros i0 m E.
  - split; [exact E|]. intros j p H. destruct j; discriminate.
  - cbn [slotNames] in E. destruct (IH _ _ E) as [A B]. split.
    + destruct (known i0); [exact A|]. rewrite mget_mput in A. destruct (String.eqb (pname p) k); [discriminate|exact A].
    + intros [|j] q H K.
      * injection H as <-. rewrite Nat.add_0_r in K. rewrite K, mget_mput in A.
        destruct (String.eqb_spec (pname p) k); [discriminate|assumption].
      * apply (B j q H). rewrite <- K. f_equal. lia.
Qed.
Lemma look_some k i : look k = Some i -> exists p, nth_error ps i = Some p /\ pname p = k /\ known i = false.
Proof.
  intros E. destruct (slotNames_some _ _ _ _ _ E) as [[p [_ [A B]]]|X]; [|discriminate].
  rewrite Nat.sub_0_r in A. exists p. tauto.
Qed.
Lemma look_none k i p : look k = None -> nth_error ps i = Some p -> known i = false -> pname p <> k.
Proof. intros E. destruct (slotNames_none _ _ _ _ E) as [_ B]. exact (B i p). Qed.
Lemma look_complete k i p : NoDup (map pname ps) -> nth_error ps i = Some p -> known i = false -> pname p = k ->
  look k = Some i.
Proof.
  intros ND N K E. destruct (look k) as [j|] eqn:L.
  - destruct (look_some _ _ L) as [q [A [B C]]]. f_equal.
    apply (proj1 (NoDup_nth_error _) ND).
    + apply nth_error_Some. rewrite nth_error_map, A. discriminate.
    + rewrite !nth_error_map, A, N. cbn. congruence.
  - exfalso. exact (look_none _ _ _ L N K E).
Qed.

Lemma assignNamed_ok nm : forall sl ex,
  NoDup (map fst ex ++ map fst nm) ->
  match assignNamed ps known nm sl ex with
  | inl (sl', ex') =>
      (forall name a i, In (name, a) nm -> look name = Some i -> sl i = [] /\ sl' i = [a]) /\
      (forall i, (forall name a, In (name, a) nm -> look name <> Some i) -> sl' i = sl i) /\
      Permutation ex' (ex ++ filter (fun e => match look (fst e) with None => true | Some _ => false end) nm)
  | inr e => e = RepeatedName /\ exists name a i, In (name, a) nm /\ look name = Some i /\ sl i <> []
  end.
Proof.
  induction nm as [|[name a] nm IH]; intros sl ex ND.
  - cbn. rewrite app_nil_r. repeat split; try contradiction. apply Permutation_refl.
  - cbn [assignNamed]. fold (look name). destruct (look name) as [i|] eqn:L.
    + assert (NoDup (map fst ex ++ map fst nm)) as ND1 by (cbn in ND; apply NoDup_remove_1 in ND; exact ND).
      assert (~ In name (map fst nm)) as Fr.
      { cbn in ND. apply NoDup_remove_2 in ND. intros X. apply ND. apply in_or_app. right. exact X. }
      destruct (sl i) as [|x r] eqn:Si.
      * specialize (IH (upd sl i [a]) ex ND1).
        assert (forall name' a', In (name', a') nm -> look name' <> Some i) as D.
        { intros name' a' I E. destruct (look_some _ _ L) as [p [P1 [P2 _]]].
          destruct (look_some _ _ E) as [q [Q1 [Q2 _]]].
          assert (p = q) by congruence. subst q. assert (name' = name) as En by congruence. rewrite En in I.
          apply Fr. apply in_map_iff. exists (name, a'). split; [reflexivity|exact I]. }
        destruct (assignNamed ps known nm (upd sl i [a]) ex) as [[sl' ex']|e].
        -- destruct IH as [A [B C]]. repeat split.
           ++ destruct H as [H|H]; [injection H as -> ->; congruence|].
              destruct (A _ _ _ H H0) as [A1 A2]. unfold upd in A1.
              destruct (Nat.eqb_spec i0 i) as [->|N]; [discriminate|exact A1].
           ++ destruct H as [H|H].
              ** injection H as <- <-. rewrite L in H0. injection H0 as <-.
                 rewrite (B i D). unfold upd. rewrite Nat.eqb_refl. reflexivity.
              ** exact (proj2 (A _ _ _ H H0)).
           ++ intros j H. rewrite B.
              ** unfold upd. destruct (Nat.eqb_spec j i) as [->|N]; [|reflexivity].
                 exfalso. apply (H name a); [left; reflexivity|exact L].
              ** intros name' a' I. apply (H name' a'). right. exact I.
           ++ cbn. rewrite L. exact C.
        -- destruct IH as [A [name' [a' [j [B [C D']]]]]]. split; [exact A|]. exists name', a', j.
           repeat split; [right; exact B|exact C|]. unfold upd in D'.
           destruct (Nat.eqb_spec j i) as [->|N]; [|exact D']. exfalso. exact (D _ _ B C).
      * split; [reflexivity|]. exists name, a, i. repeat split; [left; reflexivity|exact L|congruence].
    + assert (~ In name (map fst ex)) as Fr.
      { cbn in ND. apply NoDup_remove_2 in ND. intros X. apply ND. apply in_or_app. left. exact X. }
      specialize (IH sl (mput name a ex)).
      assert (Permutation (map fst (mput name a ex) ++ map fst nm) (map fst ex ++ map fst ((name, a) :: nm))) as Pm.
      { eapply Permutation_trans; [apply Permutation_app_tail, Permutation_map, mput_fresh; exact Fr|].
        cbn. apply Permutation_middle. }
      specialize (IH (Permutation_NoDup (Permutation_sym Pm) ND)).
      destruct (assignNamed ps known nm sl (mput name a ex)) as [[sl' ex']|e].
      * destruct IH as [A [B C]]. repeat split.
        -- destruct H as [H|H]; [injection H as <- <-; congruence|]. exact (proj1 (A _ _ _ H H0)).
        -- destruct H as [H|H]; [injection H as <- <-; congruence|]. exact (proj2 (A _ _ _ H H0)).
        -- intros i H. apply B. intros name' a' I. apply (H name' a'). right. exact I.
        -- cbn. rewrite L. eapply Permutation_trans; [exact C|].
           eapply Permutation_trans; [apply Permutation_app_tail, mput_fresh; exact Fr|]. cbn. apply Permutation_middle.
      * destruct IH as [A [name' [a' [j [B [C D]]]]]]. split; [exact A|]. exists name', a', j.
        repeat split; [right; exact B|exact C|exact D].
Qed.
End Names.

Lemma findStar_ok k l i0 acc :
  (findStar k l i0 acc = acc /\ (forall j p, nth_error l j = Some p -> pstars p <> k)) \/
  (exists j p, findStar k l i0 acc = Some (i0 + j) /\ nth_error l j = Some p /\ pstars p = k).
Proof.
  revert i0 acc. induction l as [|p l IH]; intros i0 acc; cbn [findStar].
  - left. split; [reflexivity|]. intros [|j] p H; discriminate.
  - destruct (IH (S i0) (if Nat.eqb (pstars p) k then Some i0 else acc)) as [[A B]|[j [q [A [B C]]]]].
    + destruct (Nat.eqb_spec (pstars p) k) as [E|N].
      * right. exists 0, p. rewrite Nat.add_0_r. repeat split; assumption.
      * left. split; [exact A|]. intros [|j] q H; [injection H as <-; exact N|exact (B j q H)].
    + right. exists (S j), q. repeat split; [rewrite A; f_equal; lia|exact B|exact C].
Qed.
Lemma star_some ps s : starArgIndex ps = Some s -> starred 1 ps s.
Proof.
  intros E. destruct (findStar_ok 1 ps 0 None) as [[A _]|[j [p [A [B C]]]]]; unfold starArgIndex in E; [congruence|].
  rewrite A in E. injection E as <-. exists p. tauto.
Qed.
Lemma star_none ps i : starArgIndex ps = None -> ~ starred 1 ps i.
Proof.
  intros E [p [X Y]]. destruct (findStar_ok 1 ps 0 None) as [[_ A]|[j [q [A _]]]]; unfold starArgIndex in E; [|congruence].
  exact (A i p X Y).
Qed.
Lemma kwstar_some ps s : kwstarArgIndex ps = Some s -> starred 2 ps s.
Proof.
  intros E. destruct (findStar_ok 2 ps 0 None) as [[A _]|[j [p [A [B C]]]]]; unfold kwstarArgIndex in E; [congruence|].
  rewrite A in E. injection E as <-. exists p. tauto.
Qed.
Lemma kwstar_none ps i : kwstarArgIndex ps = None -> ~ starred 2 ps i.
Proof.
  intros E [p [X Y]]. destruct (findStar_ok 2 ps 0 None) as [[_ A]|[j [q [A _]]]]; unfold kwstarArgIndex in E; [|congruence].
  exact (A i p X Y).
Qed.

(** * The whole call *)
Section Call.
Context (ps : list param) (known : nat -> bool) (partial : bool) (args : list string).
Context (sig : signature ps) (argsok : arguments ps args).
Context (known_plain : forall i p, nth_error ps i = Some p -> known i = true -> pstars p = 0).
Context (noname : forall i p, nth_error ps i = Some p -> pstars p = 1 -> ~ In (pname p) args).
Context (nover : forall i p, nth_error ps i = Some p -> pcapture p = true ->
  (exists j, starred 1 ps j) \/ count (isPos args) (List.length args) <= count (fun j => negb (known j)) i).
Notation len := (List.length args).
Notation n := (List.length ps).
Notation lim := (limit ps).
Notation fr := (free known).

Lemma isPos_lt a : isPos args a = true -> a < len.
Proof. unfold isPos. intros H. apply nth_error_Some. destruct (nth_error args a); discriminate. Qed.
Lemma isPos_cases a : a < len -> isPos args a = true \/ (isPos args a = false /\ keyword args a (name_at args a)).
Proof.
  intros L. apply nth_error_Some in L. unfold isPos, keyword, name_at.
  destruct (nth_error args a) as [s|] eqn:E; [|contradiction].
  rewrite (nth_error_nth _ _ _ E). destruct (String.eqb_spec s ""); [left; reflexivity|right; tauto].
Qed.
Lemma keyword_name a k : keyword args a k -> a < len /\ isPos args a = false /\ name_at args a = k.
Proof.
  intros [A B]. unfold isPos, name_at. rewrite A, (nth_error_nth _ _ _ A).
  destruct (String.eqb_spec k ""); [contradiction|]. repeat split. apply nth_error_Some. congruence.
Qed.
Lemma starred_lt k i : starred k ps i -> i < n.
Proof. intros [p [H _]]. apply nth_error_Some. congruence. Qed.
Lemma star_ok s : starArgIndex ps = Some s -> s < CallArgs.n ps /\ known s = false.
Proof.
  intros E. apply star_some in E. split; [exact (starred_lt _ _ E)|]. destruct E as [p [A B]].
  destruct (known s) eqn:K; [|reflexivity]. rewrite (known_plain _ _ A K) in B. discriminate.
Qed.
Lemma names_once a b : a < len -> b < len -> isPos args a = false -> name_at args a = name_at args b -> a = b.
Proof.
  intros A B P E. destruct (isPos_cases a A) as [X|[_ X]]; [congruence|].
  destruct (isPos_cases b B) as [Y|[_ Y]].
  - exfalso. destruct X as [_ X]. apply X. unfold isPos in Y. destruct (nth_error args b) as [s|] eqn:Eb; [|discriminate].
    apply String.eqb_eq in Y. rewrite E. unfold name_at. rewrite (nth_error_nth _ _ _ Eb). exact Y.
  - rewrite <- E in Y. exact (arg_once _ _ argsok _ _ _ X Y).
Qed.

Lemma lim_le : lim <= n.
Proof. exact (limit_le ps known star_ok). Qed.
Lemma lim_star s : starred 1 ps s -> lim = s.
Proof.
  intros H. unfold limit. destruct (starArgIndex ps) as [t|] eqn:E.
  - exact (sig_one_args _ sig _ _ (star_some _ _ E) H).
  - exfalso. exact (star_none _ _ E H).
Qed.
Lemma kw_after_star s k : starred 1 ps s -> starred 2 ps k -> s < k.
Proof.
  intros S K. pose proof (sig_kwargs_last _ sig _ K). pose proof (starred_lt _ _ S).
  assert (s <> k); [|lia]. intros ->. destruct S as [p [A B]], K as [q [C D]]. congruence.
Qed.
Lemma kw_once k k' : starred 2 ps k -> starred 2 ps k' -> k = k'.
Proof. intros A B. pose proof (sig_kwargs_last _ sig _ A). pose proof (sig_kwargs_last _ sig _ B). lia. Qed.

Lemma below_limit i p : nth_error ps i = Some p -> i < lim -> ~ starred 2 ps i -> before_stars ps i /\ pstars p = 0.
Proof.
  intros N L K. assert (forall j q, j <= i -> nth_error ps j = Some q -> pstars q = 0) as Z.
  { intros j q J Q. pose proof (sig_stars _ sig _ _ Q).
    assert (pstars q <> 1). { intros E. assert (starred 1 ps j) as S by (exists q; tauto). apply lim_star in S. lia. }
    assert (pstars q <> 2).
    { intros E. assert (starred 2 ps j) as S by (exists q; tauto).
      pose proof (sig_kwargs_last _ sig _ S). assert (i < n) by (apply nth_error_Some; congruence).
      assert (j = i) by lia. subst j. contradiction. }
    lia. }
  split; [exact Z|]. exact (Z i p (le_n _) N).
Qed.
Lemma before_limit i p : nth_error ps i = Some p -> before_stars ps i -> i < lim.
Proof.
  intros N B. assert (i < n) by (apply nth_error_Some; congruence). unfold limit.
  destruct (starArgIndex ps) as [s|] eqn:E; [|assumption].
  destruct (star_some _ _ E) as [q [A C]]. destruct (Nat.lt_ge_cases i s) as [X|X]; [exact X|].
  rewrite (B s q X A) in C. discriminate.
Qed.

Lemma in_slotAt a i : In a (slotAt ps known args len i) <->
  isPos args a = true /\ fr i = true /\ i < lim /\ count fr i = count (isPos args) a.
Proof.
  unfold slotAt. rewrite filter_In, in_seq, !andb_true_iff, Nat.ltb_lt, Nat.eqb_eq.
  split; [tauto|]. intros [A [B [C D]]]. pose proof (isPos_lt a A). repeat split; try assumption; lia.
Qed.
Lemma slotAt_one i : slotAt ps known args len i = [] \/ exists a, slotAt ps known args len i = [a].
Proof.
  assert (NoDup (slotAt ps known args len i)) as ND by (apply NoDup_filter, seq_NoDup).
  destruct (slotAt ps known args len i) as [|a [|b r]] eqn:E; [left; reflexivity|right; exists a; reflexivity|exfalso].
  assert (In a (slotAt ps known args len i)) as A by (rewrite E; left; reflexivity).
  assert (In b (slotAt ps known args len i)) as B by (rewrite E; right; left; reflexivity).
  apply in_slotAt in A. apply in_slotAt in B. assert (a = b).
  { apply (count_inj (isPos args)); [tauto|tauto|]. destruct A as [_ [_ [_ A]]], B as [_ [_ [_ B]]]. congruence. }
  subst b. inversion ND as [|? ? X _]. apply X. left. reflexivity.
Qed.

Lemma slot_takes a i : ~ starred 2 ps i -> In a (slotAt ps known args len i) <-> takes_position ps known args a i.
Proof.
  intros K. rewrite in_slotAt. unfold takes_position, free. split.
  - intros [A [B [C D]]]. apply negb_true_iff in B.
    assert (exists p, nth_error ps i = Some p) as [p P].
    { pose proof lim_le. destruct (nth_error ps i) as [p|] eqn:E; [exists p; reflexivity|].
      apply nth_error_None in E. lia. }
    destruct (below_limit i p P C K) as [X Y].
    split; [exact A|]. split; [exact B|]. split; [exact X|]. split; [|exact D].
    exists p. split; [exact P|]. split; [exact Y|]. destruct (pcapture p) eqn:Cp; [exfalso|reflexivity].
    destruct (nover i p P Cp) as [[s S]|O].
    + pose proof (lim_star _ S). destruct S as [q [Q1 Q2]].
      destruct (sig_captures _ sig i s p q P Q1 Cp) as [_ Z]. specialize (Z ltac:(lia)).
      destruct Z as [Z|Z]; [|congruence].
      destruct (sig_captures _ sig s s q q Q1 Q1 Z) as [W _]. congruence.
    + pose proof (count_lt (isPos args) a len (isPos_lt a A) A). lia.
  - intros [A [B [C [[p [P [Y Cp]]] D]]]]. rewrite B. repeat split; [exact A|exact (before_limit i p P C)|exact D].
Qed.

(** every positional argument below the limit has a slot *)
Lemma position_slot a : isPos args a = true -> count (isPos args) a < count fr lim ->
  exists i, i < lim /\ In a (slotAt ps known args len i).
Proof.
  intros P L. destruct (count_nth fr lim _ L) as [i [A [B C]]]. exists i. split; [exact A|]. apply in_slotAt. tauto.
Qed.
Lemma position_limit a i : takes_position ps known args a i -> count (isPos args) a < count fr lim.
Proof.
  intros [A [B [C [[p [P _]] D]]]]. rewrite <- D. apply count_lt; [exact (before_limit i p P C)|].
  unfold free. rewrite B. reflexivity.
Qed.

Notation s0 := (assign ps known args 0 0 (St (fun _ => []) [] [])).
Notation s1 := (spill ps s0).

Lemma s0_ok : sinv ps known args len s0.
Proof. exact (assign_all ps known args star_ok names_once). Qed.

Lemma spill_facts :
  Permutation (named s1) (namedAt args len) /\
  (forall j, ~ starred 2 ps j -> slots s1 j = slotAt ps known args len j) /\
  (forall j, starred 2 ps j -> slots s1 j = []) /\
  (forall s, starArgIndex ps = Some s -> extra s1 = extraAt ps known args len) /\
  (starArgIndex ps = None -> (extra s1 = [] <-> forall a, isPos args a = true -> exists j, takes_position ps known args a j)).
Proof.
  destruct s0_ok as [A [B C]].
  assert (forall j, lim <= j -> slots s0 j = []) as Hi.
  { intros j L. rewrite A. destruct (slotAt ps known args len j) as [|a r] eqn:E; [reflexivity|exfalso].
    assert (In a (slotAt ps known args len j)) as I by (rewrite E; left; reflexivity). apply in_slotAt in I. lia. }
  assert (starArgIndex ps = None -> (forall k, starred 2 ps k -> slots s0 k = []) ->
    (extra s0 = [] <-> forall a, isPos args a = true -> exists j, takes_position ps known args a j)) as Ex.
  { intros Sn Kw. assert (lim = n) as Ln by (unfold limit; rewrite Sn; reflexivity). rewrite B. split.
    - intros E a P. destruct (Nat.lt_ge_cases (count (isPos args) a) (count fr lim)) as [L|L].
      + destruct (position_slot a P L) as [i [I1 I2]]. exists i. apply slot_takes; [|exact I2].
        intros K. specialize (Kw i K). rewrite A in Kw. rewrite Kw in I2. destruct I2.
      + exfalso. assert (In a (extraAt ps known args len)) as X.
        { unfold extraAt. rewrite filter_In, in_seq, andb_true_iff, Nat.leb_le.
          pose proof (isPos_lt a P). repeat split; try assumption; lia. }
        rewrite E in X. destruct X.
    - intros H. unfold extraAt. apply filter_none. intros a I. apply in_seq in I.
      destruct (isPos args a) eqn:P; [cbn|reflexivity]. apply Nat.leb_gt.
      destruct (H a P) as [j J]. exact (position_limit a j J). }
  unfold spill, starIndices.
  destruct (starArgIndex ps) as [s|] eqn:Es.
  - pose proof (star_some _ _ Es) as S. pose proof (lim_star _ S) as Ls.
    assert (forall k, starred 2 ps k -> slots s0 k = []) as Kz
      by (intros k K; apply Hi; pose proof (kw_after_star _ _ S K); lia).
    assert (fold_left spill1 (match kwstarArgIndex ps with Some b => [Nat.max s b; Nat.min s b] | None => [s] end) s0 = s0) as F.
    { destruct (kwstarArgIndex ps) as [k|] eqn:Ek.
      - pose proof (kw_after_star _ _ S (kwstar_some _ _ Ek)). cbn [fold_left].
        assert (forall j, lim <= j -> spill1 s0 j = s0) as Sp by (intros j L; unfold spill1; rewrite (Hi j L); reflexivity).
        rewrite (Sp (Nat.max s k)) by lia. apply Sp. lia.
      - cbn [fold_left]. unfold spill1. rewrite Hi by lia. reflexivity. }
    rewrite F. split; [exact C|]. split; [intros j _; apply A|]. split; [exact Kz|]. split; [intros _ _; exact B|discriminate].
  - destruct (kwstarArgIndex ps) as [k|] eqn:Ek; cbn [fold_left].
    + pose proof (kwstar_some _ _ Ek) as K. unfold spill1. destruct (slots s0 k) as [|x r] eqn:Sk.
      * assert (forall k', starred 2 ps k' -> slots s0 k' = []) as Kz by (intros k' K'; rewrite (kw_once k' k K' K); exact Sk).
        split; [exact C|]. split; [intros j _; apply A|]. split; [exact Kz|]. split; [discriminate|]. intros _. exact (Ex eq_refl Kz).
      * cbn [named slots extra]. split; [exact C|]. split.
        { intros j Nj. unfold upd. destruct (Nat.eqb_spec j k) as [->|N]; [contradiction|apply A]. }
        split. { intros j Kj. unfold upd. rewrite (kw_once j k Kj K), Nat.eqb_refl. reflexivity. }
        split; [discriminate|]. intros _. split; [discriminate|]. intros H. exfalso.
        assert (In x (slotAt ps known args len k)) as I by (rewrite <- A, Sk; left; reflexivity).
        apply in_slotAt in I. destruct I as [I1 [I2 [I3 I4]]].
        destruct (H x I1) as [j [J1 [J2 [J3 [[p [J4 [J5 _]]] J6]]]]].
        assert (j = k).
        { apply (count_inj fr); [unfold free; rewrite J2; reflexivity|exact I2|]. change (count fr j = count (isPos args) x) in J6. congruence. }
        subst j. destruct K as [q [Q1 Q2]]. congruence.
    + split; [exact C|]. split; [intros j _; apply A|].
      split; [intros j Kj; exfalso; exact (kwstar_none _ _ Ek Kj)|]. split; [discriminate|].
      intros _. apply (Ex eq_refl). intros k K. exfalso. exact (kwstar_none _ _ Ek K).
Qed.

Lemma in_named name a : In (name, a) (named s1) <-> keyword args a name.
Proof.
  destruct spill_facts as [P _]. split.
  - intros I. eapply Permutation_in in I; [|exact P]. unfold namedAt in I.
    apply in_map_iff in I. destruct I as [b [E I]]. injection E as E1 E2. subst b.
    apply filter_In in I. destruct I as [I1 I2]. apply in_seq in I1.
    destruct (isPos_cases a ltac:(lia)) as [X|[_ X]]; [rewrite X in I2; discriminate|]. rewrite <- E1. exact X.
  - intros K. destruct (keyword_name _ _ K) as [A [B C]]. eapply Permutation_in; [apply Permutation_sym; exact P|].
    unfold namedAt. apply in_map_iff. exists a. split; [rewrite C; reflexivity|].
    apply filter_In. split; [apply in_seq; lia|]. rewrite B. reflexivity.
Qed.
Lemma named_nodup : NoDup (map fst (named s1)).
Proof.
  destruct spill_facts as [P _]. eapply Permutation_NoDup; [apply Permutation_sym, Permutation_map; exact P|].
  unfold namedAt. rewrite map_map. cbn.
  assert (forall l, NoDup l -> (forall a, In a l -> a < len /\ isPos args a = false) -> NoDup (map (fun a => name_at args a) l)) as H.
  { induction l as [|a l IH]; intros ND H; [constructor|]. inversion ND; subst. cbn. constructor.
    - intros X. apply in_map_iff in X. destruct X as [b [E I]].
      destruct (H a (or_introl eq_refl)) as [A1 A2]. destruct (H b (or_intror I)) as [B1 B2].
      assert (b = a) by (apply names_once; assumption). subst b. contradiction.
    - apply IH; [assumption|]. intros b I. apply H. right. exact I. }
  apply H; [apply NoDup_filter, seq_NoDup|].
  intros a I. apply filter_In in I. destruct I as [I1 I2]. apply in_seq in I1. split; [lia|].
  apply negb_true_iff. exact I2.
Qed.

(** looking a keyword up finds the parameter that takes it, or one with two stars *)
Lemma look_takes name a i : keyword args a name -> look ps known name = Some i ->
  takes_name ps known args a i \/ (starred 2 ps i /\ forall j, ~ takes_name ps known args a j).
Proof.
  intros K L. destruct (look_some _ _ _ _ L) as [p [A [B C]]].
  pose proof (sig_stars _ sig _ _ A).
  assert (In name args) as I by (destruct K as [K _]; exact (nth_error_In _ _ K)).
  assert (pstars p <> 1). { intros E. apply (noname _ _ A E). rewrite B. exact I. }
  destruct (Nat.eq_dec (pstars p) 2) as [E|E].
  - right. split; [exists p; tauto|]. intros j [q [[Q1 [Q2 Q3]] [Q4 Q5]]].
    assert (pname q = name). { destruct K as [K _], Q5 as [Q5 _]. congruence. }
    pose proof (look_complete ps known name j q (sig_names _ sig) Q1 Q4 H1) as L'.
    rewrite L in L'. injection L' as <-. congruence.
  - left. exists p. split; [|split; [exact C|rewrite B; exact K]]. split; [exact A|]. split; [lia|].
    destruct (pcapture p) eqn:Cp; [exfalso|reflexivity].
    apply (arg_dollar _ _ argsok p (nth_error_In _ _ A) Cp). rewrite B. exact I.
Qed.
Lemma takes_look a i : takes_name ps known args a i ->
  keyword args a (name_at args a) /\ look ps known (name_at args a) = Some i.
Proof.
  intros [p [[A [B C]] [D E]]]. destruct (keyword_name _ _ E) as [_ [_ N]]. rewrite N. split; [exact E|].
  exact (look_complete ps known _ i p (sig_names _ sig) A D eq_refl).
Qed.
Lemma takes_name_once a b i : takes_name ps known args a i -> takes_name ps known args b i -> a = b.
Proof.
  intros [p [[A _] [_ B]]] [q [[C _] [_ D]]]. assert (p = q) by congruence. subst q.
  exact (arg_once _ _ argsok _ _ _ B D).
Qed.
Lemma takes_position_once a b i : takes_position ps known args a i -> takes_position ps known args b i -> a = b.
Proof. intros [A [_ [_ [_ B]]]] [C [_ [_ [_ D]]]]. apply (count_inj (isPos args)); congruence. Qed.

Lemma not_starred_takes a i : ~ starred 1 ps i -> ~ starred 2 ps i ->
  takes ps known args a i <-> takes_position ps known args a i \/ takes_name ps known args a i.
Proof.
  intros S K. split; [intros [H|H|H1 H2 H3|name H1 H2 H3]; tauto|].
  intros [H|H]; [apply Take_position|apply Take_name]; exact H.
Qed.
Lemma position_plain a i : takes_position ps known args a i -> exists p, plain ps i p.
Proof. intros [_ [_ [_ [H _]]]]. exact H. Qed.
Lemma name_plain a i : takes_name ps known args a i -> exists p, plain ps i p.
Proof. intros [p [H _]]. exists p. exact H. Qed.
Lemma plain_starred k i p : plain ps i p -> starred (S k) ps i -> False.
Proof. intros [A [B _]] [q [C D]]. assert (p = q) by congruence. subst. congruence. Qed.

Definition good (sl : list (list nat)) : Prop :=
  List.length sl = n /\
  forall i l, nth_error sl i = Some l ->
    NoDup l /\ (forall a, In a l <-> takes ps known args a i) /\ (~ starred 2 ps i -> StronglySorted lt l).

Lemma sorted_filter f k m : StronglySorted lt (filter f (seq k m)).
Proof.
  revert k. induction m as [|m IH]; intros k; [constructor|]. cbn. destruct (f k); [|apply IH].
  constructor; [apply IH|]. apply Forall_forall. intros x X. apply filter_In in X. destruct X as [X _]. apply in_seq in X. lia.
Qed.

Theorem reorder_ok :
  match reorder ps known partial args with
  | Bound sl => accepted ps known partial args /\ good sl
  | Rejected _ => ~ accepted ps known partial args
  end.
Proof.
  unfold reorder. cbv zeta.
  destruct spill_facts as [F1 [F2 [F3 [F4 F5]]]].
  pose proof (assignNamed_ok ps known (named s1) (slots s1) [] named_nodup) as AN.
  destruct (assignNamed ps known (named s1) (slots s1) []) as [[sl ex]|e].
  2: { destruct AN as [_ [name [a [i [N [L Ne]]]]]]. intros Acc. apply in_named in N.
       destruct (look_takes _ _ _ N L) as [T|[K _]]; [|apply Ne; apply F3; exact K].
       destruct (name_plain _ _ T) as [p P].
       rewrite F2 in Ne by (intros K; exact (plain_starred _ _ _ P K)).
       destruct (slotAt ps known args len i) as [|b r] eqn:E; [apply Ne; reflexivity|].
       assert (In b (slotAt ps known args len i)) as I by (rewrite E; left; reflexivity).
       apply slot_takes in I; [|intros K; exact (plain_starred _ _ _ P K)].
       assert (a = b) by (apply (acc_once _ _ _ _ Acc i p a b P); [apply Take_name; exact T|apply Take_position; exact I]).
       subst b. destruct I as [I _]. destruct (keyword_name _ _ N) as [_ [X _]]. congruence. }
  destruct AN as [N1 [N2 N3]].
  assert (forall name a, In (name, a) ex <-> keyword args a name /\ look ps known name = None) as InEx.
  { intros name a. split.
    - intros I. eapply Permutation_in in I; [|exact N3]. cbn [app] in I. apply filter_In in I. destruct I as [I1 I2].
      apply in_named in I1. split; [exact I1|]. cbn in I2. destruct (look ps known name); [discriminate|reflexivity].
    - intros [A B]. eapply Permutation_in; [apply Permutation_sym; exact N3|]. cbn [app]. apply filter_In.
      split; [apply in_named; exact A|]. cbn. rewrite B. reflexivity. }
  assert (forall i, is_index (starArgIndex ps) i = true <-> starred 1 ps i) as IxS.
  { intros i. destruct (starArgIndex ps) as [s|] eqn:Es; cbn.
    - rewrite Nat.eqb_eq. split; [intros ->; exact (star_some _ _ Es)|]. intros H. exact (sig_one_args _ sig _ _ H (star_some _ _ Es)).
    - split; [discriminate|]. intros H. exfalso. exact (star_none _ _ Es H). }
  assert (forall i, is_index (kwstarArgIndex ps) i = true <-> starred 2 ps i) as IxK.
  { intros i. destruct (kwstarArgIndex ps) as [s|] eqn:Es; cbn.
    - rewrite Nat.eqb_eq. split; [intros ->; exact (kwstar_some _ _ Es)|]. intros H. exact (kw_once _ _ H (kwstar_some _ _ Es)).
    - split; [discriminate|]. intros H. exfalso. exact (kwstar_none _ _ Es H). }
  (* too many positional arguments *)
  destruct (negb match extra s1 with [] => true | _ => false end && match starArgIndex ps with None => true | _ => false end) eqn:G1.
  { apply andb_true_iff in G1. destruct G1 as [G1 G1'].
    destruct (starArgIndex ps) as [s|] eqn:Es; [discriminate|].
    intros Acc. assert (extra s1 <> []) as Ne by (intros X; rewrite X in G1; discriminate). apply Ne.
    apply (proj2 (F5 eq_refl)). intros a P. destruct (acc_taken _ _ _ _ Acc a (isPos_lt a P)) as [i T].
    destruct T as [T|T|_ _ S|name K _ _].
    - exists i. exact T.
    - exfalso. destruct T as [p [_ [_ K]]]. destruct (keyword_name _ _ K) as [_ [X _]]. congruence.
    - exfalso. exact (star_none _ _ Es S).
    - exfalso. destruct (keyword_name _ _ K) as [_ [X _]]. congruence. }
  assert (starArgIndex ps = None -> forall a, isPos args a = true -> exists j, takes_position ps known args a j) as Pos0.
  { intros Es. apply (F5 Es). rewrite Es in G1. rewrite andb_true_r in G1. apply negb_false_iff in G1.
    destruct (extra s1); [reflexivity|discriminate]. }
  (* unknown keyword *)
  destruct (negb match ex with [] => true | _ => false end && match kwstarArgIndex ps with None => true | _ => false end) eqn:G2.
  { apply andb_true_iff in G2. destruct G2 as [G2 G2'].
    destruct (kwstarArgIndex ps) as [s|] eqn:Es; [discriminate|].
    destruct ex as [|[name a] ex']; [discriminate|]. intros Acc.
    destruct (proj1 (InEx name a) (or_introl eq_refl)) as [K L]. destruct (keyword_name _ _ K) as [A [B C]].
    destruct (acc_taken _ _ _ _ Acc a A) as [i T]. destruct T as [T|T|P _ _|name' K' _ S].
    - destruct T as [P _]. congruence.
    - destruct (takes_look _ _ T) as [_ X]. rewrite C in X. congruence.
    - congruence.
    - exact (kwstar_none _ _ Es S). }
  assert (kwstarArgIndex ps = None -> ex = []) as Ex0.
  { intros Es. rewrite Es, andb_true_r in G2. apply negb_false_iff in G2. destruct ex; [reflexivity|discriminate]. }
  set (sl1 := match starArgIndex ps with Some i => upd sl i (extra s1) | None => sl end).
  set (sl2 := match kwstarArgIndex ps with Some i => upd sl1 i (sl1 i ++ map snd ex) | None => sl1 end).
  assert (forall i, ~ starred 1 ps i -> ~ starred 2 ps i -> sl2 i = sl i) as V0.
  { intros i S K. unfold sl2. assert (sl1 i = sl i) as E.
    { unfold sl1. destruct (starArgIndex ps) as [s|] eqn:Es; [|reflexivity]. unfold upd.
      destruct (Nat.eqb_spec i s) as [->|N]; [|reflexivity]. exfalso. exact (S (star_some _ _ Es)). }
    destruct (kwstarArgIndex ps) as [k|] eqn:Ek; [|exact E]. unfold upd.
    destruct (Nat.eqb_spec i k) as [->|N]; [|exact E]. exfalso. exact (K (kwstar_some _ _ Ek)). }
  assert (forall i, starred 1 ps i -> sl2 i = extraAt ps known args len) as V1.
  { intros i S. pose proof (proj2 (IxS i) S) as X. unfold sl2, sl1.
    destruct (starArgIndex ps) as [s|] eqn:Es; [|discriminate]. cbn in X. apply Nat.eqb_eq in X. subst s.
    rewrite <- (F4 i eq_refl).
    destruct (kwstarArgIndex ps) as [k|] eqn:Ek; unfold upd at 1.
    - destruct (Nat.eqb_spec i k) as [->|N]; [|unfold upd; rewrite Nat.eqb_refl; reflexivity].
      pose proof (kw_after_star _ _ S (kwstar_some _ _ Ek)). lia.
    - rewrite Nat.eqb_refl. reflexivity. }
  assert (forall i, starred 2 ps i -> sl2 i = sl i ++ map snd ex) as V2.
  { intros i K. pose proof (proj2 (IxK i) K) as X. unfold sl2.
    destruct (kwstarArgIndex ps) as [k|] eqn:Ek; [|discriminate]. cbn in X. apply Nat.eqb_eq in X. subst k.
    unfold upd. rewrite Nat.eqb_refl. f_equal. unfold sl1. destruct (starArgIndex ps) as [s|] eqn:Es; [|reflexivity].
    unfold upd. destruct (Nat.eqb_spec i s) as [->|N]; [|reflexivity].
    pose proof (kw_after_star _ _ (star_some _ _ Es) K). lia. }
  assert (forall i, (exists name a, keyword args a name /\ look ps known name = Some i /\ slots s1 i = [] /\ sl i = [a]) \/
      (forall name a, keyword args a name -> look ps known name <> Some i) /\ sl i = slots s1 i) as Sl.
  { intros i. destruct (existsb (fun e => match look ps known (fst e) with Some j => Nat.eqb j i | None => false end) (named s1)) eqn:E.
    - left. apply existsb_exists in E. destruct E as [[name a] [I E]]. cbn in E.
      destruct (look ps known name) as [j|] eqn:L; [|discriminate]. apply Nat.eqb_eq in E. subst j.
      exists name, a. destruct (N1 _ _ _ I L) as [X Y]. apply in_named in I. tauto.
    - right. assert (forall name a, In (name, a) (named s1) -> look ps known name <> Some i) as H.
      { intros name a I L. assert (existsb (fun e => match look ps known (fst e) with Some j => Nat.eqb j i | None => false end) (named s1) = true); [|congruence].
        apply existsb_exists. exists (name, a). split; [exact I|]. cbn. rewrite L. apply Nat.eqb_refl. }
      split; [|exact (N2 i H)]. intros name a K. apply (H name a). apply in_named. exact K. }
  assert (forall i, NoDup (sl2 i) /\ (forall a, In a (sl2 i) <-> takes ps known args a i) /\ (~ starred 2 ps i -> StronglySorted lt (sl2 i))) as V.
  { intros i. destruct (is_index (starArgIndex ps) i) eqn:Q1; [|destruct (is_index (kwstarArgIndex ps) i) eqn:Q2].
    - apply IxS in Q1. rewrite (V1 i Q1). pose proof (lim_star _ Q1) as Ls.
      split; [apply NoDup_filter, seq_NoDup|]. split; [|intros _; apply sorted_filter].
      intros a. unfold extraAt. rewrite filter_In, in_seq, andb_true_iff, Nat.leb_le. split.
      + intros [A [P L]]. apply Take_args; [exact P| |exact Q1]. intros j T.
        pose proof (position_limit a j T). lia.
      + intros T. destruct T as [T|T|P T _|name K _ S].
        * exfalso. destruct (position_plain _ _ T) as [p Pp]. exact (plain_starred _ _ _ Pp Q1).
        * exfalso. destruct (name_plain _ _ T) as [p Pp]. exact (plain_starred _ _ _ Pp Q1).
        * pose proof (isPos_lt a P). split; [lia|]. split; [exact P|].
          destruct (Nat.le_gt_cases (count fr lim) (count (isPos args) a)) as [L|L]; [exact L|exfalso].
          destruct (position_slot a P L) as [j [J1 J2]]. apply (T j). apply slot_takes; [|exact J2].
          intros K. pose proof (kw_after_star _ _ Q1 K). lia.
        * exfalso. pose proof (kw_after_star _ _ Q1 S). lia.
    - apply IxK in Q2. rewrite (V2 i Q2). split; [|split; [|intros X; contradiction]].
      + assert (NoDup (map snd ex)) as ND.
        { eapply Permutation_NoDup; [apply Permutation_sym, Permutation_map; exact N3|]. cbn [app].
          assert (NoDup (map snd (named s1))) as D.
          { eapply Permutation_NoDup; [apply Permutation_sym, Permutation_map; exact F1|].
            unfold namedAt. rewrite map_map. cbn. rewrite map_id. apply NoDup_filter, seq_NoDup. }
          revert D. generalize (named s1). induction l as [|e l IH]; cbn; intros D; [constructor|].
          inversion D; subst. destruct (look ps known (fst e)); [apply IH; assumption|]. cbn. constructor; [|apply IH; assumption].
          intros X. apply H1. apply in_map_iff in X. destruct X as [y [Y1 Y2]]. apply in_map_iff. exists y.
          split; [exact Y1|]. apply filter_In in Y2. tauto. }
        destruct (Sl i) as [[name [a [K [L [_ E]]]]]|[_ E]]; rewrite E; [|rewrite (F3 i Q2); exact ND].
        cbn. constructor; [|exact ND]. intros X. apply in_map_iff in X. destruct X as [[name' a'] [Y1 Y2]]. cbn in Y1. subst a'.
        apply InEx in Y2. destruct Y2 as [Y2 Y3]. destruct K as [K _], Y2 as [Y2 _]. congruence.
      + intros a. rewrite in_app_iff. split.
        * intros [I|I].
          -- destruct (Sl i) as [[name [b [K [L [_ E]]]]]|[_ E]]; rewrite E in I; [|rewrite (F3 i Q2) in I; destruct I].
             destruct I as [<-|[]]. destruct (look_takes _ _ _ K L) as [T|[_ T]].
             ++ exfalso. destruct (name_plain _ _ T) as [p Pp]. exact (plain_starred _ _ _ Pp Q2).
             ++ exact (Take_kwargs _ _ _ _ _ name K T Q2).
          -- apply in_map_iff in I. destruct I as [[name b] [E I]]. cbn in E. subst b. apply InEx in I. destruct I as [K L].
             apply (Take_kwargs _ _ _ _ _ name K); [|exact Q2]. intros j T. destruct (takes_look _ _ T) as [_ X].
             destruct (keyword_name _ _ K) as [_ [_ C]]. rewrite C in X. congruence.
        * intros T. destruct T as [T|T|P T S|name K T _].
          -- exfalso. destruct (position_plain _ _ T) as [p Pp]. exact (plain_starred _ _ _ Pp Q2).
          -- exfalso. destruct (name_plain _ _ T) as [p Pp]. exact (plain_starred _ _ _ Pp Q2).
          -- exfalso. pose proof (kw_after_star _ _ S Q2). lia.
          -- destruct (look ps known name) as [j|] eqn:L.
             ++ left. destruct (look_takes _ _ _ K L) as [X|[X _]]; [exfalso; exact (T j X)|].
                rewrite <- (kw_once _ _ X Q2).
                assert (In (name, a) (named s1)) as I by (apply in_named; exact K).
                rewrite (proj2 (N1 _ _ _ I L)). left. reflexivity.
             ++ right. apply in_map_iff. exists (name, a). split; [reflexivity|]. apply InEx. split; [exact K|exact L].
    - assert (~ starred 1 ps i) as NS by (intros X; apply IxS in X; congruence).
      assert (~ starred 2 ps i) as NK by (intros X; apply IxK in X; congruence).
      rewrite (V0 i NS NK).
      destruct (Sl i) as [[name [a [K [L [Z E]]]]]|[Nn E]].
      + rewrite E. split; [constructor; [intros []|constructor]|]. split; [|intros _; constructor; constructor].
        assert (takes_name ps known args a i) as T by (destruct (look_takes _ _ _ K L) as [T|[X _]]; [exact T|contradiction]).
        intros b. rewrite (not_starred_takes b i NS NK). split.
        * intros [<-|[]]. right. exact T.
        * intros [X|X]; [|left; exact (takes_name_once _ _ _ T X)].
          exfalso. apply slot_takes in X; [|exact NK]. rewrite <- (F2 i NK), Z in X. destruct X.
      + rewrite E, (F2 i NK). split; [apply NoDup_filter, seq_NoDup|]. split; [|intros _; apply sorted_filter].
        intros b. rewrite (not_starred_takes b i NS NK), (slot_takes b i NK). split; [tauto|].
        intros [X|X]; [exact X|]. exfalso. destruct (takes_look _ _ X) as [X1 X2]. exact (Nn _ _ X1 X2). }
  assert (forall i a p, plain ps i p -> takes_name ps known args a i -> forall b, ~ takes_position ps known args b i) as Excl.
  { intros i a p P T b X. destruct (takes_look _ _ T) as [K L].
    apply slot_takes in X; [|intros S; exact (plain_starred _ _ _ P S)].
    rewrite <- F2 in X by (intros S; exact (plain_starred _ _ _ P S)).
    assert (In (name_at args a, a) (named s1)) as I by (apply in_named; exact K).
    rewrite (proj1 (N1 _ _ _ I L)) in X. destruct X. }
  destruct (existsb (missing ps known partial sl2) (seq 0 (CallArgs.n ps))) eqn:M.
  - apply existsb_exists in M. destruct M as [i [Mi M]]. apply in_seq in Mi. unfold CallArgs.n in Mi.
    unfold missing in M. destruct (sl2 i) as [|x r] eqn:E; [|discriminate].
    rewrite !andb_true_iff, !negb_true_iff, orb_false_iff in M. destruct M as [[[[M1 M2] [M3 M4]] M5] M6].
    rewrite M6 in M3. cbn [andb] in M3. apply orb_false_iff in M3. destruct M3 as [M3 M3'].
    intros Acc.
    assert (exists p, nth_error ps i = Some p) as [p P].
    { destruct (nth_error ps i) as [p|] eqn:X; [exists p; reflexivity|]. apply nth_error_None in X. lia. }
    assert (par ps i = p) as Pp by (unfold par; exact (nth_error_nth _ _ _ P)). rewrite Pp in *.
    assert (plain ps i p) as Pl.
    { split; [exact P|]. split; [|exact M4]. pose proof (sig_stars _ sig _ _ P).
      destruct (Nat.eq_dec (pstars p) 1) as [X|X].
      { assert (starred 1 ps i) as Y by (exists p; tauto). apply IxS in Y. congruence. }
      destruct (Nat.eq_dec (pstars p) 2) as [X2|X2].
      { assert (starred 2 ps i) as Y by (exists p; tauto). apply IxK in Y. congruence. }
      lia. }
    destruct (acc_needed _ _ _ _ Acc i p M5 Pl M6 M3 M3') as [a T].
    apply (proj1 (proj2 (V i))) in T. rewrite E in T. destruct T.
  - split; [constructor|].
    + intros a A. destruct (isPos_cases a A) as [P|[_ K]].
      * destruct (starArgIndex ps) as [s|] eqn:Es.
        -- destruct (Nat.lt_ge_cases (count (isPos args) a) (count fr lim)) as [L|L].
           ++ destruct (position_slot a P L) as [j [J1 J2]]. exists j. apply Take_position. apply slot_takes; [|exact J2].
              intros K. pose proof (kw_after_star _ _ (star_some _ _ Es) K). pose proof (lim_star _ (star_some _ _ Es)). lia.
           ++ exists s. apply Take_args; [exact P| |exact (star_some _ _ Es)]. intros j T. pose proof (position_limit a j T). lia.
        -- destruct (Pos0 eq_refl a P) as [j T]. exists j. apply Take_position. exact T.
      * destruct (look ps known (name_at args a)) as [j|] eqn:L.
        -- destruct (look_takes _ _ _ K L) as [T|[S T]]; [exists j; apply Take_name; exact T|].
           exists j. exact (Take_kwargs _ _ _ _ _ _ K T S).
        -- assert (In (name_at args a, a) ex) as I by (apply InEx; split; assumption).
           destruct (kwstarArgIndex ps) as [k|] eqn:Ek; [|rewrite (Ex0 eq_refl) in I; destruct I].
           exists k. apply (Take_kwargs _ _ _ _ _ _ K); [|exact (kwstar_some _ _ Ek)].
           intros j T. destruct (takes_look _ _ T) as [_ X]. congruence.
    + intros i p a b P A B.
      assert (~ starred 1 ps i) as NS by (intros X; exact (plain_starred _ _ _ P X)).
      assert (~ starred 2 ps i) as NK by (intros X; exact (plain_starred _ _ _ P X)).
      apply (not_starred_takes a i NS NK) in A. apply (not_starred_takes b i NS NK) in B.
      destruct A as [A|A], B as [B|B].
      * exact (takes_position_once _ _ _ A B).
      * exfalso. exact (Excl _ _ _ P B _ A).
      * exfalso. exact (Excl _ _ _ P A _ B).
      * exact (takes_name_once _ _ _ A B).
    + intros i p Pa P Pv Pd Pg.
      assert (missing ps known partial sl2 i = false) as X.
      { destruct (missing ps known partial sl2 i) eqn:X; [|reflexivity].
        assert (existsb (missing ps known partial sl2) (seq 0 (CallArgs.n ps)) = true); [|congruence].
        apply existsb_exists. exists i. split; [|exact X]. apply in_seq. split; [lia|].
        destruct P as [P _]. cbn. apply nth_error_Some. congruence. }
      destruct (sl2 i) as [|a r] eqn:E.
      * exfalso. unfold missing in X. rewrite E in X.
        assert (par ps i = p) as Pp by (destruct P as [P _]; unfold par; exact (nth_error_nth _ _ _ P)).
        rewrite Pp, Pv, Pd, Pg, Pa in X. rewrite (proj2 (proj2 P)) in X.
        destruct (is_index (starArgIndex ps) i) eqn:Q1; [apply IxS in Q1; exact (plain_starred _ _ _ P Q1)|].
        destruct (is_index (kwstarArgIndex ps) i) eqn:Q2; [apply IxK in Q2; exact (plain_starred _ _ _ P Q2)|].
        discriminate.
      * exists a. apply (proj1 (proj2 (V i))). rewrite E. left. reflexivity.
    + split; [rewrite map_length, seq_length; reflexivity|].
      intros i l H. rewrite nth_error_map in H. destruct (nth_error (seq 0 (CallArgs.n ps)) i) as [j|] eqn:Ej; [|discriminate].
      injection H as <-.
      assert (j = i).
      { assert (i < CallArgs.n ps) by (rewrite <- (seq_length (CallArgs.n ps) 0); apply nth_error_Some; congruence).
        apply (nth_error_nth _ _ 0) in Ej. rewrite seq_nth in Ej by assumption. cbn in Ej. congruence. }
      subst j. apply V.
Qed.
End Call.

(** * Evaluation order *)
Section Order.
Context (eff : nat -> bool).

Lemma inOrder_ok l : forall last, inOrder eff l last = true ->
  (forall b, last = Some b -> match filter eff l with [] => True | a :: _ => b <= a end) /\ Sorted le (filter eff l).
Proof.
  induction l as [|a l IH]; intros last E; cbn in *; [split; [trivial|constructor]|].
  destruct (eff a).
  - apply andb_true_iff in E. destruct E as [E1 E2]. destruct (IH _ E2) as [A B]. split.
    + intros b ->. apply negb_true_iff, Nat.ltb_ge in E1. exact E1.
    + constructor; [exact B|]. specialize (A a eq_refl). destruct (filter eff l); constructor. exact A.
  - exact (IH _ E).
Qed.

Fixpoint ins (a : nat) (r : list nat) : list nat :=
  match r with [] => [a] | b :: r' => if a <=? b then a :: r else b :: ins a r' end.
Lemma isort_cons a l : isort (a :: l) = ins a (isort l).
Proof. cbn. generalize (isort l). induction l0 as [|b r IH]; [reflexivity|]. cbn. rewrite IH. reflexivity. Qed.
Lemma ins_perm a r : Permutation (ins a r) (a :: r).
Proof.
  induction r as [|b r IH]; [apply Permutation_refl|]. cbn. destruct (a <=? b); [apply Permutation_refl|].
  eapply Permutation_trans; [apply perm_skip, IH|apply perm_swap].
Qed.
Lemma isort_perm l : Permutation (isort l) l.
Proof.
  induction l as [|a l IH]; [apply Permutation_refl|]. rewrite isort_cons.
  eapply Permutation_trans; [apply ins_perm|apply perm_skip, IH].
Qed.
Lemma ins_sorted a r : StronglySorted le r -> StronglySorted le (ins a r).
Proof.
  induction 1 as [|b r S IH F]; cbn; [constructor; constructor|].
  destruct (Nat.leb_spec a b) as [L|L].
  - constructor; [constructor; assumption|]. constructor; [exact L|]. eapply Forall_impl; [|exact F]. intros. lia.
  - constructor; [exact IH|]. apply Forall_forall. intros x X. apply (Permutation_in _ (ins_perm a r)) in X.
    destruct X as [<-|X]; [lia|]. rewrite Forall_forall in F. exact (F x X).
Qed.
Lemma isort_sorted l : StronglySorted le (isort l).
Proof. induction l as [|a l IH]; [constructor|]. rewrite isort_cons. apply ins_sorted, IH. Qed.

Lemma filter_split l : Permutation (filter eff l ++ filter (fun a => negb (eff a)) l) l.
Proof.
  induction l as [|a l IH]; [apply Permutation_refl|]. cbn. destruct (eff a); cbn; [apply perm_skip, IH|].
  eapply Permutation_trans; [apply Permutation_sym, Permutation_middle|apply perm_skip, IH].
Qed.
Lemma filter_perm (f : nat -> bool) l l' : Permutation l l' -> Permutation (filter f l) (filter f l').
Proof.
  induction 1; cbn; [constructor|destruct (f x); [apply perm_skip|]; assumption| |eapply Permutation_trans; eassumption].
  destruct (f x), (f y); try apply Permutation_refl. apply perm_swap.
Qed.
Lemma evalOrder_perm sl : Permutation (evalOrder eff sl) (List.concat sl).
Proof.
  unfold evalOrder. cbv zeta. destruct (inOrder eff (List.concat sl) None); [apply Permutation_refl|].
  eapply Permutation_trans; [apply Permutation_app_tail, isort_perm|apply filter_split].
Qed.
Lemma filter_idem (f : nat -> bool) l : filter f (filter f l) = filter f l.
Proof. induction l as [|a l IH]; [reflexivity|]. cbn. destruct (f a) eqn:E; [cbn; rewrite E, IH; reflexivity|exact IH]. Qed.
Lemma filter_all (f : nat -> bool) l : (forall a, In a l -> f a = true) -> filter f l = l.
Proof.
  induction l as [|a l IH]; intros H; [reflexivity|]. cbn. rewrite (H a) by (left; reflexivity). f_equal.
  apply IH. intros b I. apply H. right. exact I.
Qed.
Lemma evalOrder_sorted sl : StronglySorted le (filter eff (evalOrder eff sl)).
Proof.
  unfold evalOrder. cbv zeta. destruct (inOrder eff (List.concat sl) None) eqn:E.
  - apply Sorted_StronglySorted; [intros x y z; lia|]. exact (proj2 (inOrder_ok _ _ E)).
  - rewrite filter_app, (filter_none eff (filter (fun a => negb (eff a)) _)).
    2:{ intros x X. apply filter_In in X. apply negb_true_iff. tauto. }
    rewrite app_nil_r, filter_all; [apply isort_sorted|].
    intros a I. apply (Permutation_in _ (isort_perm _)) in I. apply filter_In in I. tauto.
Qed.
Lemma sorted_perm_eq l : forall l', StronglySorted le l -> StronglySorted le l' -> Permutation l l' -> l = l'.
Proof.
  induction l as [|a l IH]; intros l' S S' P.
  - apply Permutation_nil in P. congruence.
  - destruct l' as [|b l']; [apply Permutation_sym, Permutation_nil in P; discriminate|].
    inversion S as [|? ? S1 F1]; subst. inversion S' as [|? ? S2 F2]; subst.
    assert (a = b).
    { assert (In a (b :: l')) as I by (eapply Permutation_in; [exact P|left; reflexivity]).
      assert (In b (a :: l)) as J by (eapply Permutation_in; [apply Permutation_sym; exact P|left; reflexivity]).
      rewrite Forall_forall in F1, F2. destruct I as [->|I]; [reflexivity|]. destruct J as [->|J]; [reflexivity|].
      specialize (F1 _ J). specialize (F2 _ I). lia. }
    subst b. f_equal. apply IH; [assumption|assumption|]. exact (Permutation_cons_inv P).
Qed.
Lemma evalOrder_effects sl k : Permutation (List.concat sl) (seq 0 k) -> filter eff (evalOrder eff sl) = filter eff (seq 0 k).
Proof.
  intros P. apply sorted_perm_eq; [apply evalOrder_sorted| |].
  - assert (forall m j, StronglySorted le (filter eff (seq j m))) as H; [|apply H].
    induction m as [|m IH]; intros j; [constructor|]. cbn. destruct (eff j); [|apply IH]. constructor; [apply IH|].
    apply Forall_forall. intros x X. apply filter_In in X. destruct X as [X _]. apply in_seq in X. lia.
  - apply filter_perm. eapply Permutation_trans; [apply evalOrder_perm|exact P].
Qed.
End Order.

Section Once.
Context (ps : list param) (known : nat -> bool) (args : list string) (sig : signature ps).

Lemma takes_one_param a i j : takes ps known args a i -> takes ps known args a j -> i = j.
Proof.
  assert (forall a i, takes_position ps known args a i -> takes_name ps known args a i -> False) as X0.
  { intros b k [A _] [p [_ [_ [B C]]]]. unfold isPos in A. rewrite B in A. apply String.eqb_eq in A. contradiction. }
  assert (forall a, isPos args a = true -> forall name, keyword args a name -> False) as X1.
  { intros b A name [B C]. unfold isPos in A. rewrite B in A. apply String.eqb_eq in A. contradiction. }
  intros T U. destruct T as [T|T|P T S|name K T S], U as [U|U|P' U S'|name' K' U S'].
  - destruct T as [_ [A [_ [_ B]]]], U as [_ [C [_ [_ D]]]]. apply (count_inj (fun j => negb (known j))); [rewrite A; reflexivity|rewrite C; reflexivity|congruence].
  - exfalso. destruct T as [A _], U as [p [_ [_ B]]]. exact (X1 a A _ B).
  - exfalso. exact (U _ T).
  - exfalso. destruct T as [A _]. exact (X1 a A _ K').
  - exfalso. destruct U as [A _], T as [p [_ [_ B]]]. exact (X1 a A _ B).
  - destruct T as [p [[A _] [_ [B _]]]], U as [q [[C _] [_ [D _]]]].
    apply (proj1 (NoDup_nth_error _) (sig_names _ sig)).
    + apply nth_error_Some. rewrite nth_error_map, A. discriminate.
    + rewrite !nth_error_map, A, C. cbn. congruence.
  - exfalso. destruct T as [p [_ [_ B]]]. exact (X1 a P' _ B).
  - exfalso. exact (U _ T).
  - exfalso. exact (T _ U).
  - exfalso. destruct U as [p [_ [_ B]]]. exact (X1 a P _ B).
  - exact (sig_one_args _ sig _ _ S S').
  - exfalso. exact (X1 a P _ K').
  - exfalso. destruct U as [A _]. exact (X1 a A _ K).
  - exfalso. exact (T _ U).
  - exfalso. exact (X1 a P' _ K).
  - pose proof (sig_kwargs_last _ sig _ S). pose proof (sig_kwargs_last _ sig _ S'). lia.
Qed.
Lemma takes_lt a i : takes ps known args a i -> a < List.length args.
Proof.
  intros [[A _]|[p [_ [_ [A _]]]]|A _ _|name [A _] _ _].
  - unfold isPos in A. apply nth_error_Some. destruct (nth_error args a); discriminate.
  - apply nth_error_Some. congruence.
  - unfold isPos in A. apply nth_error_Some. destruct (nth_error args a); discriminate.
  - apply nth_error_Some. congruence.
Qed.

Lemma concat_nodup (sl : list (list nat)) :
  (forall i l, nth_error sl i = Some l -> NoDup l) ->
  (forall i j l m a, nth_error sl i = Some l -> nth_error sl j = Some m -> In a l -> In a m -> i = j) ->
  NoDup (List.concat sl).
Proof.
  induction sl as [|l sl IH]; intros A B; [constructor|]. cbn.
  assert (NoDup l) as N by exact (A 0 l eq_refl).
  assert (NoDup (List.concat sl)) as M.
  { apply IH; [intros i m H; exact (A (S i) m H)|]. intros i j m k a H1 H2 I J. specialize (B (S i) (S j) m k a H1 H2 I J). congruence. }
  assert (forall a, In a l -> ~ In a (List.concat sl)) as D.
  { intros a I J. apply in_concat in J. destruct J as [m [J1 J2]]. apply In_nth_error in J1. destruct J1 as [j J1].
    specialize (B 0 (S j) l m a eq_refl J1 I J2). discriminate. }
  clear A B IH. induction l as [|a l IH]; [exact M|]. cbn. inversion N; subst. constructor.
  - intros X. apply in_app_or in X. destruct X as [X|X]; [contradiction|]. exact (D a (or_introl eq_refl) X).
  - apply IH; [assumption|]. intros b I. apply D. right. exact I.
Qed.

Lemma concat_all partial sl : accepted ps known partial args -> good ps known args sl ->
  Permutation (List.concat sl) (seq 0 (List.length args)).
Proof.
  intros Acc [L G]. apply NoDup_Permutation.
  - apply concat_nodup; [intros i l H; exact (proj1 (G i l H))|].
    intros i j l m a H1 H2 I J. apply (G i l H1) in I. apply (G j m H2) in J. exact (takes_one_param a i j I J).
  - apply seq_NoDup.
  - intros a. rewrite in_seq. split.
    + intros I. apply in_concat in I. destruct I as [l [I1 I2]]. apply In_nth_error in I1. destruct I1 as [i I1].
      apply (G i l I1) in I2. pose proof (takes_lt a i I2). lia.
    + intros [_ A]. cbn in A. destruct (acc_taken _ _ _ _ Acc a A) as [i T].
      assert (i < List.length ps) as Li.
      { destruct T as [[_ [_ [_ [[p [P _]] _]]]]|[p [[P _] _]]|_ _ [p [P _]]|name _ _ [p [P _]]]; apply nth_error_Some; congruence. }
      rewrite <- L in Li. apply nth_error_Some in Li. destruct (nth_error sl i) as [l|] eqn:E; [|contradiction].
      apply in_concat. exists l. split; [exact (nth_error_In _ _ E)|]. apply (G i l E). exact T.
Qed.
End Once.
