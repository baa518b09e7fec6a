(** Proofs about zip, zip_longest and tee. *)
From Coq Require Import List ZArith Bool Arith Lia.
From Verif.Common Require Import Result Arr.
From Verif.Itertools Require Import CombModel CombProofs StreamModel StreamSpec StreamProofs.
Import ListNotations.

(** ** Cells of a heap *)

Lemma get_nth_error {A} (l : list A) i x : nth_error l i = Some x -> get l i = Ok x.
Proof. unfold get. now intros ->. Qed.

Lemma set_ok {A} (l : list A) i x : i < length l -> set l i x = Ok (upd_nat l i x).
Proof. intros H. unfold set. destruct (Nat.ltb_spec i (length l)); [reflexivity|lia]. Qed.

Lemma upd_same {A} (l : list A) i x : i < length l -> nth_error (upd_nat l i x) i = Some x.
Proof. revert i. induction l as [|a l IH]; intros [|i] H; simpl in *; try lia; auto. apply IH. lia. Qed.

Lemma upd_other {A} (l : list A) i j x : i <> j -> nth_error (upd_nat l i x) j = nth_error l j.
Proof.
  revert i j. induction l as [|a l IH]; intros [|i] [|j] H; simpl; auto; try congruence.
Qed.

Lemma nth_error_lt {A} (l : list A) i x : nth_error l i = Some x -> i < length l.
Proof. intros H. apply nth_error_Some. congruence. Qed.

(** ** zip *)

(** The handles [hs] of the heap will yield the lists [ls]. *)
Definition holds {A} (heap : list (gen A)) (hs : list nat) (ls : list (list A)) : Prop :=
  Forall2 (fun h l => exists c, nth_error heap h = Some (Sus c l)) hs ls.

Lemma holds_other {A} (heap : list (gen A)) h g hs ls :
  ~ In h hs -> holds heap hs ls -> holds (upd_nat heap h g) hs ls.
Proof.
  intros N H. unfold holds in *. induction H as [|h' l hs ls (c & E) F IH]; constructor.
  - exists c. rewrite upd_other; [exact E|]. intros ->. apply N. now left.
  - apply IH. intros Hin. apply N. now right.
Qed.

(** The state after one resumption. *)
Definition after {A} (l : list A) : gen A :=
  match l with [] => Fin | x :: r => Sus (Some x) r end.

Definition after_all {A} (heap : list (gen A)) (hs : list nat) (ls : list (list A)) : Prop :=
  Forall2 (fun h l => nth_error heap h = Some (after l)) hs ls.

Lemma after_other {A} (heap : list (gen A)) h g hs ls :
  ~ In h hs -> after_all heap hs ls -> after_all (upd_nat heap h g) hs ls.
Proof.
  intros N H. unfold after_all in *. induction H as [|h' l hs ls E F IH]; constructor.
  - rewrite upd_other; [exact E|]. intros ->. apply N. now left.
  - apply IH. intros Hin. apply N. now right.
Qed.

Definition untouched {A} (heap heap' : list (gen A)) (hs : list nat) : Prop :=
  length heap' = length heap /\ forall j, ~ In j hs -> nth_error heap' j = nth_error heap j.

Definition is_nil {A} (l : list A) : bool := match l with [] => true | _ => false end.

Lemma zip_resume_ok {A} (hs : list nat) ls (heap : list (gen A)) fin :
  NoDup hs -> holds heap hs ls ->
  exists heap', zip_resume heap hs fin = Ok (fin || existsb is_nil ls, heap') /\
    after_all heap' hs ls /\ untouched heap heap' hs.
Proof.
  intros ND H. revert heap fin H. revert ls. induction ND as [|h hs N ND IH]; intros ls heap fin H.
  - inversion H. subst. exists heap. simpl. rewrite orb_false_r.
    repeat split; constructor.
  - inversion H as [|? l ? ls' (c & E) F]. subst. simpl.
    rewrite (get_nth_error _ _ _ E). cbn [bind].
    pose proof (nth_error_lt _ _ _ E) as Lt.
    assert (D : done (Sus c l) = Ok (is_nil l, after l)).
    { unfold done. destruct l; reflexivity. }
    rewrite D. cbn [bind]. rewrite set_ok by exact Lt. cbn [bind].
    destruct (IH ls' (upd_nat heap h (after l)) (fin || is_nil l)) as (heap' & E' & A' & U).
    { now apply holds_other. }
    exists heap'. rewrite E'. rewrite orb_assoc. split; [reflexivity|].
    destruct U as [UL U]. rewrite upd_nat_length in UL. split.
    + constructor; [|exact A']. rewrite U by exact N. now apply upd_same.
    + split; [exact UL|]. intros j Hj. rewrite U by (intros Hin; apply Hj; now right).
      apply upd_other. intros ->. apply Hj. now left.
Qed.

Lemma zip_values_ok {A} (hs : list nat) (ls : list (list A)) heap d :
  after_all heap hs ls -> existsb is_nil ls = false ->
  zip_values heap hs = Ok (map (fun l => nth 0 l d) ls) /\ holds heap hs (map (@tl A) ls).
Proof.
  intros H. induction H as [|h l hs ls E F IH]; intros Hn; simpl in *.
  - split; [reflexivity|constructor].
  - apply orb_false_iff in Hn. destruct Hn as [Hl Hn]. destruct (IH Hn) as [E1 E2].
    destruct l as [|x l]; [discriminate|]. rewrite (get_nth_error _ _ _ E). simpl.
    rewrite E1. simpl. split; [reflexivity|]. constructor; [|exact E2].
    eauto.
Qed.

Lemma zip_destroy_ok {A} (hs : list nat) (ls : list (list A)) heap :
  NoDup hs -> after_all heap hs ls ->
  exists heap', zip_destroy heap hs = Ok heap' /\
    Forall (fun h => nth_error heap' h = Some Des) hs /\ untouched heap heap' hs.
Proof.
  intros ND. revert ls heap. induction ND as [|h hs N ND IH]; intros ls heap H.
  - exists heap. repeat split; constructor.
  - inversion H as [|? l ? ls' E F]. subst. simpl. rewrite (get_nth_error _ _ _ E).
    pose proof (nth_error_lt _ _ _ E) as Lt.
    assert (D : destroy (after l) = Ok Des) by (destruct l; reflexivity).
    cbn [bind]. rewrite D. cbn [bind]. rewrite set_ok by exact Lt. cbn [bind].
    destruct (IH ls' (upd_nat heap h Des)) as (heap' & E' & A' & UL & U).
    { now apply after_other. }
    exists heap'. split; [exact E'|]. rewrite upd_nat_length in UL. split.
    + constructor; [|exact A']. rewrite U by exact N. now apply upd_same.
    + split; [exact UL|]. intros j Hj. rewrite U by (intros Hin; apply Hj; now right).
      apply upd_other. intros ->. apply Hj. now left.
Qed.

Lemma shortest_nil {A} (ls : list (list A)) :
  existsb is_nil ls = true -> shortest ls = 0.
Proof.
  induction ls as [|l ls IH]; [discriminate|]. simpl. intros H.
  destruct l as [|x l].
  - destruct ls; reflexivity.
  - simpl in H. specialize (IH H). destruct ls as [|l' ls]; [discriminate|]. rewrite IH. lia.
Qed.

Lemma shortest_tl {A} (ls : list (list A)) :
  ls <> [] -> existsb is_nil ls = false -> shortest ls = S (shortest (map (@tl A) ls)).
Proof.
  induction ls as [|l ls IH]; [congruence|]. intros _ H. simpl in H.
  apply orb_false_iff in H. destruct H as [Hl H]. destruct l as [|x l]; [discriminate|].
  destruct ls as [|l' ls]; [reflexivity|].
  specialize (IH ltac:(discriminate) H).
  change (shortest ((x :: l) :: l' :: ls)) with (Nat.min (S (length l)) (shortest (l' :: ls))).
  rewrite IH. simpl map. reflexivity.
Qed.

Lemma zip_rounds_ok {A} d fuel (hs : list nat) (ls : list (list A)) heap :
  NoDup hs -> hs <> [] -> holds heap hs ls -> shortest ls < fuel ->
  exists heap',
    zip_rounds fuel heap hs =
      Ok (map (fun j => map (fun l => nth j l d) ls) (seq 0 (shortest ls)), heap') /\
    Forall (fun h => nth_error heap' h = Some Des) hs /\ untouched heap heap' hs.
Proof.
  intros ND Hne. revert ls heap. induction fuel as [|fuel IH]; intros ls heap H Hf; [lia|].
  simpl. destruct (zip_resume_ok hs ls heap false ND H) as (h1 & E1 & A1 & U1).
  rewrite E1. cbn [bind]. simpl orb.
  destruct (existsb is_nil ls) eqn:Hn.
  - destruct (zip_destroy_ok hs ls h1 ND A1) as (h2 & E2 & A2 & U2).
    rewrite E2. cbn [bind]. exists h2. rewrite (shortest_nil ls Hn). split; [reflexivity|].
    split; [exact A2|]. destruct U1 as [L1 U1], U2 as [L2 U2]. split; [congruence|].
    intros j Hj. rewrite U2, U1 by exact Hj. reflexivity.
  - destruct (zip_values_ok hs ls h1 d A1 Hn) as [E2 H2]. rewrite E2. cbn [bind].
    assert (Hls : ls <> []).
    { intros ->. inversion H. subst. congruence. }
    rewrite (shortest_tl ls Hls Hn) in *.
    destruct (IH (map (@tl A) ls) h1 H2 ltac:(lia)) as (h3 & E3 & A3 & U3).
    rewrite E3. cbn [bind]. exists h3. split.
    + f_equal. f_equal. simpl seq. simpl map. f_equal. rewrite <- seq_shift, map_map.
      apply map_ext. intros j. rewrite map_map. apply map_ext_in. intros l Hl.
      destruct l; [destruct j; reflexivity|reflexivity].
    + split; [exact A3|]. destruct U1 as [L1 U1], U3 as [L2 U2]. split; [congruence|].
      intros j Hj. rewrite U2, U1 by exact Hj. reflexivity.
Qed.

(** [zip2] is [zip] of two generators. *)
Lemma zip2_is_zip {A} fuel (a b : gen A) rows a' b' :
  zip2 a b = Ok (rows, a', b') -> length rows < fuel ->
  zip fuel [a; b] [0; 1] = Ok (map (fun p => [fst p; snd p]) rows, [a'; b']).
Proof.
  unfold zip2, zip. destruct a as [ca la| |]; try discriminate. destruct b as [cb lb| |]; try discriminate.
  intros H. injection H as <- <- <-. revert fuel ca cb lb.
  induction la as [|x la IH]; intros fuel ca cb lb Hf; (destruct fuel as [|fuel]; [simpl in Hf; lia|]).
  - destruct lb; reflexivity.
  - destruct lb as [|y lb]; [reflexivity|]. simpl in Hf.
    specialize (IH fuel (Some x) (Some y) lb ltac:(lia)).
    cbn in *. rewrite IH. reflexivity.
Qed.

(** The same generator twice. *)
Lemma zip_twice {A} fuel (l : list A) heap h c :
  nth_error heap h = Some (Sus c l) -> length l < fuel ->
  zip_rounds fuel heap [h; h] = Undef.
Proof.
  revert fuel heap c. induction l as [l IH] using (well_founded_induction (Wf_nat.well_founded_ltof _ (@length A))).
  intros fuel heap c E Hf. destruct fuel as [|fuel]; [lia|]. simpl.
  pose proof (nth_error_lt _ _ _ E) as Lt.
  rewrite (get_nth_error _ _ _ E). cbn [bind].
  assert (D : forall c (l : list A), done (Sus c l) = Ok (is_nil l, after l)).
  { clear. intros c [|x l]; reflexivity. }
  rewrite D. cbn [bind]. rewrite set_ok by exact Lt. cbn [bind].
  rewrite (get_nth_error _ _ (after l)) by (now apply upd_same). cbn [bind].
  destruct l as [|x l]; [reflexivity|]. simpl after. rewrite D. cbn [bind].
  rewrite set_ok by (rewrite upd_nat_length; exact Lt). cbn [bind].
  set (heap2 := upd_nat (upd_nat heap h (Sus (Some x) l)) h (after l)).
  assert (L2 : h < length heap2) by (unfold heap2; rewrite !upd_nat_length; exact Lt).
  assert (E2 : nth_error heap2 h = Some (after l)).
  { unfold heap2. apply upd_same. now rewrite upd_nat_length. }
  destruct l as [|y l]; simpl.
  - rewrite (get_nth_error _ _ _ E2). simpl. rewrite set_ok by exact L2. simpl.
    rewrite (get_nth_error _ _ Des) by (now apply upd_same). reflexivity.
  - simpl in E2. rewrite (get_nth_error _ _ _ E2). simpl.
    rewrite (IH l) with (c := Some y); [reflexivity| |exact E2|simpl in Hf; lia].
    unfold ltof. simpl. lia.
Qed.

(** ** zip_longest *)

Lemma nth_tl {A} (l : list A) j d : nth j (tl l) d = nth (S j) l d.
Proof. destruct l; [destruct j; reflexivity|reflexivity]. Qed.

(** The second iterable, when [j] of its values were taken. *)
Lemma zl2_first_ok {A B} (fa : A) (fb : B) ra rb b bd :
  (bd = true /\ b = Fin /\ rb = [] \/ bd = false /\ exists c, b = Sus c rb) ->
  exists b' bd',
    zl2_first fa fb ra b bd =
      Ok (map (fun i => (nth i ra fa, nth i rb fb)) (seq 0 (length ra)), b', bd') /\
    (bd' = true /\ b' = Fin /\ length rb <= length ra \/
     bd' = false /\ exists c, b' = Sus c (skipn (length ra) rb)).
Proof.
  revert rb b bd. induction ra as [|x ra IH]; intros rb b bd H.
  - exists b, bd. split; [reflexivity|]. destruct H as [(-> & -> & ->)|(-> & c & ->)].
    + left. auto.
    + right. simpl. eauto.
  - simpl.
    destruct H as [(-> & -> & ->)|(-> & c & ->)].
    + simpl. destruct (IH [] Fin true) as (b' & bd' & E & H'); [left; auto|].
      rewrite E. simpl. exists b', bd'. split.
      * do 3 f_equal. f_equal. rewrite <- seq_shift, map_map. apply map_ext. intros i.
        now destruct i.
      * destruct H' as [(-> & -> & L)|(-> & c & ->)]; [left; simpl; auto with arith|].
        right. split; [reflexivity|]. rewrite skipn_nil in *. eauto.
    + destruct rb as [|y rb]; simpl.
      * destruct (IH [] Fin true) as (b' & bd' & E & H'); [left; auto|].
        rewrite E. simpl. exists b', bd'. split.
        -- do 3 f_equal. f_equal. rewrite <- seq_shift, map_map. apply map_ext. intros i.
           now destruct i.
        -- destruct H' as [(-> & -> & L)|(-> & c' & ->)]; [left; simpl; auto with arith|].
           right. split; [reflexivity|]. rewrite skipn_nil in *. eauto.
      * destruct (IH rb (Sus (Some y) rb) false) as (b' & bd' & E & H'); [right; eauto|].
        rewrite E. simpl. exists b', bd'. split.
        -- do 3 f_equal. f_equal. rewrite <- seq_shift, map_map. reflexivity.
        -- destruct H' as [(-> & -> & L)|(-> & c' & ->)]; [left; simpl; auto with arith|].
           right. eauto.
Qed.

Lemma zip_longest2_ok {A B} (fa : A) (fb : B) ca la cb lb :
  zip_longest2 fa fb (Sus ca la) (Sus cb lb) =
  Ok (map (fun i => (nth i la fa, nth i lb fb)) (seq 0 (Nat.max (length la) (length lb))), Des, Des).
Proof.
  unfold zip_longest2.
  destruct (zl2_first_ok fa fb la lb (Sus cb lb) false) as (b' & bd' & E & H); [right; eauto|].
  rewrite E. cbn [bind]. destruct H as [(-> & -> & L)|(-> & c & ->)].
  - simpl. rewrite app_nil_r. replace (Nat.max (length la) (length lb)) with (length la) by lia.
    reflexivity.
  - simpl. f_equal. f_equal. f_equal.
    replace (Nat.max (length la) (length lb)) with (length la + (length lb - length la)) by lia.
    rewrite seq_app, map_app. f_equal. simpl.
    rewrite <- (skipn_length (length la) lb).
    assert (G : forall r k, (forall j, nth (k + j) lb fb = nth j r fb) -> length la <= k ->
      map (fun y => (fa, y)) r = map (fun i => (nth i la fa, nth i lb fb)) (seq k (length r))).
    { induction r as [|y r IH]; intros k Hk Lk; [reflexivity|]. simpl. f_equal.
      - f_equal; [now rewrite nth_overflow|]. specialize (Hk 0). rewrite Nat.add_0_r in Hk. now rewrite Hk.
      - apply IH; [|lia]. intros j. specialize (Hk (S j)). rewrite Nat.add_succ_r in Hk. exact Hk. }
    apply G; [|lia]. intros j. now rewrite nth_skipn.
Qed.

(** Any number of iterables: the state of one after [j] rounds. *)
Definition at_round {A} (j : nat) (l : list A) (g : gen A) : Prop :=
  if j <=? length l then exists c, g = Sus c (skipn j l) else g = Fin.

Definition going {A} (j : nat) (ls : list (list A)) : nat :=
  length (filter (fun l => j <=? length l) ls).

Lemma skipn_S_cons {A} (l : list A) j x r : skipn j l = x :: r -> skipn (S j) l = r /\ j < length l.
Proof.
  revert j. induction l as [|a l IH]; intros j H; [rewrite skipn_nil in H; discriminate|].
  destruct j as [|j]; simpl in *.
  - injection H as -> ->. split; [reflexivity|lia].
  - destruct (IH j H) as [E L]. split; [exact E|lia].
Qed.

Lemma skipn_nil_len {A} (l : list A) j : j <= length l -> skipn j l = [] -> length l = j.
Proof. intros L H. pose proof (skipn_length j l) as E. rewrite H in E. simpl in E. lia. Qed.

Lemma skipn_hd_nth {A} (l : list A) j x r d : skipn j l = x :: r -> nth j l d = x.
Proof.
  intros H. pose proof (nth_skipn d l j 0) as E. rewrite H, Nat.add_0_r in E. simpl in E. auto.
Qed.

Lemma zl_round_ok {A} (fill : A) j ls its n :
  Forall2 (at_round j) ls its ->
  (n + going (S j) ls = 0 /\ 0 < going j ls -> zl_round fill its (n + going j ls) = Ok None) /\
  (0 < n + going (S j) ls \/ going j ls = 0 ->
   exists its', zl_round fill its (n + going j ls) =
     Ok (Some (map (fun l => nth j l fill) ls, its', n + going (S j) ls)) /\
     Forall2 (at_round (S j)) ls its').
Proof.
  intros H. revert n. induction H as [|l g ls its Hg F IH]; intros n.
  - split; [intros [_ H]; unfold going in H; simpl in H; lia|]. intros _. exists []. split; [|constructor].
    unfold going. simpl. reflexivity.
  - unfold going. cbn [filter]. unfold at_round in Hg.
    destruct (Nat.leb_spec j (length l)) as [L|L].
    + destruct Hg as (c & ->). simpl zl_round. cbn [is_done bind].
      destruct (skipn j l) as [|x r] eqn:Es.
      * apply skipn_nil_len in Es; [|exact L].
        destruct (Nat.leb_spec (S j) (length l)); [lia|].
        unfold done. cbn [resume bind is_done]. cbn [length].
        replace (n + S (length (filter (fun l0 : list A => j <=? length l0) ls)) - 1)
          with (n + going j ls) by (unfold going; lia).
        fold (going j ls). fold (going (S j) ls).
        destruct (Nat.eqb_spec (n + going j ls) 0) as [Z|Z].
        -- split; [reflexivity|]. intros [P|P]; [|lia].
           exfalso. assert (going (S j) ls <= going j ls).
           { unfold going. clear. induction ls as [|l ls IH]; cbn [filter length]; [lia|].
             destruct (Nat.leb_spec (S j) (length l)); destruct (Nat.leb_spec j (length l)); cbn [length]; lia. }
           lia.
        -- destruct (IH n) as [I1 I2]. split.
           ++ intros [P1 P2]. rewrite I1; [reflexivity|]. lia.
           ++ intros P. destruct I2 as (its' & E & F'); [lia|].
              rewrite E. cbn [bind]. exists (Fin :: its'). split.
              ** simpl. rewrite (nth_overflow l) by lia. reflexivity.
              ** constructor; [|exact F']. unfold at_round.
                 destruct (Nat.leb_spec (S j) (length l)); [lia|reflexivity].
      * destruct (skipn_S_cons _ _ _ _ Es) as [E1 L1].
        destruct (Nat.leb_spec (S j) (length l)); [|lia].
        unfold done. cbn [resume bind is_done next]. cbn [length].
        destruct (IH (S n)) as [_ I2]. fold (going j ls). fold (going (S j) ls).
        replace (n + S (going j ls)) with (S n + going j ls) by lia.
        replace (n + S (going (S j) ls)) with (S n + going (S j) ls) by lia.
        split; [lia|]. intros _. destruct I2 as (its' & E & F'); [lia|].
        rewrite E. cbn [bind]. exists (Sus (Some x) r :: its'). split.
        -- simpl map. rewrite (skipn_hd_nth l j x r fill Es). reflexivity.
        -- constructor; [|exact F']. unfold at_round.
           destruct (Nat.leb_spec (S j) (length l)); [|lia]. rewrite E1. eauto.
    + subst g. destruct (Nat.leb_spec (S j) (length l)); [lia|].
      fold (going j ls). fold (going (S j) ls).
      simpl zl_round. cbn [is_done bind]. destruct (IH n) as [I1 I2]. split.
      * intros P. rewrite I1; [reflexivity|exact P].
      * intros P. destruct (I2 P) as (its' & E & F'). rewrite E. cbn [bind].
        exists (Fin :: its'). split.
        -- simpl map. rewrite (nth_overflow l) by lia. reflexivity.
        -- constructor; [|exact F']. unfold at_round.
           destruct (Nat.leb_spec (S j) (length l)); [lia|reflexivity].
Qed.

Lemma going_longest {A} j (ls : list (list A)) : ls <> [] -> (0 < going j ls <-> j <= longest ls).
Proof.
  induction ls as [|l ls IH]; [congruence|]. intros _. unfold going. cbn [filter].
  simpl longest. destruct (Nat.leb_spec j (length l)) as [L|L]; simpl; [lia|].
  fold (going j ls). destruct ls as [|l' ls].
  - simpl. unfold going. simpl. lia.
  - rewrite IH by discriminate. lia.
Qed.

Lemma zl_rounds_ok {A} (fill : A) ls fuel j its :
  ls <> [] -> Forall2 (at_round j) ls its -> j <= longest ls -> longest ls - j < fuel ->
  zl_rounds fuel fill its (going j ls) =
  Ok (map (fun i => map (fun l => nth i l fill) ls) (seq j (longest ls - j))).
Proof.
  intros Hne. revert j its. induction fuel as [|fuel IH]; intros j its F Hj Hf; [lia|]. simpl.
  destruct (zl_round_ok fill j ls its 0 F) as [I1 I2]. simpl in I1, I2.
  destruct (Nat.eq_dec j (longest ls)) as [->|N].
  - rewrite I1.
    + simpl. now rewrite Nat.sub_diag.
    + split; [|apply going_longest; auto].
      destruct (going (S (longest ls)) ls) eqn:E; [reflexivity|].
      pose proof (going_longest (S (longest ls)) ls Hne). lia.
  - destruct I2 as (its' & E & F'); [left; apply going_longest; auto; lia|].
    rewrite E. cbn [bind]. rewrite (IH (S j) its' F') by lia. cbn [bind].
    replace (longest ls - j) with (S (longest ls - S j)) by lia. reflexivity.
Qed.

Lemma zip_longest_fill_ok {A} (fill : A) (ls : list (option A * list A)) fuel :
  longest (map snd ls) < fuel ->
  zip_longest_fill fuel fill (map (fun cl => Sus (fst cl) (snd cl)) ls) =
  Ok (map (fun i => map (fun l => nth i l fill) (map snd ls)) (seq 0 (longest (map snd ls)))).
Proof.
  intros Hf. unfold zip_longest_fill. rewrite map_length.
  destruct ls as [|cl ls]; [reflexivity|].
  destruct (Nat.eqb_spec (length (cl :: ls)) 0); [discriminate|].
  assert (Eg : length (cl :: ls) = going 0 (map snd (cl :: ls))).
  { unfold going. rewrite <- (map_length snd). f_equal. symmetry.
    generalize (map snd (cl :: ls)). clear. induction l as [|x l IH]; [reflexivity|].
    simpl in *. now rewrite IH. }
  rewrite Eg, zl_rounds_ok with (j := 0) (ls := map snd (cl :: ls)).
  - now rewrite Nat.sub_0_r.
  - discriminate.
  - clear. induction (cl :: ls) as [|[c l] r IH]; simpl; constructor; auto.
    unfold at_round. simpl. eauto.
  - lia.
  - lia.
Qed.

(** Without a fill value. *)
Lemma get_next_ok {A V} (lift : A -> option V) j l g :
  at_round j l g ->
  exists g', get_next lift g = Ok (match nth_error l j with Some x => lift x | None => None end, g') /\
    at_round (S j) l g'.
Proof.
  unfold at_round, get_next. intros H. destruct (Nat.leb_spec j (length l)) as [L|L].
  - destruct H as (c & ->). cbn [is_done bind]. unfold done.
    destruct (skipn j l) as [|x r] eqn:Es.
    + apply skipn_nil_len in Es; [|exact L]. cbn [resume bind is_done].
      exists Fin. destruct (Nat.leb_spec (S j) (length l)); [lia|].
      rewrite (proj2 (nth_error_None l j)) by lia. auto.
    + destruct (skipn_S_cons _ _ _ _ Es) as [E1 L1]. cbn [resume bind is_done next].
      exists (Sus (Some x) r). destruct (Nat.leb_spec (S j) (length l)); [|lia].
      rewrite (nth_error_nth' l x) by lia. rewrite (skipn_hd_nth _ _ _ _ x Es).
      split; [reflexivity|]. rewrite E1. eauto.
  - subst g. cbn [is_done bind]. exists Fin.
    destruct (Nat.leb_spec (S j) (length l)); [lia|].
    rewrite (proj2 (nth_error_None l j)) by lia. auto.
Qed.

Lemma get_nexts_ok {A V} (lift : A -> option V) j ls its :
  Forall2 (at_round j) ls its ->
  exists its', get_nexts lift its =
    Ok (map (fun l => match nth_error l j with Some x => lift x | None => None end) ls, its') /\
    Forall2 (at_round (S j)) ls its'.
Proof.
  induction 1 as [|l g ls its Hg F IH]; simpl; [eexists; split; [reflexivity|constructor]|].
  destruct (get_next_ok lift j l g Hg) as (g' & E & H'). rewrite E. cbn [bind].
  destruct IH as (its' & E' & F'). rewrite E'. cbn [bind]. eexists. split; [reflexivity|].
  now constructor.
Qed.

Lemma zip_longest_rounds {A V} (lift : A -> option V) ls fuel j its :
  (forall x, lift x <> None) ->
  Forall2 (at_round j) ls its -> j <= longest ls -> longest ls - j < fuel ->
  zip_longest fuel lift its =
  Ok (map (fun i => map (fun l => match nth_error l i with Some x => lift x | None => None end) ls)
          (seq j (longest ls - j))).
Proof.
  intros HL. revert j its. induction fuel as [|fuel IH]; intros j its F Hj Hf; [lia|]. simpl.
  destruct (get_nexts_ok lift j ls its F) as (its' & E & F'). rewrite E. cbn [bind].
  set (row := map _ ls).
  assert (HR : forallb (fun a : option V => match a with Some _ => false | None => true end) row
               = (longest ls <=? j)).
  { unfold row. clear -HL. induction ls as [|l ls IH]; [reflexivity|]. simpl. rewrite IH. clear IH.
    destruct (nth_error l j) as [x|] eqn:En.
    - pose proof (nth_error_lt _ _ _ En). specialize (HL x). destruct (lift x); [|congruence].
      simpl. symmetry. apply Nat.leb_gt. lia.
    - apply nth_error_None in En. simpl.
      destruct (Nat.leb_spec (longest ls) j); symmetry; [apply Nat.leb_le|apply Nat.leb_gt]; lia. }
  rewrite HR. destruct (Nat.leb_spec (longest ls) j) as [L|L].
  - replace (longest ls - j) with 0 by lia. reflexivity.
  - rewrite (IH (S j) its' F') by lia. cbn [bind].
    replace (longest ls - j) with (S (longest ls - S j)) by lia. reflexivity.
Qed.

Lemma zip_longest_ok {A V} (lift : A -> option V) (ls : list (option A * list A)) fuel :
  (forall x, lift x <> None) -> longest (map snd ls) < fuel ->
  zip_longest fuel lift (map (fun cl => Sus (fst cl) (snd cl)) ls) =
  Ok (map (fun i => map (fun l => match nth_error l i with Some x => lift x | None => None end)
                        (map snd ls)) (seq 0 (longest (map snd ls)))).
Proof.
  intros HL Hf. rewrite (zip_longest_rounds lift (map snd ls) fuel 0); auto; try lia.
  - now rewrite Nat.sub_0_r.
  - clear. induction ls as [|[c l] r IH]; simpl; constructor; auto.
    unfold at_round. simpl. eauto.
Qed.

(** ** tee *)

Section Tee.
Context {A : Type} (l : list A) (n : nat).

(** [cnt i]: how often copy [i] was advanced; [m]: how far the source was read. *)
Record tinv (cnt : nat -> nat) (m : nat) (t : tees A) : Prop := {
  ti_m : m <= length l;
  ti_src : (exists c, tee_src t = Sus c (skipn m l)) \/ (tee_src t = Fin /\ m = length l);
  ti_ret : length (tee_returned t) = n;
  ti_dq : length (tee_deques t) = n;
  ti_each : forall i, i < n ->
    nth_error (tee_returned t) i = Some (length l <? cnt i) /\
    (cnt i <= length l -> cnt i <= m /\
       nth_error (tee_deques t) i = Some (firstn (m - cnt i) (skipn (cnt i) l))) /\
    (length l < cnt i -> nth_error (tee_deques t) i = Some [] /\ m = length l)
}.

Definition bump (cnt : nat -> nat) (i : nat) : nat -> nat :=
  fun j => if Nat.eqb j i then S (cnt j) else cnt j.

Lemma skipn_cons_at (k : nat) x : nth_error l k = Some x -> skipn k l = x :: skipn (S k) l.
Proof.
  clear. revert k. induction l as [|a l' IH]; intros k H; [destruct k; discriminate|].
  destruct k as [|k]; simpl in *; [congruence|]. now apply IH.
Qed.

Lemma map_nth_error' {B C} (f : B -> C) (ls : list B) i x :
  nth_error ls i = Some x -> nth_error (map f ls) i = Some (f x).
Proof. apply map_nth_error. Qed.

Lemma tee_step cnt m t i :
  tinv cnt m t -> i < n -> cnt i <= length l ->
  exists t' m', tee_next t i = Ok (nth_error l (cnt i), t') /\ tinv (bump cnt i) m' t'.
Proof.
  intros I Hi Hc. destruct (ti_each _ _ _ I i Hi) as (Er & Ed & _).
  destruct (Ed Hc) as (Hm & Eq). clear Ed.
  unfold tee_next. rewrite (get_nth_error _ _ _ Er). cbn [bind].
  destruct (Nat.ltb_spec (length l) (cnt i)); [lia|].
  rewrite (get_nth_error _ _ _ Eq). cbn [bind].
  pose proof (ti_m _ _ _ I) as ML.
  destruct (Nat.eq_dec (cnt i) m) as [Em|Em].
  - rewrite Em, Nat.sub_diag. cbn [firstn].
    (* an empty deque: read the source *)
    destruct (nth_error l m) as [x|] eqn:En.
    + pose proof (nth_error_lt _ _ _ En) as Lm.
      destruct (ti_src _ _ _ I) as [(c & Es)|(Es & E)]; [|lia].
      rewrite Es. cbn [is_done bind]. rewrite (skipn_cons_at m x En). cbn [resume bind is_done next].
      set (ds := map (fun d => d ++ [x]) (tee_deques t)).
      assert (Ei : nth_error ds i = Some [x]).
      { unfold ds. rewrite (map_nth_error' _ _ _ _ Eq). rewrite Em, Nat.sub_diag. reflexivity. }
      rewrite (get_nth_error _ _ _ Ei). cbn [bind].
      assert (Lds : length ds = n) by (unfold ds; rewrite map_length; apply (ti_dq _ _ _ I)).
      rewrite set_ok by lia. cbn [bind].
      eexists _, (S m). split; [reflexivity|]. constructor; cbn [tee_src tee_deques tee_returned].
      * lia.
      * left. eauto.
      * apply (ti_ret _ _ _ I).
      * now rewrite upd_nat_length.
      * intros j Hj. destruct (ti_each _ _ _ I j Hj) as (Fr & Fd & Fe). unfold bump.
        destruct (Nat.eqb_spec j i) as [->|Nj].
        -- split; [|split].
           ++ rewrite Er. f_equal. destruct (Nat.ltb_spec (length l) (cnt i)), (Nat.ltb_spec (length l) (S (cnt i))); auto; lia.
           ++ intros _. split; [lia|]. rewrite upd_same by lia. rewrite Em, Nat.sub_diag. reflexivity.
           ++ lia.
        -- split; [exact Fr|]. rewrite upd_other by congruence. split.
           ++ intros Hj'. destruct (Fd Hj') as (Hm' & Eq'). split; [lia|].
              unfold ds. rewrite (map_nth_error' _ _ _ _ Eq'). f_equal.
              replace (S m - cnt j) with (S (m - cnt j)) by lia.
              assert (En' : nth_error (skipn (cnt j) l) (m - cnt j) = Some x).
              { clear -En Hm'. revert En Hm'. generalize (cnt j) as k. intros k. revert m.
                induction k as [|k IHk] in l |- *; intros m En H; [now rewrite Nat.sub_0_r|].
                destruct l as [|a l']; [destruct m; discriminate|].
                destruct m as [|m]; [lia|]. simpl. apply IHk; [exact En|lia]. }
              clear -En'. revert En'. generalize (skipn (cnt j) l) as s, (m - cnt j) as k.
              induction s as [|a s IH]; intros k En'; [destruct k; discriminate|].
              destruct k as [|k]; simpl in *; [congruence|]. f_equal. now apply IH.
           ++ intros Hj'. destruct (Fe Hj') as (Eq' & E). lia.
    + apply nth_error_None in En. assert (m = length l) by lia.
      assert (HR : forall c', (exists c, c' = Sus c (skipn m l)) \/ c' = Fin ->
        exists t' m',
          (rs <- set (tee_returned t) i true;; Ok (None, Tees c' (tee_deques t) rs))%res = Ok (@None A, t') /\
          tinv (bump cnt i) m' t').
      { intros c' Hc'. rewrite set_ok by (rewrite (ti_ret _ _ _ I); exact Hi). cbn [bind].
        eexists _, m. split; [reflexivity|]. constructor; cbn [tee_src tee_deques tee_returned].
        - lia.
        - destruct Hc' as [?|?]; auto.
        - rewrite upd_nat_length. apply (ti_ret _ _ _ I).
        - apply (ti_dq _ _ _ I).
        - intros j Hj. destruct (ti_each _ _ _ I j Hj) as (Fr & Fd & Fe). unfold bump.
          destruct (Nat.eqb_spec j i) as [->|Nj].
          + split; [|split].
            * rewrite upd_same by (rewrite (ti_ret _ _ _ I); exact Hi). f_equal. symmetry.
              apply Nat.ltb_lt. lia.
            * lia.
            * intros _. split; [|lia]. rewrite Eq, Em, Nat.sub_diag. reflexivity.
          + rewrite upd_other by congruence. auto. }
      destruct (ti_src _ _ _ I) as [(c & Es)|(Es & _)].
      * rewrite Es. cbn [is_done bind]. rewrite (skipn_all2 l) by lia. cbn [resume bind is_done].
        apply HR. now right.
      * rewrite Es. cbn [is_done bind]. apply HR. now right.
  - (* something is queued *)
    destruct (nth_error l (cnt i)) as [x|] eqn:En; [|apply nth_error_None in En; lia].
    rewrite (skipn_cons_at _ x En).
    replace (m - cnt i) with (S (m - S (cnt i))) by lia. cbn [firstn].
    rewrite set_ok by (rewrite (ti_dq _ _ _ I); exact Hi). cbn [bind].
    pose proof (nth_error_lt _ _ _ En) as Lc.
    eexists _, m. split; [reflexivity|]. constructor; cbn [tee_src tee_deques tee_returned].
    + exact ML.
    + apply (ti_src _ _ _ I).
    + apply (ti_ret _ _ _ I).
    + rewrite upd_nat_length. apply (ti_dq _ _ _ I).
    + intros j Hj. destruct (ti_each _ _ _ I j Hj) as (Fr & Fd & Fe). unfold bump.
      destruct (Nat.eqb_spec j i) as [->|Nj].
      * split; [|split].
        -- rewrite Er. f_equal. destruct (Nat.ltb_spec (length l) (cnt i)), (Nat.ltb_spec (length l) (S (cnt i))); auto; lia.
        -- intros _. split; [lia|]. rewrite upd_same by (rewrite (ti_dq _ _ _ I); exact Hi). reflexivity.
        -- lia.
      * split; [exact Fr|]. rewrite upd_other by congruence. auto.
Qed.

Lemma tee_run_inv sched cnt m t :
  tinv cnt m t -> (forall i, In i sched -> i < n) ->
  (forall i, i < n -> cnt i + count_occ Nat.eq_dec sched i <= S (length l)) ->
  exists t', tee_run t sched =
    Ok (map (fun p => let i := nth p sched 0 in
               (i, nth_error l (cnt i + count_occ Nat.eq_dec (firstn p sched) i)))
            (seq 0 (length sched)), t').
Proof.
  revert cnt m t. induction sched as [|i sched IH]; intros cnt m t I Hin Hc.
  - exists t. reflexivity.
  - assert (Hi : i < n) by (apply Hin; now left).
    assert (C : cnt i <= length l).
    { specialize (Hc i Hi). simpl in Hc. destruct (Nat.eq_dec i i); [lia|congruence]. }
    destruct (tee_step cnt m t i I Hi C) as (t' & m' & E & I').
    destruct (IH (bump cnt i) m' t' I') as (t'' & E').
    + intros j Hj. apply Hin. now right.
    + intros j Hj. specialize (Hc j Hj). simpl in Hc. unfold bump.
      destruct (Nat.eq_dec i j); destruct (Nat.eqb_spec j i); subst; try congruence; lia.
    + exists t''. simpl tee_run. rewrite E. cbn [bind]. rewrite E'. cbn [bind].
      f_equal. f_equal. simpl seq. simpl map. rewrite Nat.add_0_r. f_equal.
      rewrite <- seq_shift, map_map. apply map_ext. intros p. cbn zeta.
      simpl nth. simpl firstn. simpl count_occ. unfold bump.
      destruct (Nat.eq_dec i (nth p sched 0)) as [Ej|Ej];
        destruct (Nat.eqb_spec (nth p sched 0) i); try congruence.
      f_equal. f_equal. lia.
Qed.
End Tee.

Lemma tee_ok {A} c (l : list A) n sched :
  (forall i, In i sched -> i < n) ->
  (forall i, count_occ Nat.eq_dec sched i <= S (length l)) ->
  exists t', tee_run (tee (Sus c l) n) sched = Ok (tee_trace l sched, t').
Proof.
  intros H1 H2.
  destruct (tee_run_inv l n sched (fun _ => 0) 0 (tee (Sus c l) n)) as (t' & E).
  - constructor; simpl.
    + lia.
    + left. eauto.
    + apply repeat_length.
    + apply repeat_length.
    + intros i Hi. split; [|split].
      * rewrite nth_error_repeat by exact Hi. reflexivity.
      * intros _. split; [lia|]. rewrite nth_error_repeat by exact Hi. reflexivity.
      * lia.
  - exact H1.
  - intros i _. simpl. apply H2.
  - exists t'. exact E.
Qed.
