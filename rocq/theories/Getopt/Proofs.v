(** Proofs about the reading of command lines. *)
From Coq Require Import List ZArith Bool Lia.
From Verif.Common Require Import Result.
From Verif.Getopt Require Import Spec Model.
Import ListNotations.
Local Open Scope Z_scope.
Local Open Scope res_scope.

Lemma eqt_spec a : forall b, eqt a b = true <-> a = b.
Proof.
  induction a as [|x a IH]; intros [|y b]; cbn [eqt]; split; intros H; try reflexivity; try discriminate.
  - apply andb_prop in H as [A B]. apply Z.eqb_eq in A. apply IH in B. now subst.
  - inversion H; subst. rewrite Z.eqb_refl. cbn [andb]. now apply IH.
Qed.

Lemma eqt_no a b : eqt a b = false <-> a <> b.
Proof. rewrite <- not_true_iff_false, eqt_spec. reflexivity. Qed.

Lemma mem_spec a l : mem a l = true <-> In a l.
Proof.
  unfold mem. rewrite existsb_exists. split.
  - intros (x & I & E). apply eqt_spec in E. now subst.
  - intros I. exists a. split; [exact I|now apply eqt_spec].
Qed.

Lemma mem_no a l : mem a l = false <-> ~ In a l.
Proof. rewrite <- not_true_iff_false, mem_spec. reflexivity. Qed.

Lemma startswith_spec p : forall s, startswith s p = true <-> prefix p s.
Proof.
  induction p as [|x p IH]; intros s.
  - destruct s; cbn; (split; [intros _; now eexists|reflexivity]).
  - destruct s as [|y s]; cbn [startswith].
    + split; [discriminate|]. intros [r E]. discriminate.
    + split; intros H.
      * apply andb_prop in H as [A B]. apply Z.eqb_eq in A. subst. apply IH in B as [r ->]. now exists r.
      * destruct H as [r E]. inversion E; subst. rewrite Z.eqb_refl. cbn [andb]. apply IH. now exists r.
Qed.

Lemma startswith_no p s : startswith s p = false <-> ~ prefix p s.
Proof. rewrite <- not_true_iff_false, startswith_spec. reflexivity. Qed.

Lemma cut_eq_some s : forall a b, cut_eq s = Some (a, b) <-> s = a ++ 61 :: b /\ ~ In 61 a.
Proof.
  induction s as [|c s IH]; intros a b; cbn [cut_eq].
  - split; [discriminate|]. intros [E _]. now destruct a.
  - destruct (Z.eqb_spec c 61) as [->|N].
    + split.
      * intros X; inversion X; subst. split; [reflexivity|intros []].
      * intros [E I]. destruct a as [|x a]; [now inversion E|]. inversion E; subst. destruct I. now left.
    + destruct (cut_eq s) as [[a' b']|] eqn:C.
      * split.
        -- intros X; inversion X; subst. destruct (proj1 (IH _ _) eq_refl) as [-> I]. split; [reflexivity|].
           intros [F|F]; [congruence|now apply I].
        -- intros [E I]. destruct a as [|x a]; [inversion E; congruence|]. inversion E; subst.
           assert (X : Some (a', b') = Some (a, b)) by (apply IH; split; [reflexivity|intros F; apply I; now right]).
           now inversion X.
      * split; [discriminate|]. intros [E I]. destruct a as [|x a]; [inversion E; congruence|]. inversion E; subst.
        assert (X : None = Some (a, b)) by (apply IH; split; [reflexivity|intros F; apply I; now right]). discriminate.
Qed.

Lemma cut_eq_none s : cut_eq s = None <-> ~ In 61 s.
Proof.
  split.
  - intros C I. apply in_split in I as (a & b & E).
    assert (exists a b, s = a ++ 61 :: b /\ ~ In 61 a) as (a' & b' & P).
    { clear C. revert a b E. induction s as [|c s IH]; intros a b E; [now destruct a|].
      destruct (Z.eqb_spec c 61) as [->|N]; [exists [], s; split; [reflexivity|intros []]|].
      destruct a as [|x a]; [inversion E; congruence|]. inversion E; subst.
      destruct (IH _ _ eq_refl) as (a' & b' & E' & I'). exists (x :: a'), b'. split; [now rewrite E'|].
      intros [F|F]; [congruence|now apply I']. }
    apply cut_eq_some in P. congruence.
  - intros N. destruct (cut_eq s) as [[a b]|] eqn:C; [|reflexivity]. apply cut_eq_some in C as [-> _].
    destruct N. apply in_or_app. right. now left.
Qed.

Lemma short_spec c shorts : forall takes, short_has_arg c shorts = Ok takes <-> short_option shorts c takes.
Proof.
  induction shorts as [|x r IH]; intros takes; cbn [short_has_arg].
  - split; [discriminate|]. intros (_ & b & a & E & _). now destruct b.
  - destruct ((c =? x) && negb (x =? 58)) eqn:G.
    + apply andb_prop in G as [G1 G2]. apply Z.eqb_eq in G1. subst x. apply negb_true_iff, Z.eqb_neq in G2. split.
      * intros X. inversion X; subst. split; [exact G2|]. exists [], r. split; [reflexivity|]. split; [intros []|].
        apply startswith_spec.
      * intros (_ & b & a & E & I & P). destruct b as [|y b]; [|inversion E; subst; destruct I; now left].
        inversion E; subst. f_equal. destruct takes.
        -- apply startswith_spec. now apply P.
        -- apply startswith_no. intros Q. apply P in Q. discriminate.
    + rewrite IH. split.
      * intros (N & b & a & -> & I & P). split; [exact N|]. exists (x :: b), a. split; [reflexivity|]. split; [|exact P].
        intros [F|F]; [|now apply I]. subst x. rewrite Z.eqb_refl in G. cbn [andb] in G.
        apply negb_false_iff, Z.eqb_eq in G. congruence.
      * intros (N & b & a & E & I & P). destruct b as [|y b].
        -- inversion E; subst. rewrite Z.eqb_refl in G. cbn [andb] in G. apply negb_false_iff, Z.eqb_eq in G. congruence.
        -- inversion E; subst. split; [exact N|]. exists b, a. split; [reflexivity|]. split; [|exact P].
           intros F. apply I. now right.
Qed.

Lemma short_unique shorts c a b : short_option shorts c a -> short_option shorts c b -> a = b.
Proof. intros A B. apply short_spec in A, B. congruence. Qed.

Lemma filter_unique f (l : list text) o : filter f l = [o] <->
  exists before after, l = before ++ o :: after /\ f o = true /\ Forall (fun x => f x = false) (before ++ after).
Proof.
  split.
  - induction l as [|x l IH]; cbn [filter]; [discriminate|]. destruct (f x) eqn:F.
    + intros X. inversion X; subst. exists [], l. split; [reflexivity|]. split; [exact F|]. cbn [app].
      apply Forall_forall. intros y I. destruct (f y) eqn:Fy; [|reflexivity].
      assert (I2 : In y (filter f l)) by (now apply filter_In). rewrite H1 in I2. destruct I2.
    + intros X. destruct (IH X) as (b & a & -> & Fo & A). exists (x :: b), a. split; [reflexivity|]. split; [exact Fo|].
      cbn [app]. now constructor.
  - intros (b & a & -> & Fo & A). apply Forall_app in A as [A B].
    assert (N : forall l, Forall (fun x => f x = false) l -> filter f l = []).
    { induction 1 as [|x l0 Fx _ IH]; [reflexivity|]. cbn [filter]. now rewrite Fx. }
    rewrite filter_app. cbn [filter]. rewrite Fo, !N by assumption. reflexivity.
Qed.

Lemma ends_eq (u : text) : u <> [] -> (last u 0 =? 61) = true <-> exists f, u = f ++ [61].
Proof.
  intros N. rewrite Z.eqb_eq. split.
  - intros E. exists (removelast u). rewrite <- E at 1. now apply app_removelast_last.
  - intros [f ->]. apply last_last.
Qed.

Lemma long_spec name longs full takes : long_has_args name longs = Ok (takes, full) <-> long_option longs name full takes.
Proof.
  unfold long_has_args. set (poss := filter (fun o => startswith o name) longs).
  assert (M1 : In name poss <-> In name longs).
  { unfold poss. rewrite filter_In. split; [now intros []|]. intros I. split; [exact I|]. apply startswith_spec. exists []. now rewrite app_nil_r. }
  assert (M2 : In (name ++ [61]) poss <-> In (name ++ [61]) longs).
  { unfold poss. rewrite filter_In. split; [now intros []|]. intros I. split; [exact I|]. apply startswith_spec. now exists [61]. }
  assert (MU : forall o, poss = [o] <-> exists before after, longs = before ++ o :: after /\ prefix name o /\
    Forall (fun x => ~ prefix name x) (before ++ after)).
  { intros o. unfold poss. rewrite filter_unique. split; intros (b & a & E & F & A); exists b, a; (split; [exact E|]).
    - split; [now apply startswith_spec|]. eapply Forall_impl; [|exact A]. intros x. apply startswith_no.
    - split; [now apply startswith_spec|]. eapply Forall_impl; [|exact A]. intros x. apply startswith_no. }
  clearbody poss. destruct poss as [|u others].
  - split; [discriminate|]. intros L. exfalso. inversion L as [I|N I|b o a f t N1 N2 E P A T]; subst.
    + now apply M1 in I.
    + now apply M2 in I.
    + assert (X : [] = [o]) by (apply MU; now exists b, a). discriminate.
  - destruct (mem name (u :: others)) eqn:E1.
    + apply mem_spec, M1 in E1. split.
      * intros X. inversion X; subst. now apply long_exact.
      * intros L. inversion L; subst; [reflexivity|contradiction..].
    + apply mem_no in E1. rewrite M1 in E1. destruct (mem (name ++ [61]) (u :: others)) eqn:E2.
      * apply mem_spec, M2 in E2. split.
        -- intros X. inversion X; subst. now apply long_exact_takes.
        -- intros L. inversion L; subst; [contradiction|reflexivity|contradiction].
      * apply mem_no in E2. rewrite M2 in E2. destruct others as [|v others].
        -- destruct (proj1 (MU u) eq_refl) as (b & a & E & P & A).
           assert (NU : u <> []).
           { intros ->. destruct P as [r Pr]. destruct name; [|discriminate]. apply E1. rewrite E. apply in_or_app. right. now left. }
           pose proof (ends_eq u NU) as EE. split.
           ++ intros X. inversion X; subst. apply (long_unique _ _ b u a); try assumption; [reflexivity|].
              destruct (last u 0 =? 61) eqn:LE.
              ** destruct (proj1 EE eq_refl) as [f ->]. now rewrite removelast_last.
              ** split; [reflexivity|]. intros F. apply EE in F. discriminate.
           ++ intros L. inversion L as [I|N I|b' o a' f t N1 N2 E' P' A' T]; subst; [contradiction..|].
              assert (X : [u] = [o]) by (apply MU; now exists b', a'). inversion X; subst o. destruct takes.
              ** assert (LE : (last u 0 =? 61) = true) by (apply EE; eauto). rewrite LE. rewrite T at 1. now rewrite removelast_last.
              ** destruct T as [T1 T2]. destruct (last u 0 =? 61) eqn:LE; [destruct T2; now apply EE|]. now rewrite T1.
        -- split; [discriminate|]. intros L. exfalso. inversion L as [I|N I|b' o a' f t N1 N2 E' P' A' T]; subst; [contradiction..|].
           assert (X : u :: v :: others = [o]) by (apply MU; now exists b', a'). discriminate.
Qed.

Lemma cluster_suffix shorts letters args opts args' : cluster shorts letters args opts args' -> exists pre, args = pre ++ args'.
Proof.
  induction 1 as [args|c letters args opts args' _ _ IH|c v args _ _|c v args _]; [now exists []|exact IH|now exists []|now exists [v]].
Qed.

Lemma shorts_spec shorts letters : forall opts args opts' args',
  do_shorts opts letters shorts args = Ok (opts', args') <-> exists o, opts' = opts ++ o /\ cluster shorts letters args o args'.
Proof.
  induction letters as [|c letters IH]; intros opts args opts' args'; cbn [do_shorts].
  - split.
    + intros X. inversion X; subst. exists []. split; [now rewrite app_nil_r|constructor].
    + intros (o & -> & C). inversion C; subst. now rewrite app_nil_r.
  - destruct (short_has_arg c shorts) as [takes| | |] eqn:T; cbn [bind].
    2,3,4: split; [discriminate|]; intros (o & _ & C); exfalso; inversion C; subst;
      match goal with H : short_option _ _ _ |- _ => apply short_spec in H; congruence end.
    apply short_spec in T. destruct takes.
    + destruct letters as [|l letters].
      * destruct args as [|a args].
        -- split; [discriminate|]. intros (o & _ & C). exfalso. inversion C; subst.
           ++ match goal with H : short_option _ _ false |- _ => pose proof (short_unique _ _ _ _ T H); discriminate end.
           ++ congruence.
        -- split.
           ++ intros X. inversion X; subst. eexists. split; [reflexivity|]. now constructor.
           ++ intros (o & -> & C). inversion C; subst.
              ** match goal with H : short_option _ _ false |- _ => pose proof (short_unique _ _ _ _ T H); discriminate end.
              ** congruence.
              ** reflexivity.
      * split.
        -- intros X. inversion X; subst. eexists. split; [reflexivity|]. constructor; [exact T|discriminate].
        -- intros (o & -> & C). inversion C; subst; [|reflexivity].
           match goal with H : short_option _ _ false |- _ => pose proof (short_unique _ _ _ _ T H); discriminate end.
    + rewrite IH. split.
      * intros (o & -> & C). exists (([45; c], []) :: o). rewrite <- app_assoc. split; [reflexivity|]. now constructor.
      * intros (o & -> & C). inversion C; subst.
        -- eexists. rewrite <- app_assoc. split; [reflexivity|assumption].
        -- match goal with H : short_option _ _ true |- _ => pose proof (short_unique _ _ _ _ T H); discriminate end.
        -- match goal with H : short_option _ _ true |- _ => pose proof (short_unique _ _ _ _ T H); discriminate end.
Qed.

Lemma long_none (name : text) : ~ In 61 name -> cut_eq name = None.
Proof. apply cut_eq_none. Qed.

Section Loop.
Context (first : bool) (shorts : text) (longs : list text).

Lemma loop_complete args opts rest : reads true first shorts longs args opts rest ->
  forall fuel o p, (length args < fuel)%nat ->
  getopt_loop fuel first shorts longs o p args = Ok (o ++ opts, p ++ rest).
Proof.
  induction 1 as [|args|a args F P|a args opts rest F P R IH|name full args opts rest N E L R IH|name full value args opts rest E L V R IH
    |name full value args opts rest N E L R IH|letters args args' opts opts' rest N D C R IH]; intros fuel o p FL;
    (destruct fuel as [|fuel]; [cbn in FL; lia|]); cbn [getopt_loop].
  - now rewrite !app_nil_r.
  - now rewrite app_nil_r.
  - assert (G : eqt a [45; 45] = false /\ eqt (firstn 2 a) [45; 45] = false /\ eqt (firstn 1 a) [45] && negb (eqt a [45]) = false).
    { destruct P as [->|P]; [repeat split|]. destruct a as [|x a]; [repeat split|].
      assert (x <> 45) as Nx by (intros ->; apply P; now exists a).
      rewrite !eqt_no. split; [congruence|]. split; [cbn; destruct a; congruence|]. apply andb_false_iff. left. apply eqt_no. cbn. congruence. }
    destruct G as (-> & -> & ->). rewrite F, app_nil_r. reflexivity.
  - assert (G : eqt a [45; 45] = false /\ eqt (firstn 2 a) [45; 45] = false /\ eqt (firstn 1 a) [45] && negb (eqt a [45]) = false).
    { destruct P as [->|P]; [repeat split|]. destruct a as [|x a]; [repeat split|].
      assert (x <> 45) as Nx by (intros ->; apply P; now exists a).
      rewrite !eqt_no. split; [congruence|]. split; [cbn; destruct a; congruence|]. apply andb_false_iff. left. apply eqt_no. cbn. congruence. }
    destruct G as (-> & -> & ->). rewrite F at 1. rewrite IH by (cbn in FL; lia). now rewrite <- app_assoc.
  - assert (G : eqt (45 :: 45 :: name) [45; 45] = false) by (apply eqt_no; congruence).
    rewrite G. change (eqt (firstn 2 (45 :: 45 :: name)) [45; 45]) with true. cbv iota. change (skipn 2 (45 :: 45 :: name)) with name.
    unfold do_longs. rewrite long_none by assumption. apply long_spec in L. rewrite L. cbn [bind].
    rewrite IH by (cbn in FL; lia). now rewrite <- app_assoc.
  - assert (G : eqt (45 :: 45 :: name ++ 61 :: value) [45; 45] = false) by (apply eqt_no; intros X; inversion X; now destruct name).
    rewrite G. change (eqt (firstn 2 (45 :: 45 :: name ++ 61 :: value)) [45; 45]) with true. cbv iota.
    change (skipn 2 (45 :: 45 :: name ++ 61 :: value)) with (name ++ 61 :: value).
    unfold do_longs. rewrite (proj2 (cut_eq_some _ name value)) by (split; [reflexivity|assumption]).
    apply long_spec in L. rewrite L. cbn [bind]. destruct value as [|v value]; [now destruct (V eq_refl)|]. cbn [bind].
    rewrite IH by (cbn in FL; lia). now rewrite <- app_assoc.
  - assert (G : eqt (45 :: 45 :: name) [45; 45] = false) by (apply eqt_no; congruence).
    rewrite G. change (eqt (firstn 2 (45 :: 45 :: name)) [45; 45]) with true. cbv iota. change (skipn 2 (45 :: 45 :: name)) with name.
    unfold do_longs. rewrite long_none by assumption. apply long_spec in L. rewrite L. cbn [bind].
    rewrite IH by (cbn in FL; lia). now rewrite <- app_assoc.
  - destruct letters as [|x letters]; [congruence|].
    assert (Nx : x <> 45) by (intros ->; apply D; now exists letters).
    assert (G : eqt (45 :: x :: letters) [45; 45] = false) by (apply eqt_no; congruence).
    assert (G2 : eqt (firstn 2 (45 :: x :: letters)) [45; 45] = false) by (apply eqt_no; cbn; congruence).
    assert (G3 : eqt (firstn 1 (45 :: x :: letters)) [45] && negb (eqt (45 :: x :: letters) [45]) = true).
    { reflexivity. }
    rewrite G, G2, G3. change (skipn 1 (45 :: x :: letters)) with (x :: letters).
    rewrite (proj2 (shorts_spec shorts (x :: letters) o args (o ++ opts) args')) by (exists opts; now split).
    cbn [bind]. destruct (cluster_suffix _ _ _ _ _ C) as [pre ->].
    rewrite IH by (cbn [length] in FL; rewrite app_length in FL; lia). now rewrite <- app_assoc.
Qed.

(** "--name=" and nothing after it *)
Definition bare (a : text) : Prop := exists name, a = 45 :: 45 :: name ++ [61] /\ ~ In 61 name.

Lemma loop_sound fuel : forall args o p opts rest, Forall (fun a => ~ bare a) args ->
  getopt_loop fuel first shorts longs o p args = Ok (opts, rest) ->
  exists opts' rest', opts = o ++ opts' /\ rest = p ++ rest' /\ reads true first shorts longs args opts' rest'.
Proof.
  induction fuel as [|fuel IH]; intros args o p opts rest B E; [discriminate|]. cbn [getopt_loop] in E.
  destruct args as [|a args].
  - inversion E; subst. exists [], []. rewrite !app_nil_r. repeat split. constructor.
  - pose proof (Forall_inv B) as B1. pose proof (Forall_inv_tail B) as B2. clear B.
    destruct (eqt a [45; 45]) eqn:E1.
    { apply eqt_spec in E1. subst. inversion E; subst. exists [], args. rewrite app_nil_r. repeat split. constructor. }
    apply eqt_no in E1. destruct (eqt (firstn 2 a) [45; 45]) eqn:E2.
    { apply eqt_spec in E2. destruct a as [|x [|y name]]; [discriminate..|]. cbn in E2. inversion E2; subst x y.
      change (skipn 2 (45 :: 45 :: name)) with name in E. unfold do_longs in E.
      destruct (cut_eq name) as [[nm value]|] eqn:C.
      - apply cut_eq_some in C as [-> C]. destruct (long_has_args nm longs) as [[takes full]| | |] eqn:L; try discriminate.
        cbn [bind] in E. apply long_spec in L.
        assert (V : value <> []) by (intros ->; apply B1; now exists nm).
        destruct takes; [|destruct value; [congruence|discriminate]].
        destruct value as [|v value]; [congruence|]. cbn [bind] in E.
        destruct (IH _ _ _ _ _ B2 E) as (opts' & rest' & -> & -> & R).
        exists ((45 :: 45 :: full, v :: value) :: opts'), rest'. rewrite <- app_assoc. repeat split.
        apply r_attached; [exact C|exact L|intros _; discriminate|exact R].
      - apply cut_eq_none in C. destruct (long_has_args name longs) as [[takes full]| | |] eqn:L; try discriminate.
        cbn [bind] in E. apply long_spec in L. destruct takes.
        + destruct args as [|v args]; [discriminate|]. cbn [bind] in E. apply Forall_inv_tail in B2.
          destruct (IH _ _ _ _ _ B2 E) as (opts' & rest' & -> & -> & R).
          exists ((45 :: 45 :: full, v) :: opts'), rest'. rewrite <- app_assoc. repeat split.
          apply r_next; [intros ->; congruence|exact C|exact L|exact R].
        + cbn [bind] in E. destruct (IH _ _ _ _ _ B2 E) as (opts' & rest' & -> & -> & R).
          exists ((45 :: 45 :: full, []) :: opts'), rest'. rewrite <- app_assoc. repeat split.
          apply r_flag; [intros ->; congruence|exact C|exact L|exact R]. }
    apply eqt_no in E2. destruct (eqt (firstn 1 a) [45] && negb (eqt a [45])) eqn:E3.
    { apply andb_prop in E3 as [E3 E4]. apply eqt_spec in E3. apply negb_true_iff, eqt_no in E4.
      destruct a as [|x letters]; [discriminate|]. cbn in E3. inversion E3; subst x.
      change (skipn 1 (45 :: letters)) with letters in E.
      destruct (do_shorts o letters shorts args) as [[o1 args']| | |] eqn:S1; try discriminate. cbn [bind] in E.
      apply shorts_spec in S1 as (os & -> & C). destruct (cluster_suffix _ _ _ _ _ C) as [pre ->].
      apply Forall_app in B2 as [_ B2].
      destruct (IH _ _ _ _ _ B2 E) as (opts' & rest' & -> & -> & R).
      exists (os ++ opts'), rest'. rewrite <- app_assoc. repeat split.
      apply (r_cluster _ _ _ _ letters (pre ++ args') args'); [congruence| |exact C|exact R].
      intros [r ->]. apply E2. reflexivity. }
    assert (P : operand a).
    { destruct (eqt a [45]) eqn:E4; [left; now apply eqt_spec|]. right. intros [r ->]. discriminate E3. }
    destruct first eqn:FF.
    { inversion E; subst. exists [], (a :: args). rewrite app_nil_r. repeat split. now apply r_stop. }
    destruct (IH _ _ _ _ _ B2 E) as (opts' & rest' & -> & -> & R).
    exists opts', (a :: rest'). rewrite <- app_assoc. repeat split. now apply r_operand.
Qed.

Lemma loop_ends fuel : forall args o p, (length args < fuel)%nat ->
  exists r, getopt_loop fuel first shorts longs o p args = r /\ r <> NoFuel /\ r <> Undef.
Proof.
  induction fuel as [|fuel IH]; intros args o p F; [lia|]. cbn [getopt_loop].
  destruct args as [|a args]; [eexists; repeat split; discriminate|]. cbn [length] in F.
  destruct (eqt a [45; 45]); [eexists; repeat split; discriminate|].
  destruct (eqt (firstn 2 a) [45; 45]).
  { unfold do_longs. destruct (match cut_eq (skipn 2 a) with Some p => p | None => (skipn 2 a, []) end) as [nm value].
    assert (L : forall nm, long_has_args nm longs = Raise OtherError \/ exists q, long_has_args nm longs = Ok q).
    { intros n. unfold long_has_args. destruct (filter _ _) as [|u others]; [now left|].
      destruct (mem n (u :: others)); [right; eauto|]. destruct (mem (n ++ [61]) (u :: others)); [right; eauto|].
      destruct others; [right; eauto|now left]. }
    destruct (L nm) as [->|[[takes full] ->]]; cbn [bind]; [eexists; repeat split; discriminate|].
    destruct takes, value as [|v value]; cbn [bind]; try (apply IH; lia); try (eexists; repeat split; discriminate).
    destruct args as [|w args]; cbn [bind]; [eexists; repeat split; discriminate|]. apply IH. cbn in F. lia. }
  destruct (eqt (firstn 1 a) [45] && negb (eqt a [45])).
  { destruct (do_shorts o (skipn 1 a) shorts args) as [[o1 args']|e| |] eqn:S1; cbn [bind].
    - apply shorts_spec in S1 as (os & -> & C). destruct (cluster_suffix _ _ _ _ _ C) as [pre ->]. apply IH. rewrite app_length in F. lia.
    - eexists; repeat split; discriminate.
    - exfalso. revert o S1. generalize (skipn 1 a). intros l. induction l as [|c l IHl]; intros o S1; cbn [do_shorts] in S1; [discriminate|].
      assert (H : forall s, short_has_arg c s = Raise OtherError \/ exists q, short_has_arg c s = Ok q).
      { induction s as [|x s IHs]; cbn [short_has_arg]; [now left|]. destruct ((c =? x) && negb (x =? 58)); [right; eauto|exact IHs]. }
      destruct (H shorts) as [E|[q E]]; rewrite E in S1; cbn [bind] in S1; [discriminate|]. destruct q; [|now apply IHl in S1].
      destruct l; [destruct args|]; discriminate.
    - exfalso. revert o S1. generalize (skipn 1 a). intros l. induction l as [|c l IHl]; intros o S1; cbn [do_shorts] in S1; [discriminate|].
      assert (H : forall s, short_has_arg c s = Raise OtherError \/ exists q, short_has_arg c s = Ok q).
      { induction s as [|x s IHs]; cbn [short_has_arg]; [now left|]. destruct ((c =? x) && negb (x =? 58)); [right; eauto|exact IHs]. }
      destruct (H shorts) as [E|[q E]]; rewrite E in S1; cbn [bind] in S1; [discriminate|]. destruct q; [|now apply IHl in S1].
      destruct l; [destruct args|]; discriminate. }
  destruct first; [eexists; repeat split; discriminate|]. apply IH. lia.
Qed.
End Loop.

Lemma plus_cases shorts : (exists s, shorts = 43 :: s) \/ startswith shorts [43] = false /\ ~ prefix [43] shorts.
Proof.
  destruct (startswith shorts [43]) eqn:E.
  - apply startswith_spec in E as [r ->]. left. now exists r.
  - right. split; [reflexivity|now apply startswith_no].
Qed.

Theorem getopt_complete posix shorts longs args opts rest :
  command_line true posix shorts longs args opts rest -> getopt posix args shorts longs = Ok (opts, rest).
Proof.
  unfold getopt. intros [(s & -> & R)|[N R]].
  - cbn [startswith]. change (43 =? 43) with true. cbn [andb]. destruct s; cbn [startswith skipn]; apply (loop_complete _ _ _ _ _ _ R _ [] []); lia.
  - apply startswith_no in N. rewrite N. apply (loop_complete _ _ _ _ _ _ R _ [] []). lia.
Qed.

Theorem getopt_sound posix shorts longs args opts rest : Forall (fun a => ~ bare a) args ->
  getopt posix args shorts longs = Ok (opts, rest) -> command_line true posix shorts longs args opts rest.
Proof.
  unfold getopt. intros B E. destruct (plus_cases shorts) as [[s ->]|[N N']].
  - left. exists s. split; [reflexivity|]. replace (startswith (43 :: s) [43]) with true in E by (destruct s; reflexivity).
    apply loop_sound in E as (o & r & -> & -> & R); [exact R|exact B].
  - right. split; [exact N'|]. rewrite N in E. apply loop_sound in E as (o & r & -> & -> & R); [exact R|exact B].
Qed.

Theorem getopt_ends posix shorts longs args : getopt posix args shorts longs <> NoFuel /\ getopt posix args shorts longs <> Undef.
Proof.
  unfold getopt. destruct (startswith shorts [43]); match goal with |- getopt_loop ?f ?fi ?s ?l ?o ?p ?a <> _ /\ _ =>
    destruct (loop_ends fi s l f a o p) as (r & E & A & B); [lia|] end; rewrite E; now split.
Qed.
