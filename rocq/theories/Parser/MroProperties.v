(** C31: the method resolution order of classes is the C3 order of Python. *)
From Coq Require Import List Bool Arith Lia.
From Verif.Common Require Import Result.
From Verif.Parser Require Import Mro MroProofs.
Import ListNotations.

(** ** Specification *)

(** [c] is a direct or indirect base of [d], or [d] itself. *)
Inductive ancestor (defs : list (nat * list nat)) : nat -> nat -> Prop :=
| anc_self : forall d, ancestor defs d d
| anc_base : forall d bases b c, In (d, bases) defs -> In b bases -> ancestor defs b c -> ancestor defs d c.

(** The C3 merge of the Python documentation: repeatedly take the first head that occurs in no tail. *)
Inductive c3merge : list (list nat) -> list nat -> Prop :=
| c3_done : forall seqs, (forall s, In s seqs -> s = []) -> c3merge seqs []
| c3_take : forall before c t after r,
    let seqs := before ++ (c :: t) :: after in
    (forall h u, In (h :: u) before -> exists h' u', In (h' :: u') seqs /\ In h u') ->
    (forall h u, In (h :: u) seqs -> ~ In c u) ->
    c3merge (map (fun s => match s with x :: u => if Nat.eqb x c then u else s | [] => [] end) seqs) r ->
    c3merge seqs (c :: r).

(** ** Theorems *)

(** The merge ends; it gives a list in which every input sequence keeps its order, without
    repetition and with no other element, and fails exactly if no list without repetition keeps
    the order of all the sequences. *)
Theorem C31_merge_linearises_or_no_order_exists : forall seqs, exists r, mergeC3 seqs = Ok r /\
  ((r <> [] \/ (forall s, In s seqs -> s = [])) ->
     NoDup r /\ (forall s, In s seqs -> sub s r) /\ (forall x, In x r <-> exists s, In s seqs /\ In x s)) /\
  ((r = [] /\ ~ (forall s, In s seqs -> s = [])) <-> ~ exists o, NoDup o /\ forall s, In s seqs -> sub s o).
Proof.
  intros seqs. destruct (mergeC3_ok seqs) as (r & E & H). exists r. split; [exact E|].
  destruct H as [[K (N & S & X)]|[K ->]].
  - split.
    + intros _. split; [exact N|]. split; [exact S|]. intros x. split; [apply X|].
      intros (s & I & J). eapply sub_in; eauto.
    + split; [|intros H; exfalso; apply H; exact K].
      intros [-> H]. exfalso. apply H. intros s I. specialize (S s I). inversion S. reflexivity.
  - split.
    + intros [H|H]; [congruence|]. exfalso. apply K. exists []. split; [constructor|]. intros s I. rewrite (H s I); constructor.
    + split; [intros _; exact K|]. intros H. split; auto. intros A. apply K. exists []. split; [constructor|].
      intros s I. rewrite (A s I). constructor.
Qed.

(** The order is the one that the documented algorithm gives. *)
Lemma candidate_split seqs all c : candidate seqs all = Some c ->
  exists before t after, seqs = before ++ (c :: t) :: after /\ forall h u, In (h :: u) before -> in_tail h all = true.
Proof.
  induction seqs as [|[|x s] seqs IH]; cbn; intros H; [discriminate| |].
  - destruct (IH H) as (b & t & a & -> & P). exists ([] :: b), t, a. split; auto. intros h u [I|I]; [discriminate|eauto].
  - destruct (in_tail x all) eqn:T.
    + destruct (IH H) as (b & t & a & -> & P). exists ((x :: s) :: b), t, a. split; auto.
      intros h u [I|I]; [injection I as -> ->; auto|eauto].
    + injection H as ->. exists [], s, seqs. split; auto.
Qed.
Lemma c3_loop : forall n seqs acc r, total seqs < n -> consistent seqs ->
  loop n (fun '(seqs, result) =>
       if negb (found seqs) then Ok (inr result)
       else match candidate seqs seqs with
            | None => Ok (inr [])
            | Some c => Ok (inl (erase c seqs, result ++ [c]))
            end) (seqs, acc) = Ok r -> exists l, r = acc ++ l /\ c3merge seqs l.
Proof.
  induction n as [|n IH]; intros seqs acc r L K E; [lia|]. cbn [loop] in E.
  destruct (found seqs) eqn:F; cbn [negb] in E.
  - destruct (candidate seqs seqs) as [c|] eqn:C.
    + destruct (candidate_some _ _ _ C) as (T & t0 & I0).
      destruct (candidate_split _ _ _ C) as (b & t & a & Q & P).
      pose proof (erase_total c seqs t0 I0).
      destruct (IH (erase c seqs) (acc ++ [c]) r ltac:(lia) (consistent_erase c seqs K) E) as (l & -> & M).
      exists (c :: l). split; [rewrite <- app_assoc; reflexivity|].
      rewrite Q. apply c3_take.
      * intros h u I. rewrite <- Q. apply in_tail_ok. eauto.
      * intros h u I J. rewrite <- Q in I. apply Bool.not_true_iff_false in T. apply T. apply in_tail_ok. eauto.
      * rewrite <- Q. unfold erase in M. erewrite map_ext; [exact M|]. intros [|x s]; auto. rewrite Nat.eqb_sym. reflexivity.
    + exfalso. eapply consistent_candidate; eauto.
  - injection E as ->. exists []. rewrite app_nil_r. split; auto. constructor.
    intros [|x t] I; auto. exfalso. apply Bool.not_true_iff_false in F. apply F. apply found_ok. eauto.
Qed.
Theorem C31_merge_is_the_documented_c3 : forall seqs r, mergeC3 seqs = Ok r -> r <> [] -> c3merge seqs r.
Proof.
  intros seqs r E NZ. destruct (mergeC3_ok seqs) as (r' & E' & H). rewrite E in E'. injection E' as <-.
  destruct H as [[K _]|[_ Z]]; [|congruence].
  destruct (c3_loop (S (total seqs)) seqs [] r ltac:(lia) K E) as (l & -> & M). exact M.
Qed.
(** ... which is a function of the sequences. *)
Lemma split_head_unique (P : list nat -> Prop) (A : Type) (before before' after after' : list A) (x x' : A) (Q : A -> Prop) :
  before ++ x :: after = before' ++ x' :: after' ->
  Q x -> Q x' -> (forall y, In y before -> ~ Q y) -> (forall y, In y before' -> ~ Q y) ->
  before = before' /\ x = x' /\ after = after'.
Proof.
  revert before'. induction before as [|y b IH]; intros [|y' b'] E X X' N N'; cbn in E.
  - injection E as -> ->. auto.
  - injection E as -> _. exfalso. apply (N' y'); [left; auto|auto].
  - injection E as -> _. exfalso. apply (N x'); [left; auto|auto].
  - injection E as -> E. destruct (IH b' E X X') as (-> & -> & ->); auto; intros y I; [apply N|apply N']; right; auto.
Qed.
Theorem C31_c3_order_is_unique : forall seqs r r', c3merge seqs r -> c3merge seqs r' -> r = r'.
Proof.
  intros seqs r r' H. revert r'. induction H as [seqs E|before c t after r seqs B T H IH]; intros r' H'.
  - inversion H' as [|before c t after r0 seqs0 B T M Q]; auto. exfalso.
    assert (I : In (c :: t) seqs) by (rewrite <- Q; apply in_or_app; right; left; auto).
    specialize (E _ I). discriminate.
  - inversion H' as [seqs0 E Q1 Q2|before' c' t' after' r0 seqs0 B' T' H0 Q Q2].
    + exfalso. assert (I : In (c :: t) seqs) by (apply in_or_app; right; left; auto). specialize (E _ I). discriminate.
    + subst r'.
      assert (U : before' = before /\ c' :: t' = c :: t /\ after' = after).
      { apply (split_head_unique (fun _ => True) _ before' before after' after (c' :: t') (c :: t)
               (fun s => match s with h :: _ => forall h' u, In (h' :: u) seqs -> ~ In h u | [] => False end)).
        - exact Q.
        - intros h u I. apply (T' h u). rewrite Q. exact I.
        - exact T.
        - intros [|h u] I; [auto|]. intros K. destruct (B' h u I) as (h' & u' & I' & J). rewrite Q in I'. exact (K h' u' I' J).
        - intros [|h u] I; [auto|]. intros K. destruct (B h u I) as (h' & u' & I' & J). exact (K h' u' I' J). }
      destruct U as (-> & E & ->). injection E as -> ->. f_equal. apply IH. exact H0.
Qed.

(** Every accepted sequence of class definitions gives every class the order in which it comes
    first, exactly its ancestors follow, each once, and every base and the list of bases keep
    their order. *)
Definition good (defs mros : list (nat * list nat)) (c : nat) (bases : list nat) (l : list nat) : Prop :=
  (exists t, l = c :: t) /\ NoDup l /\ sub bases l
  /\ (forall b, In b bases -> exists lb, lookup mros b = Some lb /\ sub lb l)
  /\ (forall x, In x l <-> ancestor defs c x).
Lemma lookup_cons_ne c l mros d : c <> d -> lookup ((c, l) :: mros) d = lookup mros d.
Proof. intros N. unfold lookup. cbn. rewrite (proj2 (Nat.eqb_neq c d) N). reflexivity. Qed.
Lemma lookup_cons_eq c l mros : lookup ((c, l) :: mros) c = Some l.
Proof. unfold lookup. cbn. rewrite Nat.eqb_refl. reflexivity. Qed.
Lemma lookup_key mros c l : lookup mros c = Some l -> In c (map fst mros).
Proof.
  unfold lookup. destruct (find _ mros) as [e|] eqn:F; [|discriminate]. intros _. apply find_some in F.
  destruct F as [I E]. apply Nat.eqb_eq in E. subst. apply in_map. auto.
Qed.
Lemma base_mros_ok mros bases ms : base_mros mros bases = Some ms ->
  (forall b, In b bases -> exists l, lookup mros b = Some l /\ In l ms)
  /\ (forall l, In l ms -> exists b, In b bases /\ lookup mros b = Some l).
Proof.
  revert ms. induction bases as [|b bases IH]; cbn; intros ms E.
  - injection E as <-. split; [intros b []|intros l []].
  - destruct (lookup mros b) as [m|] eqn:L; [|discriminate]. destruct (base_mros mros bases) as [ms'|]; [|discriminate].
    injection E as <-. destruct (IH ms' eq_refl) as [A B]. split.
    + intros x [->|I]; [exists m; split; [auto|left; auto]|]. destruct (A x I) as (l & K & J). exists l. split; [auto|right; auto].
    + intros l [<-|I]; [exists b; split; [left; auto|auto]|]. destruct (B l I) as (x & J & K). exists x. split; [right; auto|auto].
Qed.

Record inv (done mros : list (nat * list nat)) : Prop := {
  inv_key : forall c, In c (map fst mros) <-> In c (map fst done);
  inv_uniq : NoDup (map fst done);
  inv_bases : forall c bases, In (c, bases) done -> forall b, In b bases -> In b (map fst done);
  inv_good : forall c bases, In (c, bases) done -> exists l, lookup mros c = Some l /\ good done mros c bases l }.

Lemma ancestor_key done c x : (forall c bases, In (c, bases) done -> forall b, In b bases -> In b (map fst done)) ->
  ancestor done c x -> In c (map fst done) -> In x (map fst done).
Proof. intros K A. induction A; auto. intros _. apply IHA. eapply K; eauto. Qed.
Lemma ancestor_mono done done' c x : (forall e, In e done -> In e done') -> ancestor done c x -> ancestor done' c x.
Proof. intros S A. induction A; [constructor|]. econstructor; eauto. Qed.
Lemma ancestor_old done d bases c x : (forall c bases, In (c, bases) done -> forall b, In b bases -> In b (map fst done)) ->
  ~ In d (map fst done) -> In c (map fst done) -> ancestor (done ++ [(d, bases)]) c x -> ancestor done c x.
Proof.
  intros K N I A. induction A as [|e bs b y J L A IH]; [constructor|].
  apply in_app_or in J. destruct J as [J|[J|[]]].
  - econstructor; eauto.
  - injection J as -> ->. contradiction.
Qed.

Lemma classMro_ok done mros c bases : inv done mros -> ~ In c (map fst mros) ->
  exists o, classMro mros c bases = Ok o /\
    match o with
    | Order l => good (done ++ [(c, bases)]) ((c, l) :: mros) c bases l /\ (forall b, In b bases -> In b (map fst done))
                 /\ exists ms, base_mros mros bases = Some ms /\ exists t, l = c :: t /\
                    (forall s, In s ms -> sub s t) /\ sub bases t
    | BadMro => exists ms, base_mros mros bases = Some ms /\
                ~ exists r, NoDup r /\ (forall s, In s ms -> sub s r) /\ sub bases r
    | NoBase => exists b, In b bases /\ ~ In b (map fst done)
    end.
Proof.
  intros [K U Bs G] NC. unfold classMro.
  destruct (base_mros mros bases) as [ms|] eqn:BM.
  2: { exists NoBase. split; auto. clear -BM K. revert BM. induction bases as [|b bases IH]; cbn; [discriminate|].
       destruct (lookup mros b) as [m|] eqn:L.
       - destruct (base_mros mros bases); [discriminate|]. intros _. destruct (IH eq_refl) as (x & I & N). exists x. split; [right; auto|auto].
       - intros _. exists b. split; [left; auto|]. intros I. apply K in I. unfold lookup in L.
         destruct (find _ mros) eqn:F; [discriminate|]. apply in_map_iff in I. destruct I as (e & E & I).
         pose proof (find_none _ _ F e I) as X. cbn in X. rewrite E, Nat.eqb_refl in X. discriminate. }
  destruct (base_mros_ok _ _ _ BM) as [B1 B2].
  set (tailseq := match bases with [] => [] | _ => [bases] end).
  set (seqs := [c] :: ms ++ tailseq).
  assert (BK : forall b, In b bases -> In b (map fst done)).
  { intros b I. destruct (B1 b I) as (l & L & _). apply K. eapply lookup_key; eauto. }
  assert (OLD : forall s, In s ms -> forall x, In x s -> In x (map fst done)).
  { intros s I x J. destruct (B2 s I) as (b & Ib & Lb). pose proof (BK b Ib) as Kb. apply in_map_iff in Kb.
    destruct Kb as ([b' bb] & Eb & Ib'). cbn in Eb. subst b'. destruct (G b bb Ib') as (l & L & (_ & _ & _ & _ & A)).
    rewrite Lb in L. injection L as <-. apply A in J. eapply ancestor_key; eauto. }
  assert (NCs : forall s, In s (ms ++ tailseq) -> ~ In c s).
  { intros s I J. apply NC, K. apply in_app_or in I. destruct I as [I|I]; [eapply OLD; eauto|].
    unfold tailseq in I. destruct bases; [destruct I|]. destruct I as [<-|[]]. apply BK. auto. }
  assert (TB : sub bases [] -> bases = []) by (intros H; inversion H; auto).
  destruct (mergeC3_ok seqs) as (r & E & H). rewrite E. cbn [bind].
  destruct H as [[CO (N & S & X)]|[CO ->]].
  - assert (Ic : In c r). { eapply sub_in; [apply (S [c]); left; auto|left; auto]. }
    destruct r as [|r0 r]; [destruct Ic|].
    exists (Order (r0 :: r)). split; auto.
    (* c is taken first *)
    assert (r0 = c).
    { unfold mergeC3 in E. cbn [loop] in E.
      assert (F : found seqs = true) by reflexivity. rewrite F in E. cbn [negb] in E.
      assert (T : in_tail c seqs = false).
      { destruct (in_tail c seqs) eqn:T; auto. apply in_tail_ok in T. destruct T as (h & t & I & J). exfalso.
        destruct I as [I|I]; [injection I as <- <-; destruct J|]. apply (NCs _ I). right; auto. }
      assert (C : candidate seqs seqs = Some c). { unfold seqs at 1. cbn [candidate]. rewrite T. reflexivity. }
      rewrite C in E.
      destruct (merge_spec (total seqs) (erase c seqs) ([] ++ [c])) as (r' & E' & D).
      { unfold seqs. apply (erase_total c _ []). left; auto. }
      rewrite E in E'. injection E' as <-. destruct D as [[_ (l & Q & _)]|[_ Q]]; [|discriminate]. cbn in Q. congruence. }
    subst r0.
    assert (Sb : sub bases (c :: r)).
    { destruct bases as [|b0 bb] eqn:Eb; [constructor|]. apply S. right. apply in_or_app. right. unfold tailseq. left; auto. }
    assert (strip : forall s, sub s (c :: r) -> ~ In c s -> sub s r).
    { intros s Hs Ns. inversion Hs; subst; [constructor| |auto]. exfalso. apply Ns. left; auto. }
    split; [|split; [exact BK|]].
    + split; [eexists; reflexivity|]. split; [exact N|]. split; [exact Sb|]. split.
      * intros b I. destruct (B1 b I) as (l & L & J). exists l. split.
        { rewrite lookup_cons_ne; auto. intros ->. apply NC. eapply lookup_key; eauto. }
        apply S. right. apply in_or_app. auto.
      * intros x. split.
        -- intros I. destruct (X x I) as (s & J & L). destruct J as [<-|J].
           { destruct L as [->|[]]. constructor. }
           apply in_app_or in J. destruct J as [J|J].
           ++ destruct (B2 s J) as (b & Ib & Lb).
              pose proof (BK b Ib) as Kb. apply in_map_iff in Kb. destruct Kb as ([b' bb] & Eb & Ib'). cbn in Eb. subst b'.
              destruct (G b bb Ib') as (l & Ll & (_ & _ & _ & _ & A)). rewrite Lb in Ll. injection Ll as <-.
              apply A in L. apply (anc_base _ c bases b); auto; [apply in_or_app; right; left; auto|].
              eapply ancestor_mono; [|exact L]. intros; apply in_or_app; auto.
           ++ unfold tailseq in J. assert (In x bases) by (destruct bases; [destruct J|destruct J as [<-|[]]; auto]).
              apply (anc_base _ c bases x); auto; [apply in_or_app; right; left; auto|constructor].
        -- intros A. inversion A as [|d bs b y J L A' Q1 Q2]; subst; [left; auto|].
           apply in_app_or in J. destruct J as [J|[J|[]]].
           { exfalso. apply NC, K. apply in_map_iff. exists (c, bs). auto. }
           injection J as <-.
           destruct (B1 b L) as (l & Lb & Il).
           pose proof (BK b L) as Kb.
           apply (ancestor_old done c bases b x Bs) in A'; auto; [|intros Z; apply NC, K, Z].
           apply in_map_iff in Kb. destruct Kb as ([b' bb] & Eb & Ib'). cbn in Eb. subst b'.
           destruct (G b bb Ib') as (l' & Ll & (_ & _ & _ & _ & AA)). rewrite Lb in Ll. injection Ll as <-.
           apply AA in A'. eapply sub_in; [|exact A']. apply S. right. apply in_or_app. auto.
    + exists ms. split; auto. exists r. split; auto. split.
      * intros s I. apply strip; [apply S; right; apply in_or_app; auto|apply NCs; apply in_or_app; auto].
      * apply strip; auto. intros Z. apply NC, K, BK, Z.
  - exists BadMro. split; auto. exists ms. split; auto. intros (r & N & S & Sb). apply CO.
    exists (c :: filter (fun x => negb (Nat.eqb x c)) r).
    assert (FS : forall s, sub s r -> ~ In c s -> sub s (filter (fun x => negb (Nat.eqb x c)) r)).
    { clear. intros s H. induction H; intros NI; [constructor| |].
      - cbn. destruct (Nat.eqb x c) eqn:E; [apply Nat.eqb_eq in E; subst; exfalso; apply NI; left; auto|]. cbn [negb].
        apply sub_take. apply IHsub. intros I. apply NI. right; auto.
      - cbn. destruct (Nat.eqb x c); cbn [negb]; [auto|apply sub_skip; auto]. }
    split.
    + constructor; [|apply NoDup_filter; auto]. intros I. apply filter_In in I. destruct I as [_ I]. rewrite Nat.eqb_refl in I. discriminate.
    + intros s [<-|I]; [apply sub_take; constructor|]. apply sub_skip. apply FS; [|apply NCs; auto].
      apply in_app_or in I. destruct I as [I|I]; auto.
      unfold tailseq in I. destruct bases; [destruct I|]. destruct I as [<-|[]]. exact Sb.
Qed.

Lemma define_ok defs : forall done mros, inv done mros ->
  match define defs mros with
  | Ok (Some mros') => inv (done ++ defs) mros'
  | Ok None => True
  | _ => False
  end.
Proof.
  induction defs as [|[c bases] defs IH]; intros done mros I; [rewrite app_nil_r; exact I|].
  cbn [define]. destruct (existsb (fun e => Nat.eqb (fst e) c) mros) eqn:X; [exact Logic.I|].
  assert (NC : ~ In c (map fst mros)).
  { intros J. apply Bool.not_true_iff_false in X. apply X. apply existsb_exists. apply in_map_iff in J.
    destruct J as (e & E & J). exists e. split; auto. rewrite E. apply Nat.eqb_refl. }
  destruct (classMro_ok done mros c bases I NC) as (o & E & H). rewrite E. cbn [bind].
  destruct o as [l| |]; auto. destruct H as (G & BK & _).
  specialize (IH (done ++ [(c, bases)]) ((c, l) :: mros)). rewrite <- app_assoc in IH. apply IH.
  destruct I as [K U Bs Gs].
  split.
  - intros d. cbn [map fst]. rewrite map_app, in_app_iff. cbn. rewrite K. tauto.
  - rewrite map_app. cbn.     assert (NN : ~ In c (map fst done)) by (intros Z; apply NC, K, Z).
    revert U NN. generalize (map fst done). clear. induction l as [|x l IH]; cbn; intros U NN; [repeat constructor; auto|].
    inversion U; subst. constructor; [|apply IH; auto]. rewrite in_app_iff. cbn. intuition congruence.
  - intros d bs J b L. rewrite map_app, in_app_iff. apply in_app_or in J. destruct J as [J|[J|[]]]; [left; eapply Bs; eauto|].
    injection J as <- <-. left. auto.
  - intros d bs J. apply in_app_or in J. destruct J as [J|[J|[]]].
    + destruct (Gs d bs J) as (l' & L & (A1 & A2 & A3 & A4 & A5)).
      assert (ND : c <> d) by (intros <-; apply NC; eapply lookup_key; eauto).
      exists l'. rewrite lookup_cons_ne by auto. split; auto.
      split; [exact A1|]. split; [exact A2|]. split; [exact A3|]. split.
      * intros b Ib. destruct (A4 b Ib) as (lb & Lb & Sb). exists lb. rewrite lookup_cons_ne; [auto|].
        intros <-. apply NC. eapply lookup_key; eauto.
      * intros x. rewrite A5. split.
        -- apply ancestor_mono. intros; apply in_or_app; auto.
        -- apply ancestor_old; auto; [intros Z; apply NC, K, Z|]. apply in_map_iff. exists (d, bs). auto.
    + injection J as <- <-. exists l. rewrite lookup_cons_eq. auto.
Qed.

Lemma inv_start : inv [] [].
Proof. split; cbn; [tauto|constructor|intros ? ? []|intros ? ? []]. Qed.

Theorem C31_every_class_order_is_right : forall defs mros, define defs [] = Ok (Some mros) ->
  forall c bases, In (c, bases) defs -> exists l, lookup mros c = Some l
    /\ (exists t, l = c :: t)
    /\ NoDup l
    /\ sub bases l
    /\ (forall b, In b bases -> exists lb, lookup mros b = Some lb /\ sub lb l)
    /\ (forall x, In x l <-> ancestor defs c x).
Proof.
  intros defs mros E c bases I. pose proof (define_ok defs [] [] inv_start) as H. rewrite E in H. cbn [app] in H.
  exact (inv_good _ _ H c bases I).
Qed.

(** A further class is rejected for its order exactly if no order without repetition keeps those of
    its bases and the order in which it lists them. *)
Theorem C31_rejected_iff_no_order_exists : forall defs mros c bases, define defs [] = Ok (Some mros) ->
  ~ In c (map fst defs) -> (forall b, In b bases -> In b (map fst defs)) ->
  (classMro mros c bases = Ok BadMro <->
   ~ exists r, NoDup r /\ sub bases r /\ forall b lb, In b bases -> lookup mros b = Some lb -> sub lb r).
Proof.
  intros defs mros c bases E NC BK. pose proof (define_ok defs [] [] inv_start) as H. rewrite E in H. cbn [app] in H.
  assert (NK : ~ In c (map fst mros)) by (intros Z; apply NC, (inv_key _ _ H), Z).
  destruct (classMro_ok defs mros c bases H NK) as (o & -> & D). destruct o as [l| |].
  - split; [discriminate|]. intros X. exfalso. apply X. destruct D as ((_ & N & _) & _ & ms & BM & t & -> & S & Sb).
    destruct (base_mros_ok _ _ _ BM) as [B1 B2]. inversion N; subst.
    exists t. split; auto. split; auto. intros b lb I L. destruct (B1 b I) as (l & L' & J). rewrite L in L'. injection L' as <-. auto.
  - split; auto. intros _ (r & N & Sb & S). destruct D as (ms & BM & NX). destruct (base_mros_ok _ _ _ BM) as [B1 B2].
    apply NX. exists r. split; auto. split; auto. intros s I. destruct (B2 s I) as (b & Ib & Lb). eapply S; eauto.
  - exfalso. destruct D as (b & I & N). apply N. apply BK. exact I.
Qed.

(** The hierarchy of the Python documentation, and one that has no order. *)
Example mro_ex : define [(0, []); (1, [0]); (2, [0]); (3, [0]); (4, [1; 2]); (5, [3; 2]); (6, [4; 5])] []
  = Ok (Some [(6, [6; 4; 1; 5; 3; 2; 0]); (5, [5; 3; 2; 0]); (4, [4; 1; 2; 0]); (3, [3; 0]); (2, [2; 0]); (1, [1; 0]); (0, [0])]).
Proof. reflexivity. Qed.
Example mro_bad_ex : exists mros, define [(0, []); (1, [0]); (2, [0]); (3, [1; 2]); (4, [2; 1])] [] = Ok (Some mros)
  /\ classMro mros 5 [3; 4] = Ok BadMro.
Proof. eexists. split; reflexivity. Qed.

Print Assumptions C31_merge_linearises_or_no_order_exists.
Print Assumptions C31_merge_is_the_documented_c3.
Print Assumptions C31_c3_order_is_unique.
Print Assumptions C31_every_class_order_is_right.
Print Assumptions C31_rejected_iff_no_order_exists.
