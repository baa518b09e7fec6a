(** Proofs about the pass manager. *)
From Coq Require Import List Bool Arith Lia String Ascii DecimalString DecimalNat Permutation.
From Verif.Common Require Import Result.
From Verif.Pass Require Import Manager.
Import ListNotations.
Local Open Scope list_scope.

(** ** Maps *)
Section Map.
Context {V : Type}.
Implicit Types m : list (string * V).
Lemma mlookup_cons k v m x : mlookup ((k, v) :: m) x = if String.eqb k x then Some v else mlookup m x.
Proof. unfold mlookup. cbn. destruct (String.eqb k x); reflexivity. Qed.
Lemma mlookup_erase k m x : mlookup (merase k m) x = if String.eqb k x then None else mlookup m x.
Proof.
  induction m as [|[y v] m IH]; [cbn; destruct (String.eqb k x); reflexivity|].
  cbn [merase filter fst]. fold (merase k m). destruct (String.eqb y k) eqn:E; cbn [negb].
  - apply String.eqb_eq in E. subst y. rewrite IH, mlookup_cons. destruct (String.eqb k x); reflexivity.
  - rewrite !mlookup_cons, IH. destruct (String.eqb y x) eqn:F; auto. apply String.eqb_eq in F. subst y.
    rewrite String.eqb_sym, E. reflexivity.
Qed.
Lemma mlookup_put k v m x : mlookup (mput k v m) x = if String.eqb k x then Some v else mlookup m x.
Proof. unfold mput. rewrite mlookup_cons, mlookup_erase. destruct (String.eqb k x); reflexivity. Qed.
Lemma mlookup_insert_new k v m x : mlookup m k = None -> mlookup (minsert k v m) x = if String.eqb k x then Some v else mlookup m x.
Proof. intros H. unfold minsert. rewrite H. apply mlookup_cons. Qed.
Lemma mhas_ok m k : mhas m k = true <-> mlookup m k <> None.
Proof. unfold mhas. destruct (mlookup m k); split; intros; congruence. Qed.
Lemma merase_length k m : mlookup m k <> None -> List.length (merase k m) < List.length m.
Proof.
  assert (L : forall m, List.length (merase k m) <= List.length m).
  { induction m0 as [|[y v] m0 IH]; cbn; auto. destruct (String.eqb y k); cbn; unfold merase in *; lia. }
  induction m as [|[y v] m IH]; [intros H; exfalso; apply H; reflexivity|].
  rewrite mlookup_cons. cbn [merase filter fst]. specialize (L m). unfold merase in *. destruct (String.eqb y k); cbn; [lia|].
  intros H. specialize (IH H). lia.
Qed.
Lemma mlookup_in m k v : mlookup m k = Some v -> In (k, v) m.
Proof.
  unfold mlookup. destruct (find _ m) as [e|] eqn:F; [|discriminate]. intros H. injection H as <-.
  apply find_some in F. destruct F as [I E]. apply String.eqb_eq in E. subst. destruct e; auto.
Qed.
End Map.
Lemma smem_ok k l : smem k l = true <-> In k l.
Proof.
  unfold smem. rewrite existsb_exists. split.
  - intros (x & I & E). apply String.eqb_eq in E. subst. auto.
  - intros I. exists k. split; auto. apply String.eqb_refl.
Qed.
Lemma sinsert_in l k x : In x (sinsert l k) <-> In x l \/ x = k.
Proof.
  unfold sinsert. destruct (smem k l) eqn:E.
  - apply smem_ok in E. split; auto. intros [H| ->]; auto.
  - rewrite in_app_iff. cbn. intuition.
Qed.
Lemma sinserts_in ks : forall l x, In x (fold_left sinsert ks l) <-> In x l \/ In x ks.
Proof.
  induction ks as [|k ks IH]; intros l x; cbn; [tauto|]. rewrite IH, sinsert_in. intuition.
Qed.

(** ** Keys *)
Lemma to_uint_nonnil n : Nat.to_uint n <> Decimal.Nil.
Proof.
  intros H. pose proof (Unsigned.of_to n) as E. rewrite H in E. cbn in E. subst n. discriminate.
Qed.
Lemma to_string_inj n n' : to_string n = to_string n' -> n = n'.
Proof.
  intros H. apply Unsigned.to_uint_inj.
  pose proof (NilZero.usu _ (to_uint_nonnil n)) as A. pose proof (NilZero.usu _ (to_uint_nonnil n')) as B.
  unfold to_string in H. rewrite H in A. congruence.
Qed.
Lemma colon_app a b : has_colon (a ++ b) = has_colon a || has_colon b.
Proof. induction a as [|c a IH]; cbn; auto. destruct (Ascii.eqb c ":"); auto. Qed.
Lemma colon_split : forall a a' s s', has_colon a = false -> has_colon a' = false ->
  (a ++ ":" ++ s)%string = (a' ++ ":" ++ s')%string -> a = a' /\ s = s'.
Proof.
  induction a as [|c a IH]; intros a' s s' H H' E; destruct a' as [|c' a']; cbn in *.
  - injection E as ->. auto.
  - injection E as Ec E. subst c'. cbn in H'. discriminate.
  - injection E as Ec E. subst c. cbn in H. discriminate.
  - injection E as -> E. destruct (Ascii.eqb c' ":"); [discriminate|]. destruct (IH a' s s' H H' E) as [-> ->]. auto.
Qed.

Definition issued (keys : list (string * nat)) (k : string) : Prop :=
  exists base n, mlookup keys base = Some n /\ has_colon base = false
    /\ (k = base \/ exists j, 2 <= j <= n /\ k = (base ++ ":" ++ to_string j)%string).
Definition wfk (keys : list (string * nat)) : Prop := forall b n, mlookup keys b = Some n -> 1 <= n.

Lemma getUniqueKey_ok keys key k keys' : wfk keys -> getUniqueKey keys key = Ok (k, keys') ->
  wfk keys' /\ ~ issued keys k /\ issued keys' k /\ (forall x, issued keys x -> issued keys' x).
Proof.
  intros W. unfold getUniqueKey. destruct (has_colon key) eqn:C; [discriminate|].
  destruct (mlookup keys key) as [n|] eqn:L; intros E; injection E as <- <-.
  - pose proof (W _ _ L) as Wn. split; [|split; [|split]].
    + intros b m. rewrite mlookup_put. destruct (String.eqb key b); [intros E; injection E as <-; lia|apply W].
    + intros (b & m & Lb & Cb & [E|(j & J & E)]).
      * apply (f_equal has_colon) in E. rewrite !colon_app in E. cbn in E. rewrite C, Cb in E. discriminate.
      * apply colon_split in E; auto. destruct E as [<- E]. apply to_string_inj in E. rewrite L in Lb. injection Lb as <-. lia.
    + exists key, (S n). rewrite mlookup_put, String.eqb_refl. split; auto. split; auto. right. exists (S n). split; [lia|auto].
    + intros x (b & m & Lb & Cb & H). destruct (String.eqb key b) eqn:X.
      * apply String.eqb_eq in X. subst b. rewrite L in Lb. injection Lb as <-.
        exists key, (S n). rewrite mlookup_put, String.eqb_refl. split; auto. split; auto.
        destruct H as [H|(j & J & H)]; auto. right. exists j. split; [lia|auto].
      * exists b, m. rewrite mlookup_put, X. auto.
  - split; [|split; [|split]].
    + intros b m. rewrite mlookup_put. destruct (String.eqb key b); [intros E; injection E as <-; lia|apply W].
    + intros (b & m & Lb & Cb & [E|(j & J & E)]).
      * subst b. congruence.
      * subst key. rewrite !colon_app in C. cbn in C. rewrite orb_true_r in C. discriminate.
    + exists key, 1. rewrite mlookup_put, String.eqb_refl. auto.
    + intros x (b & m & Lb & Cb & H). exists b, m. rewrite mlookup_put. destruct (String.eqb key b) eqn:X; auto.
      apply String.eqb_eq in X. subst b. congruence.
Qed.

Section Proofs.
Context {M R : Type}.
Notation manager := (manager M R).
Notation state := (state M R).
Notation event := (event M R).

(** ** Dependencies *)
Inductive depends (mg : manager) : string -> string -> Prop :=
| dep_refl : forall k, depends mg k k
| dep_step : forall k meta r d, mlookup (analyses mg) k = Some meta -> In r (am_reqs meta) -> depends mg r d -> depends mg k d.

Fixpoint acyc (l : list (string * analysisMeta M R)) : Prop :=
  match l with
  | [] => True
  | (k, meta) :: l => mlookup l k = None /\ (forall r, In r (am_reqs meta) -> mlookup l r <> None) /\ acyc l
  end.
Fixpoint rk (l : list (string * analysisMeta M R)) (k : string) : nat :=
  match l with
  | [] => 0
  | (k', _) :: t => if String.eqb k' k then S (List.length t) else rk t k
  end.
Lemma rk_le l k : rk l k <= List.length l.
Proof. induction l as [|[k' m] l IH]; cbn; auto. destruct (String.eqb k' k); lia. Qed.
Lemma acyc_rank l : acyc l -> forall k meta, mlookup l k = Some meta -> forall r, In r (am_reqs meta) ->
  mlookup l r <> None /\ rk l r < rk l k.
Proof.
  induction l as [|[k' m] l IH]; intros A k meta L r I; [discriminate|].
  destruct A as (N & Q & A). rewrite mlookup_cons in *. cbn [rk].
  destruct (String.eqb k' k) eqn:E.
  - apply String.eqb_eq in E. subst k'. injection L as <-. specialize (Q r I).
    destruct (String.eqb k r) eqn:F; [apply String.eqb_eq in F; subst; contradiction|].
    split; auto. pose proof (rk_le l r). lia.
  - destruct (IH A k meta L r I) as [X Y]. destruct (String.eqb k' r) eqn:F.
    + apply String.eqb_eq in F. subst. contradiction.
    + auto.
Qed.

Record wfm (mg : manager) : Prop := {
  w_keys : wfk (km mg);
  w_acyc : acyc (analyses mg);
  w_deps_an : forall k, mlookup (deps mg) k <> None <-> mlookup (analyses mg) k <> None;
  w_deps : forall k meta r, mlookup (analyses mg) k = Some meta -> In r (am_reqs meta) ->
             exists ds, mlookup (deps mg) r = Some ds /\ In k ds;
  w_deps_rev : forall r ds k meta, mlookup (deps mg) r = Some ds -> In k ds -> mlookup (analyses mg) k = Some meta -> In r (am_reqs meta);
  w_deps_issued : forall r ds k, mlookup (deps mg) r = Some ds -> In k ds -> issued (km mg) k;
  w_an_issued : forall k, mlookup (analyses mg) k <> None -> issued (km mg) k;
  w_ps_issued : forall k, mlookup (passes mg) k <> None -> issued (km mg) k;
  w_pass_reqs : forall k meta r, mlookup (passes mg) k = Some meta -> In r (pm_reqs meta) -> mlookup (analyses mg) r <> None;
  w_order : forall k, In k (executionOrder mg) -> mlookup (passes mg) k <> None }.

Lemma wfm_empty dis : wfm (empty_manager dis).
Proof. split; cbn; try discriminate; try tauto; try (intros; congruence). Qed.

Lemma addDeps_ok key reqs : forall dps dps', addDeps key reqs dps = Ok dps' ->
  (forall r, In r reqs -> mlookup dps r <> None)
  /\ (forall x, mlookup dps' x <> None <-> mlookup dps x <> None)
  /\ (forall x ds, mlookup dps x = Some ds -> exists ds', mlookup dps' x = Some ds' /\ (forall k, In k ds -> In k ds')
        /\ (In x reqs -> In key ds') /\ (forall k, In k ds' -> In k ds \/ (k = key /\ In x reqs))).
Proof.
  induction reqs as [|q reqs IH]; cbn; intros dps dps' E.
  - injection E as <-. split; [intros r []|]. split; [tauto|]. intros x ds L. exists ds. split; auto. split; auto. split; [tauto|auto].
  - destruct (mlookup dps q) as [dq|] eqn:L; [|discriminate].
    destruct (IH _ _ E) as (A & B & C). split; [|split].
    + intros r [->|I]; [congruence|]. specialize (A r I). rewrite mlookup_put in A. destruct (String.eqb q r) eqn:X; auto.
      apply String.eqb_eq in X. subst. congruence.
    + intros x. rewrite B, mlookup_put. destruct (String.eqb q x) eqn:X; [apply String.eqb_eq in X; subst; split; congruence|tauto].
    + intros x ds Lx. destruct (String.eqb q x) eqn:X.
      * apply String.eqb_eq in X. subst x. rewrite L in Lx. injection Lx as <-.
        destruct (C q (dq ++ [key])) as (ds' & L' & S1 & S2 & S3). { rewrite mlookup_put, String.eqb_refl. auto. }
        exists ds'. split; auto. split; [intros k I; apply S1, in_or_app; auto|].
        split; [intros _; apply S1, in_or_app; right; left; auto|].
        intros k I. destruct (S3 k I) as [J|[-> J]]; [|auto]. apply in_app_or in J. destruct J as [J|[J|[]]]; auto.
      * destruct (C x ds) as (ds' & L' & S1 & S2 & S3). { rewrite mlookup_put, X. auto. }
        exists ds'. split; auto. split; auto. apply String.eqb_neq in X.
        split; [intros [->|I]; [congruence|auto]|]. intros k I. destruct (S3 k I) as [J|[-> J]]; auto.
Qed.
Lemma insert_before_in x key : forall l l', insert_before x key l = Some l' -> forall y, In y l' <-> y = key \/ In y l.
Proof.
  induction l as [|z l IH]; cbn; intros l' E y; [discriminate|].
  destruct (String.eqb z x).
  - injection E as <-. cbn. intuition.
  - destruct (insert_before x key l) as [l2|]; [|discriminate]. injection E as <-. cbn. rewrite (IH l2 eq_refl). intuition.
Qed.

Lemma none_issued_an mg k : wfm mg -> ~ issued (km mg) k -> mlookup (analyses mg) k = None.
Proof. intros W N. destruct (mlookup (analyses mg) k) eqn:E; auto. exfalso. apply N, (w_an_issued _ W). congruence. Qed.
Lemma none_issued_ps mg k : wfm mg -> ~ issued (km mg) k -> mlookup (passes mg) k = None.
Proof. intros W N. destruct (mlookup (passes mg) k) eqn:E; auto. exfalso. apply N, (w_ps_issued _ W). congruence. Qed.

Lemma registerPass_ok mg p b reqs inv k mg' : wfm mg -> registerPass mg p b reqs inv = Ok (k, mg') -> wfm mg'.
Proof.
  intros W. unfold registerPass. destruct (smem (pkey p) (disabled mg)); [intros E; injection E as <- <-; auto|].
  destruct (getUniqueKey (km mg) (pkey p)) as [[key km']| | |] eqn:G; cbn [bind]; try discriminate.
  destruct (addDeps key reqs (deps mg)) as [deps'| | |] eqn:D; cbn [bind]; try discriminate.
  set (ord := match b with EmptyString => Ok (executionOrder mg ++ [key]) | String _ _ => _ end).
  assert (O : forall o, ord = Ok o -> forall y, In y o -> y = key \/ In y (executionOrder mg)).
  { unfold ord. intros o Eo y I. destruct b as [|c b].
    - injection Eo as <-. apply in_app_or in I. destruct I as [I|[I|[]]]; auto.
    - destruct (insert_before _ key (executionOrder mg)) as [l|] eqn:Ib; [|discriminate]. injection Eo as <-.
      apply (insert_before_in _ _ _ _ Ib) in I. exact I. }
  destruct ord as [o| | |]; cbn [bind]; try discriminate. specialize (O o eq_refl).
  intros E. injection E as <- <-.
  destruct (getUniqueKey_ok _ _ _ _ (w_keys _ W) G) as (K1 & K2 & K3 & K4).
  destruct (addDeps_ok _ _ _ _ D) as (D1 & D2 & D3).
  pose proof (none_issued_ps _ _ W K2) as NP. pose proof (none_issued_an _ _ W K2) as NA.
  split; cbn [km passes analyses deps executionOrder].
  - exact K1.
  - apply W.
  - intros x. rewrite D2. apply W.
  - intros x meta r L I. destruct (w_deps _ W _ _ _ L I) as (ds & Ld & J). destruct (D3 r ds Ld) as (ds' & L' & S1 & _). eauto.
  - intros r ds' x meta L' I L. destruct (mlookup (deps mg) r) as [ds|] eqn:Ld.
    + destruct (D3 r ds Ld) as (ds2 & L2 & _ & _ & S3). rewrite L' in L2. injection L2 as <-.
      destruct (S3 x I) as [J|[-> _]]; [eapply (w_deps_rev _ W); eauto|congruence].
    + exfalso. apply (proj1 (D2 r)); congruence.
  - intros r ds' x L' I. destruct (mlookup (deps mg) r) as [ds|] eqn:Ld.
    + destruct (D3 r ds Ld) as (ds2 & L2 & _ & _ & S3). rewrite L' in L2. injection L2 as <-.
      destruct (S3 x I) as [J|[-> _]]; [apply K4; eapply (w_deps_issued _ W); eauto|exact K3].
    + exfalso. apply (proj1 (D2 r)); congruence.
  - intros x L. apply K4, (w_an_issued _ W), L.
  - intros x. rewrite mlookup_insert_new by auto. destruct (String.eqb key x) eqn:X.
    + apply String.eqb_eq in X. subst. auto.
    + intros L. apply K4, (w_ps_issued _ W), L.
  - intros x meta r. rewrite mlookup_insert_new by auto. destruct (String.eqb key x) eqn:X.
    + intros E I. injection E as <-. cbn in I. apply (w_deps_an _ W). auto.
    + intros L I. eapply (w_pass_reqs _ W); eauto.
  - intros x I. rewrite mlookup_insert_new by auto. destruct (String.eqb key x) eqn:X; [discriminate|].
    destruct (O x I) as [->|J]; [rewrite String.eqb_refl in X; discriminate|]. apply (w_order _ W), J.
Qed.
Lemma registerAnalysis_ok mg a reqs k mg' : wfm mg -> registerAnalysis mg a reqs = Ok (k, mg') -> wfm mg'.
Proof.
  intros W. unfold registerAnalysis. destruct (smem (akey a) (disabled mg)); [intros E; injection E as <- <-; auto|].
  destruct (getUniqueKey (km mg) (akey a)) as [[key km']| | |] eqn:G; cbn [bind]; try discriminate.
  destruct (addDeps key reqs (deps mg)) as [deps'| | |] eqn:D; cbn [bind]; try discriminate.
  intros E. injection E as <- <-.
  destruct (getUniqueKey_ok _ _ _ _ (w_keys _ W) G) as (K1 & K2 & K3 & K4).
  destruct (addDeps_ok _ _ _ _ D) as (D1 & D2 & D3).
  pose proof (none_issued_an _ _ W K2) as NA.
  assert (ND : mlookup (deps mg) key = None).
  { destruct (mlookup (deps mg) key) eqn:X; auto. exfalso. apply (proj1 (w_deps_an _ W key)); congruence. }
  assert (NR : forall r, In r reqs -> r <> key). { intros r I ->. apply (D1 key I). exact ND. }
  assert (ND' : mlookup deps' key = None).
  { destruct (mlookup deps' key) eqn:X; auto. exfalso. apply (proj1 (D2 key)); congruence. }
  split; cbn [km passes analyses deps executionOrder].
  - exact K1.
  - unfold minsert. rewrite NA. cbn. split; auto. split; [|apply W]. intros r I. apply (w_deps_an _ W). auto.
  - intros x. rewrite mlookup_put, mlookup_insert_new by auto. destruct (String.eqb key x); [split; congruence|].
    rewrite D2. apply W.
  - intros x meta r. rewrite mlookup_insert_new by auto. destruct (String.eqb key x) eqn:X.
    + intros E I. injection E as <-. cbn in I. apply String.eqb_eq in X. subst x. specialize (NR r I).
      rewrite mlookup_put. rewrite (proj2 (String.eqb_neq key r)) by auto.
      destruct (mlookup (deps mg) r) as [ds|] eqn:Ld; [|exfalso; apply (D1 r I); auto].
      destruct (D3 r ds Ld) as (ds' & L' & _ & S2 & _). eauto.
    + intros L I. destruct (w_deps _ W _ _ _ L I) as (ds & Ld & J). destruct (D3 r ds Ld) as (ds' & L' & S1 & _).
      exists ds'. rewrite mlookup_put. destruct (String.eqb key r) eqn:Y; auto.
      apply String.eqb_eq in Y. subst r. congruence.
  - intros r ds' x meta. rewrite mlookup_put. destruct (String.eqb key r) eqn:Y.
    + intros E I. injection E as <-. destruct I.
    + intros L' I L. destruct (mlookup (deps mg) r) as [ds|] eqn:Ld.
      * destruct (D3 r ds Ld) as (ds2 & L2 & _ & _ & S3). rewrite L' in L2. injection L2 as <-.
        rewrite mlookup_insert_new in L by auto. destruct (String.eqb key x) eqn:X.
        -- injection L as <-. cbn. apply String.eqb_eq in X. subst x. destruct (S3 key I) as [J|[_ J]]; auto.
           exfalso. apply K2. eapply (w_deps_issued _ W); eauto.
        -- destruct (S3 x I) as [J|[-> _]]; [eapply (w_deps_rev _ W); eauto|]. rewrite String.eqb_refl in X. discriminate.
      * exfalso. apply (proj1 (D2 r)); congruence.
  - intros r ds' x. rewrite mlookup_put. destruct (String.eqb key r) eqn:Y.
    + intros E I. injection E as <-. destruct I.
    + intros L' I. destruct (mlookup (deps mg) r) as [ds|] eqn:Ld.
      * destruct (D3 r ds Ld) as (ds2 & L2 & _ & _ & S3). rewrite L' in L2. injection L2 as <-.
        destruct (S3 x I) as [J|[-> _]]; [apply K4; eapply (w_deps_issued _ W); eauto|exact K3].
      * exfalso. apply (proj1 (D2 r)); congruence.
  - intros x. rewrite mlookup_insert_new by auto. destruct (String.eqb key x) eqn:X.
    + apply String.eqb_eq in X. subst. auto.
    + intros L. apply K4, (w_an_issued _ W), L.
  - intros x L. apply K4, (w_ps_issued _ W), L.
  - intros x meta r L I. rewrite mlookup_insert_new by auto. destruct (String.eqb key r); [discriminate|].
    eapply (w_pass_reqs _ W); eauto.
  - apply W.
Qed.
Lemma build_ok prog : forall mg keys mg', wfm mg -> build mg prog keys = Ok mg' -> wfm mg'.
Proof.
  induction prog as [|r prog IH]; cbn; intros mg keys mg' W E; [injection E as <-; auto|].
  destruct (r keys) as [p b reqs inv|a reqs].
  - destruct (registerPass mg p b reqs inv) as [[k mg2]| | |] eqn:X; cbn [bind] in E; try discriminate.
    eapply IH; [|exact E]. eapply registerPass_ok; eauto.
  - destruct (registerAnalysis mg a reqs) as [[k mg2]| | |] eqn:X; cbn [bind] in E; try discriminate.
    eapply IH; [|exact E]. eapply registerAnalysis_ok; eauto.
Qed.

(** ** Invalidation *)
Definition closed (mg : manager) (rs : list (string * R)) : Prop :=
  forall k, mlookup rs k <> None -> exists meta, mlookup (analyses mg) k = Some meta
    /\ forall r, In r (am_reqs meta) -> mlookup rs r <> None.

Context (shuffle : list string -> list string) (SH : forall l, Permutation (shuffle l) l).
Notation invalidate := (invalidate shuffle).
Notation invalidate_round := (invalidate_round shuffle).

Section Inv.
Context (mg : manager) (W : wfm mg) (key : string) (R0 : list (string * R)) (C0 : closed mg R0).
Definition iinv (open : list string) (rs : list (string * R)) : Prop :=
  (forall k, mlookup rs k = mlookup R0 k \/ (mlookup rs k = None /\ depends mg k key))
  /\ (forall k, In k open -> mlookup R0 k <> None -> depends mg k key)
  /\ (forall k meta r, mlookup rs k <> None -> mlookup (analyses mg) k = Some meta -> In r (am_reqs meta) -> mlookup rs r = None -> In k open)
  /\ (mlookup rs key <> None -> In key open).
(** inside a round: [rest] still to do, [new] collected *)
Definition rinv (rest new : list string) (rs : list (string * R)) : Prop :=
  (forall k, mlookup rs k = mlookup R0 k \/ (mlookup rs k = None /\ depends mg k key))
  /\ (forall k, In k rest \/ In k new -> mlookup R0 k <> None -> depends mg k key)
  /\ (forall k meta r, mlookup rs k <> None -> mlookup (analyses mg) k = Some meta -> In r (am_reqs meta) -> mlookup rs r = None -> In k rest \/ In k new)
  /\ (mlookup rs key <> None -> In key rest \/ In key new).

Lemma round_step rest : forall new rs, rinv rest new rs ->
  let '(new', rs') := fold_left (fun '(newOpen, rs) k =>
               if mhas rs k then (fold_left sinsert match mlookup (deps mg) k with Some l => l | None => [] end newOpen, merase k rs)
               else (newOpen, rs)) rest (new, rs) in
  rinv [] new' rs' /\ (new' = new /\ rs' = rs \/ List.length rs' < List.length rs).
Proof.
  induction rest as [|k rest IH]; intros new rs I; cbn [fold_left]; [split; auto|].
  destruct I as (I1 & I2 & I3 & I4).
  destruct (mhas rs k) eqn:H.
  - apply mhas_ok in H.
    assert (H0 : mlookup R0 k <> None). { destruct (I1 k) as [E|[E _]]; congruence. }
    assert (Dk : depends mg k key) by (apply I2; [left; left; auto|auto]).
    specialize (IH (fold_left sinsert match mlookup (deps mg) k with Some l => l | None => [] end new) (merase k rs)).
    destruct (fold_left _ rest _) as [new' rs'] eqn:F.
    assert (J : rinv rest (fold_left sinsert match mlookup (deps mg) k with Some l => l | None => [] end new) (merase k rs)).
    { split; [|split; [|split]].
      - intros x. rewrite mlookup_erase. destruct (String.eqb k x) eqn:X; [|apply I1]. apply String.eqb_eq in X. subst. auto.
      - intros x P Px. rewrite sinserts_in in P.
        destruct P as [P|[P|P]]; [apply I2; [left; right; auto|auto]|apply I2; [right; auto|auto]|].
        destruct (mlookup (deps mg) k) as [ds|] eqn:L; [|destruct P].
        destruct (C0 x Px) as (meta & Lx & _).
        apply (dep_step mg x meta k key); auto. eapply (w_deps_rev _ W); eauto.
      - intros x meta r. rewrite !mlookup_erase. rewrite sinserts_in.
        destruct (String.eqb k x) eqn:X; [congruence|]. intros Lx La Ir Lr.
        destruct (String.eqb k r) eqn:Y.
        + apply String.eqb_eq in Y. subst r. destruct (w_deps _ W _ _ _ La Ir) as (ds & Ld & Id). rewrite Ld. auto.
        + destruct (I3 x meta r Lx La Ir Lr) as [[P|P]|P]; auto. subst. rewrite String.eqb_refl in X. discriminate.
      - rewrite mlookup_erase, sinserts_in. destruct (String.eqb k key) eqn:X; [congruence|]. intros L.
        destruct (I4 L) as [[P|P]|P]; auto. subst. rewrite String.eqb_refl in X. discriminate. }
    destruct (IH J) as [A B]. split; auto. right. pose proof (merase_length k rs H).
    destruct B as [[_ ->]|B]; lia.
  - assert (N : mlookup rs k = None). { unfold mhas in H. destruct (mlookup rs k); congruence. }
    apply IH. split; [exact I1|]. split; [|split].
    + intros x P. apply I2. destruct P; [left; right; auto|right; auto].
    + intros x meta r Lx La Ir Lr. destruct (I3 x meta r Lx La Ir Lr) as [[P|P]|P]; auto. subst. congruence.
    + intros L. destruct (I4 L) as [[P|P]|P]; auto. subst. congruence.
Qed.
Lemma round_ok open rs : iinv open rs ->
  let '(new', rs') := invalidate_round (deps mg) open rs in
  iinv new' rs' /\ (new' = [] /\ rs' = rs \/ List.length rs' < List.length rs).
Proof.
  intros (I1 & I2 & I3 & I4). unfold Manager.invalidate_round.
  assert (P : forall x, In x open <-> In x (shuffle open)).
  { intros x. split; intros H; [eapply Permutation_in; [apply Permutation_sym, SH|exact H]|eapply Permutation_in; [apply SH|exact H]]. }
  pose proof (round_step (shuffle open) [] rs) as H. destruct (fold_left _ (shuffle open) ([], rs)) as [new' rs'].
  destruct H as [(J1 & J2 & J3 & J4) B].
  - split; [exact I1|]. split; [|split].
    + intros k [Q|[]]. apply I2, P, Q.
    + intros k meta r A1 A2 A3 A4. left. apply P. eapply I3; eauto.
    + intros A. left. apply P, I4, A.
  - split; auto. split; [exact J1|]. split; [intros k Q; apply J2; auto|]. split.
    + intros k meta r A1 A2 A3 A4. destruct (J3 k meta r A1 A2 A3 A4) as [[]|Q]; auto.
    + intros A. destruct (J4 A) as [[]|Q]; auto.
Qed.
End Inv.

Lemma invalidate_ok mg key rs : wfm mg -> closed mg rs ->
  wp (invalidate mg key rs) (fun rs' => closed mg rs'
    /\ (forall k v, mlookup rs' k = Some v <-> mlookup rs k = Some v /\ ~ depends mg k key)).
Proof.
  intros W C. unfold Manager.invalidate.
  apply (wp_loop (fun '(open, rs') => iinv mg key rs open rs')
           (fun '(open, rs') => 2 * List.length rs' + match open with [] => 0 | _ => 1 end)).
  - intros [open rs'] I. destruct open as [|o open].
    + cbn. destruct I as (I1 & I2 & I3 & I4).
      assert (Cl : closed mg rs').
      { intros k H. destruct (I1 k) as [E|[E _]]; [|congruence]. destruct (C k) as (meta & L & Q); [congruence|].
        exists meta. split; auto. intros r J N. eapply I3; eauto. }
      assert (Nk : mlookup rs' key = None) by (destruct (mlookup rs' key) eqn:X; auto; exfalso; apply I4; congruence).
      assert (ND : forall k d, depends mg k d -> d = key -> mlookup rs' k = None).
      { induction 1 as [k|k meta r d L J D IH]; intros Ed; [subst; auto|].
        specialize (IH Ed). destruct (mlookup rs' k) eqn:X; auto. exfalso. eapply I3; eauto; congruence. }
      split; auto. intros k v. split.
      * intros H. split; [destruct (I1 k) as [E|[E _]]; congruence|]. intros D. rewrite (ND k key D eq_refl) in H. discriminate.
      * intros [H D]. destruct (I1 k) as [E|[_ E]]; [congruence|contradiction].
    + cbn [wp]. pose proof (round_ok mg W key rs C (o :: open) rs' I) as H.
      destruct (invalidate_round (deps mg) (o :: open) rs') as [new' rs2]. destruct H as [J [[-> ->]|B]]; split; auto; [lia|].
      destruct new'; lia.
  - split; [intros k; auto|]. split; [intros k [->|[]] _; constructor|]. split; [|intros _; left; auto].
    intros k meta r L La Ir Lr. exfalso. destruct (C k L) as (meta' & La' & Q). rewrite La in La'. injection La' as <-. exact (Q r Ir Lr).
  - cbn. lia.
Qed.
Lemma invalidates_ok mg keys : wfm mg -> forall rs, closed mg rs ->
  wp (fold_left (fun r inv => bind r (fun rs => invalidate mg inv rs)) keys (Ok rs)) (fun rs' => closed mg rs'
    /\ (forall k v, mlookup rs' k = Some v <-> mlookup rs k = Some v /\ forall i, In i keys -> ~ depends mg k i)).
Proof.
  intros W. induction keys as [|i keys IH]; intros rs C.
  - cbn. split; auto. intros k v. split; [intros H; split; auto|intros [H _]; auto].
  - cbn [fold_left bind]. destruct (wp_inv _ _ (invalidate_ok mg i rs W C)) as (rs1 & -> & C1 & H1).
    eapply wp_conseq; [apply IH; auto|]. intros rs2 [C2 H2]. split; auto. intros k v. rewrite H2, H1. split.
    + intros [[A B] D]. split; auto. intros j [->|J]; auto.
    + intros [A B]. split; [split; auto|]; [apply B; left; auto|intros j J; apply B; right; auto].
Qed.

(** ** Runs.  [Q m k r lg]: the result [r] of [k] is good on module [m] after the events [lg]. *)
Section Run.
Context (mg : manager) (W : wfm mg) (Q : M -> string -> R -> list event -> Prop).
Context (Q_run : forall m k meta seen lg, mlookup (analyses mg) k = Some meta ->
  (forall r, In r (am_reqs meta) -> exists v, seen r = Some v /\ Q m r v lg) ->
  Q m k (arun (am_analysis meta) m seen) (lg ++ [EvAnalysis k m seen (arun (am_analysis meta) m seen)])).
Context (Q_an : forall m k v lg k' seen r, Q m k v lg -> Q m k v (lg ++ [EvAnalysis k' m seen r])).
Context (Q_pass : forall m k v lg p meta seen, Q m k v lg -> seen k = Some v -> mlookup (passes mg) p = Some meta ->
  (forall i, In i (pm_invalidates meta) -> ~ depends mg k i) ->
  Q (prun (pm_pass meta) m seen) k v (lg ++ [EvPass p m seen])).

(** what an event needed was there and good *)
Definition served (lg : list event) (e : event) : Prop :=
  match e with
  | EvAnalysis k m seen r => exists meta, mlookup (analyses mg) k = Some meta /\ r = arun (am_analysis meta) m seen
      /\ forall q, In q (am_reqs meta) -> exists v, seen q = Some v /\ Q m q v lg
  | EvPass p m seen => exists meta, mlookup (passes mg) p = Some meta
      /\ forall q, In q (pm_reqs meta) -> exists v, seen q = Some v /\ Q m q v lg
  end.
Definition goodlog (lg : list event) : Prop := forall pre e post, lg = pre ++ e :: post -> served pre e.
Lemma goodlog_snoc lg e : goodlog lg -> served lg e -> goodlog (lg ++ [e]).
Proof.
  intros G S pre x post E. destruct post as [|y post].
  - apply app_inj_tail in E. destruct E as [<- <-]. exact S.
  - destruct (exists_last (l := y :: post)) as (post' & z & Ez); [discriminate|]. rewrite Ez in E.
    rewrite app_comm_cons, app_assoc in E. apply app_inj_tail in E. destruct E as [-> <-]. apply (G pre x post'). auto.
Qed.
Record sinv (st : state) : Prop := {
  s_closed : closed mg (results st);
  s_good : forall k v, mlookup (results st) k = Some v -> Q (module st) k v (log st);
  s_log : goodlog (log st) }.

Lemma runAnalysis_ok fuel : forall name st, sinv st -> mlookup (analyses mg) name <> None -> rk (analyses mg) name < fuel ->
  wp (runAnalysis fuel mg name st) (fun st' => sinv st' /\ module st' = module st
    /\ (forall k, mlookup (results st) k <> None -> mlookup (results st') k <> None) /\ mlookup (results st') name <> None).
Proof.
  induction fuel as [|fuel IH]; intros name st S H L; [lia|]. cbn [runAnalysis].
  destruct (mhas (results st) name) eqn:Hs. { apply mhas_ok in Hs. cbn. auto. }
  destruct (mlookup (analyses mg) name) as [meta|] eqn:Ln; [|congruence].
  pose proof (acyc_rank _ (w_acyc _ W) _ _ Ln) as AR.
  assert (F : forall reqs, (forall r, In r reqs -> mlookup (analyses mg) r <> None /\ rk (analyses mg) r < rk (analyses mg) name) ->
     forall st, sinv st -> wp (fold_left (fun r dep => bind r (fun st => runAnalysis fuel mg dep st)) reqs (Ok st))
       (fun st' => sinv st' /\ module st' = module st
          /\ (forall k, mlookup (results st) k <> None -> mlookup (results st') k <> None)
          /\ forall r, In r reqs -> mlookup (results st') r <> None)).
  { clear AR. induction reqs as [|q reqs IHr]; intros AR st0 S0; [cbn; split; auto; split; auto; split; auto; intros r []|].
    cbn [fold_left bind]. destruct (AR q (or_introl eq_refl)) as [A1 A2].
    destruct (wp_inv _ _ (IH q st0 S0 A1 ltac:(lia))) as (st1 & -> & S1 & M1 & X1 & Y1).
    eapply wp_conseq; [apply (IHr ltac:(intros; apply AR; right; auto) st1 S1)|].
    intros st2 (S2 & M2 & X2 & Y2). split; auto. split; [congruence|]. split; [auto|].
    intros r [->|I]; auto. }
  apply wp_bind. eapply wp_conseq; [apply (F _ AR st S)|].
  intros st1 (S1 & M1 & X1 & Y1). cbn [wp].
  assert (SV : forall q, In q (am_reqs meta) -> exists v, mlookup (results st1) q = Some v /\ Q (module st1) q v (log st1)).
  { intros q I. destruct (mlookup (results st1) q) as [v|] eqn:E; [|exfalso; eapply Y1; eauto].
    exists v. split; auto. apply (s_good _ S1). auto. }
  split; [|cbn [module results log]; split; [auto|split]].
  - split; cbn [module results log].
    + intros k. rewrite mlookup_put. destruct (String.eqb name k) eqn:E.
      * intros _. apply String.eqb_eq in E. subst k. exists meta. split; auto. intros r I. rewrite mlookup_put.
        destruct (String.eqb name r); [discriminate|auto].
      * intros K. destruct (s_closed _ S1 k K) as (meta' & A & B). exists meta'. split; auto. intros r I.
        rewrite mlookup_put. destruct (String.eqb name r); [discriminate|auto].
    + intros k v. rewrite mlookup_put. destruct (String.eqb name k) eqn:E.
      * intros X. injection X as <-. apply String.eqb_eq in E. subst k. apply Q_run; auto.
      * intros X. apply Q_an. apply (s_good _ S1). auto.
    + apply goodlog_snoc; [apply S1|]. cbn. exists meta. auto.
  - intros k K. rewrite mlookup_put. destruct (String.eqb name k); [discriminate|auto].
  - rewrite mlookup_put, String.eqb_refl. discriminate.
Qed.
Lemma runAnalyses_ok reqs : (forall r, In r reqs -> mlookup (analyses mg) r <> None) -> forall st, sinv st ->
  wp (fold_left (fun r dep => bind r (fun st => runAnalysis (afuel mg) mg dep st)) reqs (Ok st))
     (fun st' => sinv st' /\ module st' = module st /\ (forall k, mlookup (results st) k <> None -> mlookup (results st') k <> None)
        /\ forall r, In r reqs -> mlookup (results st') r <> None).
Proof.
  induction reqs as [|q reqs IH]; intros H st S; [cbn; split; auto; split; auto; split; auto; intros r []|].
  cbn [fold_left bind].
  pose proof (rk_le (analyses mg) q) as RK.
  destruct (wp_inv _ _ (runAnalysis_ok (afuel mg) q st S (H q (or_introl eq_refl)) ltac:(unfold afuel; lia))) as (st1 & -> & S1 & M1 & X1 & Y1).
  eapply wp_conseq; [apply (IH ltac:(intros; apply H; right; auto) st1 S1)|].
  intros st2 (S2 & M2 & X2 & Y2). split; auto. split; [congruence|]. split; auto. intros r [->|I]; auto.
Qed.

Lemma runPass_ok fuel : forall name it st, sinv st -> mlookup (passes mg) name <> None ->
  let '(st', o) := runPass shuffle fuel mg name it st in sinv st' /\ (o = Ok tt \/ o = NoFuel).
Proof.
  induction fuel as [|fuel IH]; intros name it st S H; cbn [runPass]; [auto|].
  destruct (mlookup (passes mg) name) as [meta|] eqn:L; [|congruence].
  destruct (wp_inv _ _ (runAnalyses_ok (pm_reqs meta) ltac:(intros; eapply (w_pass_reqs _ W); eauto) st S)) as (st1 & -> & S1 & M1 & X1 & Y1).
  destruct (wp_inv _ _ (invalidates_ok mg (pm_invalidates meta) W (results st1) (s_closed _ S1))) as (rs & -> & Cl & Hr).
  set (m' := prun (pm_pass meta) (module st1) (mlookup (results st1))).
  assert (S2 : sinv (State m' rs (log st1 ++ [EvPass name (module st1) (mlookup (results st1))]))).
  { split; cbn [module results log].
    - exact Cl.
    - intros k v E. apply Hr in E. destruct E as [E D]. apply Q_pass; auto. apply (s_good _ S1). auto.
    - apply goodlog_snoc; [apply S1|]. cbn. exists meta. split; auto. intros q I.
      destruct (mlookup (results st1) q) as [v|] eqn:E; [|exfalso; eapply Y1; eauto].
      exists v. split; auto. apply (s_good _ S1). auto. }
  destruct (shouldRepeat (pm_pass meta) m' (Datatypes.S it)); [|auto].
  apply IH; auto. congruence.
Qed.
Lemma runAll_ok fuel order : (forall k, In k order -> mlookup (passes mg) k <> None) -> forall st, sinv st ->
  let '(st', o) := runAll shuffle fuel mg order st in sinv st' /\ (o = Ok tt \/ o = NoFuel).
Proof.
  induction order as [|p order IH]; intros H st S; cbn [runAll]; [auto|].
  pose proof (runPass_ok fuel p 0 st S (H p (or_introl eq_refl))) as P.
  destruct (runPass shuffle fuel mg p 0 st) as [st1 o]. destruct P as [S1 [->| ->]]; [|auto].
  apply IH; auto. intros; apply H; right; auto.
Qed.
Lemma run_ok fuel m : let '(st', o) := run shuffle fuel mg m in sinv st' /\ (o = Ok tt \/ o = NoFuel).
Proof.
  unfold run. apply runAll_ok; [apply (w_order _ W)|]. split; cbn.
  - intros k H. exfalso. apply H. reflexivity.
  - intros k v H. discriminate.
  - intros pre e post E. destruct pre; discriminate.
Qed.
End Run.
End Proofs.
