(** From the resolution of the names to the runs.  Proof machinery only. *)
From Coq Require Import List Bool Arith Lia.
From Verif.Scope Require Import Spec Model Events Flow Sim Link Path Items Pass Trail.
Import ListNotations.

Section Final.
  Context {V : Type} (p : stmt V).
  Context (Cov : covered p = true) (Num : well_numbered p).

  Lemma all_opens : forall x, NoDup (opens (all x p)).
  Proof. intros x. unfold all. simpl. rewrite opens_evs. apply Num. Qed.
  Lemma all_bodies : forall x, NoDup (bodies (all x p)).
  Proof.
    intros x. unfold all. simpl. apply (sub_nodup _ _ (0 :: parts p)); [|apply Num].
    constructor. apply bodies_evs.
  Qed.
  Lemma all_bds : forall x, NoDup (bds (all x p)).
  Proof. intros x. unfold all. simpl. apply (sub_nodup _ _ (nodes p)); [apply bds_evs|apply Num]. Qed.
  Lemma all_rds : forall x, NoDup (rds (all x p)).
  Proof. intros x. unfold all. simpl. apply (sub_nodup _ _ (nodes p)); [apply rds_evs|apply Num]. Qed.
  Lemma all_root : forall x u w, all x p = u ++ w -> u <> [] -> exists n, path u = 0 :: n.
  Proof.
    intros x u w E N. destruct u as [|z u]; [congruence|]. injection E as <- E.
    assert (S : stays u).
    { apply (stays_app_l u w). rewrite <- E. apply bal_stays. exact (evs_bal V x p). }
    destruct S as [d S].
    destruct (path_dep [Open 0 true false] u d S) as (n & Hn & _). exists n. exact Hn.
  Qed.
  Lemma all_kf : forall x u e w, all x p = u ++ e :: w ->
    (exists b, e = Bd b) \/ (exists k fo, e = Body k fo) ->
    forall j su, In (j, su) (tl (ostack u)) -> su = true /\ exists fo, In (Body j fo) u.
  Proof.
    intros x u e w E B.
    assert (K : kf [] (all x p)).
    { unfold all. apply (kf_open [] 0 true false). simpl.
      assert (O : ok1 [Open 0 true false]) by (intros j su []).
      apply (kf_app _ [_]); [apply kf_one; exact O|].
      apply kf_evs; [exact Cov|]. apply (ok_body [_] 0 false []); [reflexivity|exact O]. }
    exact (K u e w E B).
  Qed.
  Lemma all_bm : forall x, bm (all x p).
  Proof.
    intros x [|z u] k fo w E; [discriminate|]. injection E as <- E.
    destruct u as [|y u]; injection E as E1 E2.
    - subst. exists [], false, []. repeat split; discriminate.
    - subst y. destruct (bm_evs x p u k fo w E2) as (p1 & lp & m & -> & R).
      exists (Open 0 true false :: Body 0 false :: p1), lp, m. auto.
  Qed.
  Lemma all_bf : forall x u k fo w, all x p = u ++ Body k fo :: w ->
    exists st, ostack u = (k, true) :: st.
  Proof.
    intros x u k fo w E. destruct (all_bm x u k fo w E) as (p1 & lp & m & -> & B & _).
    exists (ostack p1). change (p1 ++ Open k true lp :: m) with (p1 ++ [Open k true lp] ++ m).
    rewrite app_assoc, ostack_bal by exact B. rewrite ostack_app. reflexivity.
  Qed.
  Lemma all_ff : forall x u k w, all x p = u ++ Body k true :: w ->
    exists p' m, u = p' ++ Open k true true :: m /\ bal m /\ rds m = [].
  Proof.
    intros x u k w E. destruct (all_bm x u k true w E) as (p1 & lp & m & -> & B & R).
    destruct (R eq_refl) as [-> R']. exists p1, m. auto.
  Qed.
  Lemma all_cf : forall x u lp w, all x p = u ++ Close lp :: w ->
    exists p1 k su es, u = p1 ++ Open k su lp :: es /\ bal es.
  Proof.
    intros x [|z u] lp w E; [discriminate|]. injection E as <- E.
    destruct u as [|y u]; injection E as E1 E2; [discriminate|]. subst y.
    destruct (cm_evs x p u lp w E2) as (p1 & k & su & m & -> & B).
    exists (Open 0 true false :: Body 0 false :: p1), k, su, m. auto.
  Qed.

  Lemma passed_all : forall x pre q s, all x p = pre ++ q ->
    steps pre (St [] [] ann0) = Some s -> inv pre s.
  Proof.
    intros x. apply (pass (all x p)); auto using all_opens, all_bds, all_bodies, all_rds.
    - apply all_root.
    - apply all_kf.
    - apply all_bf.
    - apply all_ff.
    - apply all_cf.
  Qed.

  Lemma flows : forall strict, (strict = true -> loops_after [] p) ->
    forall x a, resolve x p = Some a ->
    exists f, flow strict a (Link.H a (all x p)) (all x p) fs0 = Some f.
  Proof.
    intros strict LA x a R. destruct (resolve_steps x p a R) as (s & Es & <-).
    assert (I : inv (all x p) s).
    { apply (passed_all x _ []); [rewrite app_nil_r; reflexivity|exact Es]. }
    apply link with (x := x) (p := p); auto using all_opens.
    - apply (v_claims _ _ I).
    - intros St u k fo w E D. destruct (v_items _ _ I) as (nb & ns & Td).
      destruct (decl_first (all x p) (all_bodies x) (all x p) [] (an s) (items s) nb ns
        (eq_sym (app_nil_r _)) Td u k fo w E D) as (_ & _ & Z & u2 & b & w2 & -> & Su).
      intros (p1 & k' & su & p2 & -> & S2).
      assert (L : la [] (all x p)).
      { unfold all. intros [|z v] j sj m c y Ev Sm; [discriminate|]. injection Ev as <- Ev.
        destruct v as [|z' v]; injection Ev as E1 E2; [discriminate|]. subst z'.
        assert (L0 : la [Open 0 true false; Body 0 false] (evs x p)).
        { apply (la_evs x p [] _ (LA St)). intros []. }
        exact (L0 v j sj m c y E2 Sm). }
      rewrite bds_app in Z. apply app_eq_nil in Z. destruct Z as [Z _].
      refine (L p1 k' su (p2 ++ Body k fo :: u2) b w2 _ _ Z).
      + rewrite E. rewrite <- ?app_assoc. simpl. rewrite <- ?app_assoc. reflexivity.
      + apply stays_app; [exact S2|]. destruct Su as [d Su]. exists d. exact Su.
  Qed.

  Context (truth : V -> bool) (elems : V -> list V).

  Lemma runs : forall strict, (strict = true -> loops_after [] p) ->
    forall q, compile p = Some q -> forall n,
    run truth elems n q = python truth elems n p \/
    (strict = false /\ (exists y, snd (run truth elems n q) = NameError y) /\
     exists t, fst (python truth elems n p) = fst (run truth elems n q) ++ t).
  Proof.
    intros strict LA q C n. unfold compile in C.
    set (A := fun x => resolve x p) in *.
    set (g0 := Tenv (fun _ => None) (fun _ => None)) in *.
    destruct (elab A p (enter A 0 g0)) as [[tp g']|] eqn:E; [|discriminate].
    injection C as <-. simpl fst.
    set (H := fun x k => match A x with Some a => Link.H a (all x p) k | None => false end).
    set (F' := fun x => match A x with
                        | Some a => match flow strict a (H x) (all x p) fs0 with
                                    | Some f => f | None => fs0 end
                        | None => fs0 end).
    assert (L : Fl strict A H (fun x => all x p) (fun _ => fs0) F').
    { intros x a Ha. destruct (flows strict LA x a Ha) as [f Ef].
      assert (Hx : H x = Link.H a (all x p)) by (unfold H; rewrite Ha; reflexivity).
      rewrite <- Hx in Ef. unfold F'. rewrite Ha, Ef. reflexivity. }
    unfold all in L. destruct (Fl_cons _ _ _ _ _ _ _ L) as (F1 & L1 & L2).
    destruct (Fl_cons _ _ _ _ _ _ _ L2) as (F2 & L3 & L4).
    assert (G1 : agree A g0 F1).
    { intros x a Ha. specialize (L1 x a Ha). simpl in L1. injection L1 as <-. simpl.
      split; [reflexivity|discriminate]. }
    destruct (suite_step (V := V) _ _ _ _ _ _ _ _ G1 L3) as [G2 R2].
    destruct (sim_s truth elems _ _ _ _ _ _ _ _ _ (covered_own _ Cov) E L4 G2) as [_ R].
    assert (R1 : relall (V := V) strict A F1 env0 store0).
    { intros x a Ha. specialize (L1 x a Ha). simpl in L1. injection L1 as <-. reflexivity. }
    specialize (R n _ _ (R2 _ _ R1)). unfold run, python.
    change (texec truth elems (S n) (TDecl 0 (resets A 0) tp) store0)
      with (texec truth elems n tp (reset 0 (resets A 0) store0)).
    destruct (pexec truth elems n p env0) as [o e].
    destruct (texec truth elems n tp (reset 0 (resets A 0) store0)) as [o' e'].
    destruct R as [[Eo Ee]|(Es & [y Ey] & [t Et])]; simpl in *.
    - left. unfold seen. simpl. subst o'. f_equal. destruct e, e'; simpl in *; try contradiction; congruence.
    - right. split; [exact Es|]. subst e'. split; [exists y; reflexivity|exists t; exact Et].
  Qed.
End Final.
