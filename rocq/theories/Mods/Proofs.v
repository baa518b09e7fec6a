(** Proofs about imports. *)
From Coq Require Import List ZArith Bool Arith Lia.
From Verif.Mods Require Import Spec Model.
Import ListNotations.

Lemma memb_in x l : memb x l = true <-> In x l.
Proof.
  unfold memb. rewrite existsb_exists. split.
  - intros (y & H & E). apply Nat.eqb_eq in E. now subst.
  - intros H. exists x. split; [assumption|apply Nat.eqb_refl].
Qed.
Lemma memb_out x l : memb x l = false <-> ~ In x l.
Proof. rewrite <- memb_in. destruct (memb x l); split; congruence. Qed.

(** ** At most once *)
Lemma started_app a b : started (a ++ b) = started a ++ started b.
Proof. unfold started. apply flat_map_app. Qed.
Definition once (s : state) : Prop := NoDup (started (trace s)) /\ incl (started (trace s)) (loaded s).
Lemma exec_once t env fuel : forall s c s', once s -> exec t env fuel s c = Some s' -> once s'.
Proof.
  induction fuel as [|n IH]; intros s c s' O E; [discriminate|]. cbn [exec] in E. destruct c as [|e|a b|k a b|l f|m].
  - now inversion E; subst.
  - inversion E; subst. unfold once. cbn. rewrite started_app. cbn. now rewrite app_nil_r.
  - destruct (exec t env n s a) as [s1|] eqn:E1; [|discriminate]. eauto.
  - eauto.
  - eauto.
  - destruct (memb m (loaded s)) eqn:M; [now inversion E; subst|]. apply memb_out in M.
    eapply IH; [|exact E]. destruct O as (N & I). unfold once. cbn [loaded trace]. rewrite started_app. cbn. split.
    + apply NoDup_Add with (a := m) (l := started (trace s)).
      * replace (started (trace s)) with (started (trace s) ++ []) at 1 by apply app_nil_r. apply Add_app.
      * split; [assumption|]. intros H. apply M. now apply I.
    + intros x H. apply in_app_iff in H as [H|[<-|[]]]; [right; now apply I|now left].
Qed.

(** ** Lockstep *)
Section Program.
Context (fbody mbody : nat -> cmd).
Implicit Types (st : tc) (L : nat -> Prop).

Definition lats st (m : nat) : Prop := flag_of m (flags st) = Some true.
Definition visited st (m : nat) : Prop := flag_of m (flags st) <> None.
Definition sub (A B : nat -> Prop) : Prop := forall m, A m -> B m.

(** The code [c'] of [c] drops only imports of modules in [L]. *)
Inductive rel (SF SM : nat -> nat -> Prop) st (L : nat -> Prop) : cmd -> cmd -> Prop :=
| r_skip : rel SF SM st L Skip Skip
| r_ev e : rel SF SM st L (Ev e) (Ev e)
| r_seq a b a' b' : rel SF SM st L a a' -> rel SF SM st L b b' -> rel SF SM st L (Seq a b) (Seq a' b')
| r_if k a b a' b' : rel SF SM st L a a' -> rel SF SM st L b b' -> rel SF SM st L (If k a b) (If k a' b')
| r_call l f : In f (real st) -> sub (SF f) L -> rel SF SM st L (Call l f) (Call l f)
| r_import m : flag_of m (flags st) = Some false -> sub (SM m) L -> rel SF SM st L (Import m) (Import m)
| r_drop m : L m -> rel SF SM st L (Import m) Skip.

Definition ext st st' : Prop :=
  (forall m b, flag_of m (flags st) = Some b -> flag_of m (flags st') = Some b) /\
  incl (real st) (real st') /\
  (forall f, In f (real st) -> fcode st' f = fcode st f) /\
  (forall m, visited st m -> mcode st' m = mcode st m) /\
  pending st' = pending st.
Lemma ext_refl st : ext st st.
Proof. repeat split; auto. apply incl_refl. Qed.
Lemma ext_vis st st' m : ext st st' -> visited st m -> visited st' m.
Proof.
  intros (A & _) V. unfold visited in *. destruct (flag_of m (flags st)) eqn:E; [|easy]. apply A in E. congruence.
Qed.
Lemma ext_trans a b c : ext a b -> ext b c -> ext a c.
Proof.
  intros X Y. assert (V := ext_vis a b). destruct X as (X1 & X2 & X3 & X4 & X5). assert (Y' := Y). destruct Y as (Y1 & Y2 & Y3 & Y4 & Y5).
  split; [auto|]. split; [eapply incl_tran; eauto|]. split; [|split; [|congruence]].
  - intros f F. rewrite Y3 by auto. auto.
  - intros m M. rewrite Y4; [auto|]. apply V; [|assumption]. repeat split; assumption.
Qed.
Lemma rel_mono SF SM st st' L L' c c' : rel SF SM st L c c' -> ext st st' -> sub L L' -> rel SF SM st' L' c c'.
Proof.
  intros R (X1 & X2 & _) S. induction R.
  - constructor.
  - constructor.
  - now constructor.
  - now constructor.
  - apply r_call; [now apply X2|]. intros x Hx. auto.
  - apply r_import; [now apply X1|]. intros x Hx. auto.
  - apply r_drop. auto.
Qed.

(** Code under a function: lockstep, once the modules in [L] are loaded. *)
Definition closed SF SM st : Prop :=
  (forall f, In f (real st) -> rel SF SM st (SF f) (fbody f) (fcode st f)) /\
  (forall m, flag_of m (flags st) = Some false -> rel SF SM st (SM m) (mbody m) (mcode st m)).
Definition agree0 (T : tc) st : Prop :=
  (forall f, In f (real st) -> fcode T f = fcode st f) /\
  (forall m, flag_of m (flags st) = Some false -> mcode T m = mcode st m).
Lemma nl_sim SF SM st T env : closed SF SM st -> agree0 T st -> forall fuel s c c' L, rel SF SM st L c c' ->
  (forall m, L m -> In m (loaded s)) ->
  run fbody mbody env fuel s c = exec T env fuel s c' /\
  forall s', run fbody mbody env fuel s c = Some s' ->
    incl (loaded s) (loaded s') /\ ((forall m, In m (loaded s) -> visited st m) -> forall m, In m (loaded s') -> visited st m).
Proof.
  intros (C1 & C2) (A1 & A2). induction fuel as [|n IH]; intros s c c' L R H; [split; [reflexivity|discriminate]|].
  destruct R as [|e|a b a' b' Ra Rb|k a b a' b' Ra Rb|l f Hf Sf|m Hm Sm|m Hm]; cbn [run exec].
  - split; [reflexivity|]. intros s' E. inversion E; subst. split; [apply incl_refl|auto].
  - split; [reflexivity|]. intros s' E. inversion E; subst. split; [apply incl_refl|auto].
  - destruct (IH s a a' L Ra H) as (E1 & P1). rewrite <- E1. destruct (run fbody mbody env n s a) as [s1|]; [|split; [reflexivity|discriminate]].
    destruct (P1 s1 eq_refl) as (I1 & V1). destruct (IH s1 b b' L Rb) as (E2 & P2); [intros; apply I1; auto|]. split; [assumption|].
    intros s' E. destruct (P2 s' E) as (I2 & V2). split; [eapply incl_tran; eauto|auto].
  - destruct (env k (trace s)); eapply IH; eauto.
  - rewrite A1 by assumption. apply (IH s (fbody f) (fcode st f) (SF f)); [now apply C1|]. intros m Hm. auto.
  - destruct (memb m (loaded s)) eqn:M.
    + split; [reflexivity|]. intros s' E. inversion E; subst. split; [apply incl_refl|auto].
    + rewrite A2 by assumption.
      destruct (IH {| loaded := m :: loaded s; trace := trace s ++ [Started m] |} (mbody m) (mcode st m) (SM m)) as (E & P);
        [now apply C2|intros x Hx; right; auto|]. split; [assumption|].
      intros s' Es. destruct (P s' Es) as (I & V). cbn [loaded] in *. split; [intros x Hx; apply I; now right|].
      intros Hv. apply V. intros x [<-|Hx]; [|auto]. unfold visited. congruence.
  - assert (M : memb m (loaded s) = true) by (apply memb_in; auto). rewrite M.
    split; [reflexivity|]. intros s' E. inversion E; subst. split; [apply incl_refl|auto].
Qed.

Context (NLf : forall f, no_late (fbody f)) (NLm : forall m, no_late (mbody m)).

Lemma flag_cons m b l x : flag_of x ((m, b) :: l) = if Nat.eqb m x then Some b else flag_of x l.
Proof. unfold flag_of. cbn [find fst]. now destruct (Nat.eqb m x). Qed.

(** Type-checking under a function, or in a module first imported there. *)
Lemma compile_nl SF SM n : forall st c c' st', compile fbody mbody n false st c = Some (c', st') -> no_late c ->
  (forall f, sub (SF f) (lats st)) -> (forall m, sub (SM m) (lats st)) ->
  (forall f, ~ In f (real st) -> sub (lats st) (SF f)) -> (forall m, ~ visited st m -> sub (lats st) (SM m)) ->
  ext st st' /\ sub (lats st') (lats st) /\ rel SF SM st' (lats st) c c' /\
  (forall f, In f (real st') -> ~ In f (real st) -> rel SF SM st' (SF f) (fbody f) (fcode st' f)) /\
  (forall m, visited st' m -> ~ visited st m -> rel SF SM st' (SM m) (mbody m) (mcode st' m)).
Proof.
  induction n as [|n IH]; intros st c c' st' E NL HF HM GF GM; [discriminate|]. cbn [compile] in E.
  assert (Two : forall a b a' b' st1, no_late a -> no_late b -> compile fbody mbody n false st a = Some (a', st1) -> compile fbody mbody n false st1 b = Some (b', st') ->
    ext st st' /\ sub (lats st') (lats st) /\ rel SF SM st' (lats st) a a' /\ rel SF SM st' (lats st) b b' /\
    (forall f, In f (real st') -> ~ In f (real st) -> rel SF SM st' (SF f) (fbody f) (fcode st' f)) /\
    (forall m, visited st' m -> ~ visited st m -> rel SF SM st' (SM m) (mbody m) (mcode st' m))).
  { intros a b a' b' st1 Na Nb Ea Eb. destruct (IH st a a' st1 Ea Na HF HM GF GM) as (X1 & L1 & R1 & F1 & M1).
    assert (L1' : sub (lats st) (lats st1)) by (intros m; apply X1).
    destruct (IH st1 b b' st' Eb Nb) as (X2 & L2 & R2 & F2 & M2).
    - intros f m Hm. apply L1'. now apply (HF f).
    - intros f m Hm. apply L1'. now apply (HM f).
    - intros f Nf m Hm. apply (GF f); [|now apply L1]. intros H. apply Nf. now apply X1.
    - intros m Nm x Hx. apply (GM m); [|now apply L1]. intros H. apply Nm. now apply (ext_vis st).
    - split; [eapply ext_trans; eauto|]. split; [intros m Hm; auto|]. split; [eapply rel_mono; eauto; now intros m|].
      split; [eapply rel_mono; [exact R2|apply ext_refl|assumption]|]. split.
      + intros f Hf Nf. destruct (in_dec Nat.eq_dec f (real st1)) as [H1|H1]; [|now apply F2].
        replace (fcode st' f) with (fcode st1 f) by (symmetry; now apply X2). eapply rel_mono; [apply F1; assumption|assumption|now intros m].
      + intros m Hm Nm. destruct (flag_of m (flags st1)) as [b0|] eqn:Fm.
        * assert (V1 : visited st1 m) by (unfold visited; congruence).
          replace (mcode st' m) with (mcode st1 m) by (symmetry; now apply X2). eapply rel_mono; [apply M1; assumption|assumption|now intros x].
        * apply M2; [assumption|]. unfold visited. now rewrite Fm. }
  destruct c as [|e|a b|k a b|l f|m].
  - inversion E; subst. split; [apply ext_refl|]. split; [now intros m|]. split; [constructor|]. split; intros; contradiction.
  - inversion E; subst. split; [apply ext_refl|]. split; [now intros m|]. split; [constructor|]. split; intros; contradiction.
  - destruct (compile fbody mbody n false st a) as [[a' st1]|] eqn:Ea; [|discriminate].
    destruct (compile fbody mbody n false st1 b) as [[b' st2]|] eqn:Eb; [|discriminate]. inversion E; subst. destruct NL as (Na & Nb).
    destruct (Two a b a' b' st1 Na Nb Ea Eb) as (X & L & R1 & R2 & F & M). repeat (split; [assumption|]). split; [now constructor|]. now split.
  - destruct (compile fbody mbody n false st a) as [[a' st1]|] eqn:Ea; [|discriminate].
    destruct (compile fbody mbody n false st1 b) as [[b' st2]|] eqn:Eb; [|discriminate]. inversion E; subst. destruct NL as (Na & Nb).
    destruct (Two a b a' b' st1 Na Nb Ea Eb) as (X & L & R1 & R2 & F & M). repeat (split; [assumption|]). split; [now constructor|]. now split.
  - cbn in NL. subst l. destruct (memb f (real st)) eqn:Mf.
    + apply memb_in in Mf. inversion E; subst. split; [apply ext_refl|]. split; [now intros m|].
      split; [constructor; [assumption|apply HF]|]. split; intros; contradiction.
    + apply memb_out in Mf. set (st1 := {| flags := flags st; real := f :: real st; fcode := fcode st; mcode := mcode st; pending := pending st |}) in *.
      destruct (compile fbody mbody n false st1 (fbody f)) as [[cf st2]|] eqn:Ef; [|discriminate]. inversion E; subst c' st'. clear E.
      destruct (IH st1 (fbody f) cf st2 Ef (NLf f) HF HM) as (X & L & R & F & M).
      { intros g Ng. apply GF. intros H. apply Ng. now right. }
      { exact GM. }
      assert (Hf2 : In f (real st2)) by (apply X; now left).
      destruct X as (Xa & Xb & Xc & Xd & Xe).
      assert (Rr : forall L0 a b, rel SF SM st2 L0 a b -> rel SF SM {| flags := flags st2; real := real st2; fcode := set (fcode st2) f cf; mcode := mcode st2; pending := pending st2 |} L0 a b).
      { intros L0 a b H. induction H; constructor; assumption. }
      split; [|split; [|split; [|split]]].
      * split; [exact Xa|]. split; [intros g Hg; apply Xb; now right|]. split; [|split; [exact Xd|exact Xe]].
        intros g Hg. cbn [fcode]. unfold set. destruct (Nat.eqb_spec g f) as [->|]; [contradiction|]. rewrite Xc by (now right). reflexivity.
      * exact L.
      * constructor; [exact Hf2|]. apply HF.
      * intros g Hg Ng. cbn [fcode real] in *. unfold set. destruct (Nat.eqb_spec g f) as [->|Ngf].
        -- apply Rr. eapply rel_mono; [exact R|apply ext_refl|]. intros x Hx. apply (GF f); assumption.
        -- apply Rr. apply F; [assumption|]. intros [H|H]; congruence.
      * intros m Hm Nm. apply Rr. now apply M.
  - destruct (flag_of m (flags st)) as [b|] eqn:Fm.
    + inversion E; subst. split; [apply ext_refl|]. split; [now intros x|]. split; [|split; intros; contradiction].
      destruct b; cbn [negb]; [now apply r_drop|]. apply r_import; [assumption|apply HM].
    + set (st1 := {| flags := (m, false) :: flags st; real := real st; fcode := fcode st; mcode := mcode st; pending := pending st |}) in *.
      destruct (compile fbody mbody n false st1 (mbody m)) as [[cm st2]|] eqn:Em; [|discriminate]. inversion E; subst c' st'. clear E.
      assert (L1 : forall x, lats st1 x <-> lats st x).
      { intros x. unfold lats, st1. cbn [flags]. rewrite flag_cons. destruct (Nat.eqb_spec m x) as [->|]; [|reflexivity]. rewrite Fm. split; discriminate. }
      destruct (IH st1 (mbody m) cm st2 Em (NLm m)) as (X & L & R & F & M).
      { intros f x Hx. apply L1. now apply (HF f). }
      { intros f x Hx. apply L1. now apply (HM f). }
      { intros f Nf x Hx. apply (GF f); [assumption|]. now apply L1. }
      { intros f Nf x Hx. apply (GM f); [|now apply L1]. intros V. apply Nf. unfold visited, st1 in *. cbn [flags]. rewrite flag_cons.
        destruct (Nat.eqb m f); [discriminate|assumption]. }
      assert (F1 : flag_of m (flags st1) = Some false) by (unfold st1; cbn [flags]; rewrite flag_cons, Nat.eqb_refl; reflexivity).
      destruct X as (Xa & Xb & Xc & Xd & Xe).
      assert (Rr : forall L0 a b, rel SF SM st2 L0 a b -> rel SF SM {| flags := flags st2; real := real st2; fcode := fcode st2; mcode := set (mcode st2) m cm; pending := pending st2 |} L0 a b).
      { intros L0 a b H. induction H; constructor; assumption. }
      assert (Fx : forall x b, flag_of x (flags st) = Some b -> flag_of x (flags st1) = Some b).
      { intros x b Hx. unfold st1. cbn [flags]. rewrite flag_cons. destruct (Nat.eqb_spec m x) as [->|]; [congruence|assumption]. }
      assert (Vx : forall x, visited st x -> visited st1 x).
      { intros x Hx. unfold visited in *. destruct (flag_of x (flags st)) as [b|] eqn:Ex; [|easy]. rewrite (Fx x b Ex). discriminate. }
      split; [|split; [|split; [|split]]].
      * split; [intros x b Hx; apply Xa; now apply Fx|]. split; [exact Xb|]. split; [exact Xc|]. split; [|exact Xe].
        intros x Hx. cbn [mcode]. unfold set. destruct (Nat.eqb_spec x m) as [->|]; [unfold visited in Hx; congruence|]. rewrite Xd by auto. reflexivity.
      * intros x Hx. apply L1. now apply L.
      * apply r_import; [now apply Xa|]. apply HM.
      * intros f Hf Nf. apply Rr. now apply F.
      * intros x Hx Nx. cbn [mcode]. unfold set. destruct (Nat.eqb_spec x m) as [->|Nxm].
        -- apply Rr. eapply rel_mono; [exact R|apply ext_refl|]. intros y Hy. apply (GM m); [assumption|]. now apply L1.
        -- apply Rr. apply M; [assumption|]. unfold visited, st1 in *. cbn [flags]. rewrite flag_cons.
           destruct (Nat.eqb_spec m x); [congruence|assumption].
Qed.

Lemma compile_no_import n : forall top st c, no_import c -> compile fbody mbody n top st c = compile fbody mbody n false st c.
Proof.
  induction n as [|n IH]; intros top st c N; [reflexivity|]. destruct c as [|e|a b|k a b|l f|m]; cbn [compile no_import] in *; try reflexivity.
  - destruct N as (Na & Nb). rewrite (IH top st a Na). destruct (compile fbody mbody n false st a) as [[a' st1]|]; [|reflexivity]. now rewrite (IH top st1 b Nb).
  - destruct N as (Na & Nb). rewrite (IH top st a Na). destruct (compile fbody mbody n false st a) as [[a' st1]|]; [|reflexivity]. now rewrite (IH top st1 b Nb).
  - contradiction.
Qed.

(** ** The top level *)
Definition inv st : Prop := exists SF SM, closed SF SM st /\ (forall f, In f (real st) -> sub (SF f) (lats st)) /\
  (forall m, flag_of m (flags st) = Some false -> sub (SM m) (lats st)).
Definition agree (T : tc) st st' : Prop :=
  (forall f, In f (real st') -> fcode T f = fcode st' f) /\
  (forall m, visited st' m -> flag_of m (flags st') = Some false \/ ~ visited st m -> mcode T m = mcode st' m).
Definition sim st st' c c' : Prop := forall T env, agree T st st' -> forall fuel s,
  (forall m, lats st m -> In m (loaded s)) -> (forall m, In m (loaded s) -> visited st m) ->
  run fbody mbody env fuel s c = exec T env fuel s c' /\
  forall s', run fbody mbody env fuel s c = Some s' -> (forall m, lats st' m -> In m (loaded s')) /\ (forall m, In m (loaded s') -> visited st' m).
Lemma top_plain n st c c' st' : compile fbody mbody n false st c = Some (c', st') -> no_late c -> inv st ->
  inv st' /\ ext st st' /\ sub (lats st') (lats st) /\ sim st st' c c'.
Proof.
  intros E NL (SF0 & SM0 & (C1 & C2) & B1 & B2).
  set (SF := fun f => if memb f (real st) then SF0 f else lats st).
  set (SM := fun m => match flag_of m (flags st) with Some false => SM0 m | _ => lats st end).
  assert (RR : forall L a b, rel SF0 SM0 st L a b -> rel SF SM st L a b).
  { intros L a b H. induction H as [|e|a b a' b' Ra IHa Rb IHb|k a b a' b' Ra IHa Rb IHb|l f Hf Sf|m Hm Sm|m Hm]; try (constructor; assumption).
    - apply r_call; [assumption|]. unfold SF. now rewrite (proj2 (memb_in f (real st)) Hf).
    - apply r_import; [assumption|]. unfold SM. now rewrite Hm. }
  destruct (compile_nl SF SM n st c c' st' E NL) as (X & L & R & F & M).
  - intros f. unfold SF. destruct (memb f (real st)) eqn:H; [apply B1; now apply memb_in|now intros m].
  - intros m. unfold SM. destruct (flag_of m (flags st)) as [[|]|] eqn:H; [now intros x|now apply B2|now intros x].
  - intros f Nf. unfold SF. rewrite (proj2 (memb_out f (real st)) Nf). now intros m.
  - intros m Nm. unfold SM. unfold visited in Nm. destruct (flag_of m (flags st)); [exfalso; apply Nm; discriminate|now intros x].
  - assert (L' : sub (lats st) (lats st')) by (intros m; apply X).
    assert (C : closed SF SM st').
    { split.
      - intros f Hf. destruct (in_dec Nat.eq_dec f (real st)) as [H|H]; [|now apply F].
        replace (fcode st' f) with (fcode st f) by (symmetry; now apply X). apply rel_mono with (st := st) (L := SF f); [|exact X|now intros m].
        replace (SF f) with (SF0 f) by (unfold SF; now rewrite (proj2 (memb_in f (real st)) H)). apply RR. now apply C1.
      - intros m Hm. assert (V' : visited st' m) by (unfold visited; congruence).
        destruct (flag_of m (flags st)) as [b|] eqn:H.
        + assert (b = false) by (assert (Y := proj1 X m b H); congruence). subst b.
          replace (mcode st' m) with (mcode st m) by (symmetry; apply X; unfold visited; congruence). apply rel_mono with (st := st) (L := SM m); [|exact X|now intros x].
          replace (SM m) with (SM0 m) by (unfold SM; now rewrite H). apply RR. now apply C2.
        + apply M; [assumption|]. unfold visited. now rewrite H. }
    split; [|split; [assumption|split; [assumption|]]].
    + exists SF, SM. split; [assumption|]. split.
      * intros f Hf m Hm. apply L'. unfold SF in Hm. destruct (memb f (real st)) eqn:H; [|assumption]. apply (B1 f); [now apply memb_in|assumption].
      * intros f Hf m Hm. apply L'. unfold SM in Hm. destruct (flag_of f (flags st)) as [[|]|] eqn:H; [assumption| |assumption]. now apply (B2 f).
    + intros T env (A1 & A2) fuel s Ls Vs. destruct (nl_sim SF SM st' T env C) with (fuel := fuel) (s := s) (c := c) (c' := c') (L := lats st) as (E1 & P1); try assumption.
      { split; [assumption|]. intros m Hm. apply A2; [unfold visited; congruence|now left]. }
      split; [assumption|]. intros s' Es. destruct (P1 s' Es) as (I & V). split.
      * intros m Hm. apply I. apply Ls. now apply L.
      * apply V. intros m Hm. apply (ext_vis st); [assumption|]. now apply Vs.
Qed.

Context (FLm : forall m, imports_flat (mbody m)).
Lemma top_ok n : forall st c c' st', compile fbody mbody n true st c = Some (c', st') -> no_late c -> imports_flat c -> inv st ->
  inv st' /\ ext st st' /\ sim st st' c c'.
Proof.
  induction n as [|n IH]; intros st c c' st' E NL FL I; [discriminate|].
  assert (Plain : no_import c -> inv st' /\ ext st st' /\ sim st st' c c').
  { intros N. rewrite compile_no_import in E by assumption. destruct (top_plain (S n) st c c' st' E NL I) as (A & B & _ & D). auto. }
  destruct c as [|e|a b|k a b|l f|m]; try (apply Plain; exact Logic.I).
  - clear Plain. cbn [compile] in E. destruct (compile fbody mbody n true st a) as [[a' st1]|] eqn:Ea; [|discriminate].
    destruct (compile fbody mbody n true st1 b) as [[b' st2]|] eqn:Eb; [|discriminate]. inversion E; subst. destruct NL as (Na & Nb). destruct FL as (Fa & Fb).
    destruct (IH st a a' st1 Ea Na Fa I) as (I1 & X1 & S1). destruct (IH st1 b b' st' Eb Nb Fb I1) as (I2 & X2 & S2).
    split; [assumption|]. split; [eapply ext_trans; eauto|]. intros T env (A1 & A2) fuel s Ls Vs.
    destruct fuel as [|k]; [split; [reflexivity|discriminate]|]. cbn [run exec].
    assert (G1 : agree T st st1).
    { split.
      - intros f Hf. rewrite A1 by (now apply X2). now apply X2.
      - intros m Vm Hm. rewrite A2; [now apply X2|now apply (ext_vis st1)|]. destruct Hm as [Hm|Hm]; [left; now apply X2|now right]. }
    assert (G2 : agree T st1 st').
    { split; [assumption|]. intros m Vm Hm. apply A2; [assumption|]. destruct Hm as [Hm|Hm]; [now left|]. right. intros V. apply Hm. now apply (ext_vis st). }
    destruct (S1 T env G1 k s Ls Vs) as (E1 & P1). rewrite <- E1. destruct (run fbody mbody env k s a) as [s1|]; [|split; [reflexivity|discriminate]].
    destruct (P1 s1 eq_refl) as (L1 & V1). exact (S2 T env G2 k s1 L1 V1).
  - apply Plain. exact FL.
  - clear Plain. assert (E0 := E). cbn [compile] in E. destruct (flag_of m (flags st)) as [[|]|] eqn:Fm.
    + inversion E; subst. cbn [negb]. split; [assumption|]. split; [apply ext_refl|]. intros T env A fuel s Ls Vs.
      destruct fuel as [|k]; [split; [reflexivity|discriminate]|]. cbn [run exec].
      assert (M : memb m (loaded s) = true) by (apply memb_in; now apply Ls). rewrite M. split; [reflexivity|]. intros s' Es. inversion Es; subst. auto.
    + assert (E1 : compile fbody mbody (S n) false st (Import m) = Some (c', st')) by (cbn [compile]; rewrite Fm; exact E).
      destruct (top_plain (S n) st (Import m) c' st' E1 NL I) as (A & B & _ & D). auto.
    + set (st1 := {| flags := (m, true) :: flags st; real := real st; fcode := fcode st; mcode := mcode st; pending := pending st |}) in *.
      destruct (compile fbody mbody n true st1 (mbody m)) as [[cm st2]|] eqn:Em; [|discriminate]. inversion E; subst c' st'. clear E E0.
      assert (F1 : flag_of m (flags st1) = Some true) by (unfold st1; cbn [flags]; rewrite flag_cons, Nat.eqb_refl; reflexivity).
      assert (Fx : forall x b, flag_of x (flags st) = Some b -> flag_of x (flags st1) = Some b).
      { intros x b Hx. unfold st1. cbn [flags]. rewrite flag_cons. destruct (Nat.eqb_spec m x) as [->|]; [congruence|assumption]. }
      assert (Fy : forall x b, x <> m -> flag_of x (flags st1) = b -> flag_of x (flags st) = b).
      { intros x b Nx Hx. unfold st1 in Hx. cbn [flags] in Hx. rewrite flag_cons in Hx. destruct (Nat.eqb_spec m x); [congruence|assumption]. }
      assert (X1 : ext st st1). { split; [exact Fx|]. split; [apply incl_refl|]. repeat split; reflexivity. }
      assert (I1 : inv st1).
      { destruct I as (SF & SM & (C1 & C2) & B1 & B2). exists SF, SM. split; [|split].
        - split; [intros f Hf|intros x Hx].
          + eapply rel_mono; [now apply C1|exact X1|now intros y].
          + assert (Nx : x <> m) by congruence. eapply rel_mono; [apply C2; now apply Fy|exact X1|now intros y].
        - intros f Hf x Hx. apply Fx. now apply (B1 f).
        - intros f Hf x Hx. apply Fx. assert (Nf : f <> m) by congruence. apply (B2 f); [now apply Fy|assumption]. }
      destruct (IH st1 (mbody m) cm st2 Em (NLm m) (FLm m) I1) as (I2 & X2 & S2).
      set (st3 := {| flags := flags st2; real := real st2; fcode := fcode st2; mcode := set (mcode st2) m cm; pending := pending st2 |}).
      assert (F2 : flag_of m (flags st2) = Some true) by (now apply X2).
      assert (Rr : forall SF SM L0 a b, rel SF SM st2 L0 a b -> rel SF SM st3 L0 a b).
      { intros SF SM L0 a b H. induction H; constructor; assumption. }
      split; [|split].
      * destruct I2 as (SF & SM & (C1 & C2) & B1 & B2). exists SF, SM. split; [|split; assumption]. split.
        -- intros f Hf. apply Rr. now apply C1.
        -- intros x Hx. cbn [mcode st3]. unfold set. destruct (Nat.eqb_spec x m) as [->|]; [cbn [flags st3] in Hx; congruence|]. apply Rr. now apply C2.
      * assert (X := ext_trans _ _ _ X1 X2). destruct X as (Xa & Xb & Xc & Xd & Xe). split; [exact Xa|]. split; [exact Xb|]. split; [exact Xc|]. split; [|exact Xe].
        intros x Hx. cbn [mcode st3]. unfold set. destruct (Nat.eqb_spec x m) as [->|]; [unfold visited in Hx; congruence|]. now apply Xd.
      * intros T env (A1 & A2) fuel s Ls Vs. destruct fuel as [|k]; [split; [reflexivity|discriminate]|]. cbn [run exec].
        assert (M : memb m (loaded s) = false). { apply memb_out. intros H. apply Vs in H. unfold visited in H. congruence. }
        rewrite M. assert (Tm : mcode T m = cm).
        { rewrite A2; [cbn [mcode st3]; unfold set; now rewrite Nat.eqb_refl|unfold visited; cbn [flags st3]; congruence|right; unfold visited; congruence]. }
        rewrite Tm. apply (S2 T env).
        -- split; [exact A1|]. intros x Vx Hx. assert (Nx : x <> m). { intros ->. destruct Hx as [Hx|Hx]; [congruence|]. apply Hx. unfold visited. congruence. }
           rewrite A2; [cbn [mcode st3]; unfold set; destruct (Nat.eqb_spec x m); [contradiction|reflexivity]|exact Vx|].
           destruct Hx as [Hx|Hx]; [now left|right]. intros V. apply Hx. now apply (ext_vis st).
        -- intros x Hx. cbn [loaded]. destruct (Nat.eq_dec x m) as [->|Nx]; [now left|]. right. apply Ls. now apply Fy.
        -- cbn [loaded]. intros x [<-|Hx]; [unfold visited; congruence|]. apply (ext_vis st); [assumption|]. now apply Vs.
Qed.
End Program.

Lemma program_ok fbody mbody n main c t : (forall f, no_late (fbody f)) -> (forall m, no_late (mbody m)) -> no_late main ->
  (forall m, imports_flat (mbody m)) -> imports_flat main -> compile_program fbody mbody n main = Some (c, t) ->
  forall env fuel, exec t env fuel start c = run fbody mbody env fuel start main.
Proof.
  intros NF NM N0 FM F0 E env fuel. unfold compile_program in E.
  destruct (compile fbody mbody n true fresh main) as [[c1 t1]|] eqn:E1; [|discriminate].
  destruct (top_ok fbody mbody NF NM FM n fresh main c1 t1 E1 N0 F0) as (_ & X & S).
  - exists (fun _ _ => False), (fun _ _ => False). split; [split; [intros f []|discriminate]|]. split; [intros f []|discriminate].
  - assert (P : pending t1 = []) by (apply X). rewrite P in E. cbn [realize_pending] in E. inversion E; subst. symmetry.
    apply (S t env).
    + split; [reflexivity|]. intros m _ _. reflexivity.
    + intros m Hm. discriminate Hm.
    + intros m [].
Qed.

(** ** Type-checking ends *)
Section Total.
Context (fbody mbody : nat -> cmd) (N : nat) (Bf : forall f, names_below N (fbody f)) (Bm : forall m, names_below N (mbody m)).
Lemma compile_more n : forall k top st c r, n <= k -> compile fbody mbody n top st c = Some r -> compile fbody mbody k top st c = Some r.
Proof.
  clear. induction n as [|n IH]; intros k top st c r L E; [discriminate|]. destruct k as [|k]; [lia|]. assert (L' : n <= k) by lia.
  cbn [compile] in *. destruct c as [|e|a b|i a b|l f|m]; try exact E.
  - destruct (compile fbody mbody n top st a) as [[a' st1]|] eqn:Ea; [|discriminate]. rewrite (IH k _ _ _ _ L' Ea).
    destruct (compile fbody mbody n top st1 b) as [[b' st2]|] eqn:Eb; [|discriminate]. now rewrite (IH k _ _ _ _ L' Eb).
  - destruct (compile fbody mbody n top st a) as [[a' st1]|] eqn:Ea; [|discriminate]. rewrite (IH k _ _ _ _ L' Ea).
    destruct (compile fbody mbody n top st1 b) as [[b' st2]|] eqn:Eb; [|discriminate]. now rewrite (IH k _ _ _ _ L' Eb).
  - destruct l; [exact E|]. destruct (memb f (real st)); [exact E|].
    match type of E with match ?X with _ => _ end = _ => destruct X as [[a' st1]|] eqn:Ea; [|discriminate] end. now rewrite (IH k _ _ _ _ L' Ea).
  - destruct (flag_of m (flags st)); [exact E|].
    match type of E with match ?X with _ => _ end = _ => destruct X as [[a' st1]|] eqn:Ea; [|discriminate] end. now rewrite (IH k _ _ _ _ L' Ea).
Qed.
Definition count (p : nat -> bool) : nat := length (filter p (seq 0 N)).
Lemma count_le p q : (forall x, q x = true -> p x = true) -> count q <= count p.
Proof.
  intros H. unfold count. induction (seq 0 N) as [|x l IH]; [constructor|]. cbn [filter].
  destruct (q x) eqn:Q; [rewrite (H x Q); cbn [length]; lia|]. destruct (p x); cbn [length]; lia.
Qed.
Lemma count_lt p q y : y < N -> (forall x, q x = true -> p x = true) -> p y = true -> q y = false -> count q < count p.
Proof.
  intros Hy H Py Qy. unfold count. assert (I : In y (seq 0 N)) by (apply in_seq; lia). clear Hy.
  assert (Le : forall l, length (filter q l) <= length (filter p l)).
  { intros l. induction l as [|x l IH]; [constructor|]. cbn [filter].
    destruct (q x) eqn:Q; [rewrite (H x Q); cbn [length]; lia|]. destruct (p x); cbn [length]; lia. }
  induction (seq 0 N) as [|x l IH]; [destruct I|]. cbn [filter]. destruct I as [->|I].
  - rewrite Py, Qy. cbn [length]. specialize (Le l). lia.
  - specialize (IH I). destruct (q x) eqn:Q; [rewrite (H x Q); cbn [length]; lia|]. destruct (p x); cbn [length]; lia.
Qed.
Definition isnone (o : option bool) : bool := match o with None => true | Some _ => false end.
Definition free (st : tc) : nat := count (fun f => negb (memb f (real st))) + count (fun m => isnone (flag_of m (flags st))).
Definition listed (st : tc) : Prop := Forall (fun f => f < N) (pending st).
Lemma compile_total u : forall top st c, free st <= u -> listed st -> names_below N c ->
  exists n c' st', compile fbody mbody n top st c = Some (c', st') /\ free st' <= free st /\ listed st'.
Proof.
  induction u as [u IHu] using lt_wf_ind. intros top st c. revert top st.
  induction c as [|e|a IHa b IHb|k a IHa b IHb|l f|m]; intros top st F P B.
  - exists 1, Skip, st. now split.
  - exists 1, (Ev e), st. now split.
  - destruct B as (Ba & Bb). destruct (IHa top st F P Ba) as (n1 & a' & st1 & E1 & F1 & P1). destruct (IHb top st1 ltac:(lia) P1 Bb) as (n2 & b' & st2 & E2 & F2 & P2).
    exists (S (Nat.max n1 n2)), (Seq a' b'), st2. split; [|split; [lia|assumption]]. cbn [compile].
    rewrite (compile_more n1 (Nat.max n1 n2) top st a _ (Nat.le_max_l _ _) E1), (compile_more n2 (Nat.max n1 n2) top st1 b _ (Nat.le_max_r _ _) E2). reflexivity.
  - destruct B as (Ba & Bb). destruct (IHa top st F P Ba) as (n1 & a' & st1 & E1 & F1 & P1). destruct (IHb top st1 ltac:(lia) P1 Bb) as (n2 & b' & st2 & E2 & F2 & P2).
    exists (S (Nat.max n1 n2)), (If k a' b'), st2. split; [|split; [lia|assumption]]. cbn [compile].
    rewrite (compile_more n1 (Nat.max n1 n2) top st a _ (Nat.le_max_l _ _) E1), (compile_more n2 (Nat.max n1 n2) top st1 b _ (Nat.le_max_r _ _) E2). reflexivity.
  - cbn in B. destruct l.
    + exists 1. eexists. eexists. split; [reflexivity|]. split; [apply Nat.le_refl|]. unfold listed. cbn [pending]. apply Forall_app. split; [exact P|now constructor].
    + destruct (memb f (real st)) eqn:Mf.
      * exists 1, (Call false f), st. cbn [compile]. now rewrite Mf.
      * set (st1 := {| flags := flags st; real := f :: real st; fcode := fcode st; mcode := mcode st; pending := pending st |}).
        assert (Lt : free st1 < free st).
        { unfold free. cbn [flags real st1]. apply Nat.add_lt_mono_r. apply (count_lt _ _ f); [assumption| | |].
          - intros x Hx. apply Bool.negb_true_iff in Hx. apply Bool.negb_true_iff. apply memb_out in Hx. apply memb_out. intros H. apply Hx. now right.
          - now rewrite Mf.
          - apply Bool.negb_false_iff. apply memb_in. now left. }
        destruct (IHu (free st1) ltac:(lia) false st1 (fbody f) ltac:(lia) P (Bf f)) as (n & c' & st2 & E & F2 & P2).
        exists (S n). eexists. eexists. cbn [compile]. rewrite Mf. fold st1. rewrite E. split; [reflexivity|]. split; [|exact P2]. unfold free in *. cbn [flags real] in *. lia.
  - cbn in B. destruct (flag_of m (flags st)) as [b|] eqn:Fm.
    + exists 1. eexists. eexists. cbn [compile]. rewrite Fm. now split.
    + set (st1 := {| flags := (m, top) :: flags st; real := real st; fcode := fcode st; mcode := mcode st; pending := pending st |}).
      assert (Lt : free st1 < free st).
      { unfold free. cbn [flags real st1]. apply Nat.add_lt_mono_l. apply (count_lt _ _ m); [assumption| | |].
        - intros x. rewrite flag_cons. now destruct (Nat.eqb m x).
        - now rewrite Fm.
        - now rewrite flag_cons, Nat.eqb_refl. }
      destruct (IHu (free st1) ltac:(lia) top st1 (mbody m) ltac:(lia) P (Bm m)) as (n & c' & st2 & E & F2 & P2).
      exists (S n). eexists. eexists. cbn [compile]. rewrite Fm. fold st1. rewrite E. split; [reflexivity|]. split; [|exact P2]. unfold free in *. cbn [flags real] in *. lia.
Qed.
Lemma realize_more l : forall n k st r, n <= k -> realize_pending fbody mbody n l st = Some r -> realize_pending fbody mbody k l st = Some r.
Proof.
  clear. induction l as [|f l IH]; intros n k st r L E; [exact E|]. cbn [realize_pending] in *.
  destruct (compile fbody mbody n false st (Call false f)) as [[c' st1]|] eqn:Ec; [|discriminate].
  rewrite (compile_more n k false st (Call false f) _ L Ec). eauto.
Qed.
Lemma realize_total l : forall st, Forall (fun f => f < N) l -> listed st -> exists n st', realize_pending fbody mbody n l st = Some st'.
Proof.
  induction l as [|f l IH]; intros st B P; [now exists 0, st|]. inversion B as [|? ? Bx Bl]; subst.
  destruct (compile_total (free st) false st (Call false f) ltac:(lia) P Bx) as (n1 & c' & st1 & E & _ & P1). destruct (IH st1 Bl P1) as (n2 & st2 & E2).
  exists (Nat.max n1 n2), st2. cbn [realize_pending]. rewrite (compile_more n1 _ _ _ _ _ (Nat.le_max_l _ n2) E). apply (realize_more l n2); [apply Nat.le_max_r|assumption].
Qed.
Lemma program_total main : names_below N main -> exists n c t, compile_program fbody mbody n main = Some (c, t).
Proof.
  intros B. destruct (compile_total (free fresh) true fresh main ltac:(lia) ltac:(constructor) B) as (n1 & c & st & E & _ & P).
  destruct (realize_total (pending st) st P P) as (n2 & st2 & E2). exists (Nat.max n1 n2), c, st2. unfold compile_program.
  rewrite (compile_more n1 _ _ _ _ _ (Nat.le_max_l _ n2) E). rewrite (realize_more _ n2 (Nat.max n1 n2) _ _ (Nat.le_max_r _ _) E2). reflexivity.
Qed.
End Total.
