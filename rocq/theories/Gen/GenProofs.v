(** Proofs about Gen/GenModel.v. *)
From Coq Require Import List Bool.
From Verif Require Import Gen.GenModel Gen.GenSpec.
Import ListNotations.

Section Trees.
  Context {S V R E : Type}.
  Local Notation stmt := (stmt S V R E).
  Local Notation gen := (gen S V R E).

  Fixpoint all_out (P : out R E -> Prop) (g : gen) : Prop :=
    match g with
    | GDone _ o => P o
    | GYield _ _ k => forall s, all_out P (k s)
    end.

  Lemma all_out_bind P Q g k :
    all_out P g -> (forall s o, P o -> all_out Q (k s o)) -> all_out Q (gbind g k).
  Proof.
    intros H K. induction g as [s o|s v r IH]; cbn in *; [now apply K|].
    intros s'. apply IH, H.
  Qed.

  Definition no_jump (o : out R E) : Prop :=
    match o with OBreak | OContinue => False | _ => True end.
  Definition jump_ok (inside : bool) (o : out R E) : Prop :=
    if inside then True else no_jump o.

  Lemma wloop_jumps n c (body : S -> gen) : forall s,
    all_out no_jump (wloop n c body s).
  Proof.
    induction n as [|n IH]; intros s; cbn; [exact I|].
    destruct (c s) as [s' [[|]|e]]; try exact I.
    eapply all_out_bind with (P := fun _ => True).
    - generalize (body s'). clear. intros g. induction g; cbn; auto.
    - intros s1 o _. destruct o; try exact I; apply IH.
  Qed.

  Lemma exec_jumps fuel (b : stmt) : forall inside s, loops_ok inside b = true ->
    all_out (jump_ok inside) (exec fuel b s).
  Proof.
    induction b; intros inside s H; cbn in *; try (destruct inside; exact I).
    - destruct (f s) as [s' [u|e]]; destruct inside; exact I.
    - apply andb_prop in H as [H1 H2]. eapply all_out_bind with (P := jump_ok inside); [now apply IHb1|].
      intros s1 o O. destruct o; try exact O. now apply IHb2.
    - apply andb_prop in H as [H1 H2].
      destruct (c s) as [s' [[|]|e]]; [now apply IHb1|now apply IHb2|destruct inside; exact I].
    - pose proof (wloop_jumps fuel c (exec fuel b) s) as J.
      revert J. generalize (wloop fuel c (exec fuel b) s). clear.
      intros g. induction g as [s o|s v r IH]; cbn; intros J.
      + destruct inside; [exact I|exact J].
      + intros s'. apply IH, J.
    - destruct inside; [exact I|discriminate].
    - destruct inside; [exact I|discriminate].
    - destruct (f s) as [s' [u|e]]; destruct inside; exact I.
    - destruct (f s) as [s' [u|e]]; [|destruct inside; exact I].
      cbn. intros _. destruct inside; exact I.
    - apply andb_prop in H as [H H3]. apply andb_prop in H as [H1 H2].
      eapply all_out_bind with (P := jump_ok inside).
      + eapply all_out_bind with (P := jump_ok inside); [now apply IHb1|]. intros s1 o O.
        destruct o; try exact O. destruct (takes e); [now apply IHb2|exact O].
      + intros s1 o O. destruct o; try exact O;
          (eapply all_out_bind with (P := jump_ok inside); [now apply IHb3|]; intros s2 o2 O2;
           destruct o2; [exact O|exact O2..]).
  Qed.

  (** Without yields a statement runs to its end at once. *)
  Lemma wloop_straight n c (body : S -> gen) :
    (forall s, exists s' o, body s = GDone s' o) ->
    forall s, exists s' o, wloop n c body s = GDone s' o.
  Proof.
    intros B. induction n as [|n IH]; intros s; cbn; [eauto|].
    destruct (c s) as [s' [[|]|e]]; [|eauto..].
    destruct (B s') as (s1 & o & ->). cbn. destruct o; eauto.
  Qed.
  Lemma exec_straight fuel (b : stmt) : yields b = false ->
    forall s, exists s' o, exec fuel b s = GDone s' o.
  Proof.
    induction b; intros H s; cbn in *; eauto.
    - destruct (f s) as [s' [u|e]]; eauto.
    - apply orb_false_elim in H as [H1 H2].
      destruct (IHb1 H1 s) as (s1 & o & ->). cbn. destruct o; eauto.
    - apply orb_false_elim in H as [H1 H2].
      destruct (c s) as [s' [[|]|e]]; eauto.
    - apply wloop_straight. auto.
    - destruct (f s) as [s' [u|e]]; eauto.
    - discriminate.
    - apply orb_false_elim in H as [H H3]. apply orb_false_elim in H as [H1 H2].
      destruct (IHb1 H1 s) as (s1 & o & ->). cbn.
      assert (X : exists s2 o2, match o with
        | ORaise e => if takes e then exec fuel b2 (bnd e s1) else GDone s1 o
        | _ => GDone s1 o end = GDone s2 o2).
      { destruct o; eauto. destruct (takes e); eauto. }
      destruct X as (s2 & o2 & ->). cbn.
      destruct o2; eauto; destruct (IHb3 H3 s2) as (s3 & o3 & ->); cbn;
        destruct o3; eauto.
  Qed.
End Trees.

(** any and all *)
Section AnyAll.
  Context {S V E : Type} (truth : V -> S -> S * (bool + E)) (any : bool).
  Local Notation stmt := (stmt S V unit E).
  Local Notation fuse := (fuse_bool truth any).

  Definition om (o : out unit E) : out bool E :=
    match o with
    | ONormal => ONormal | OBreak => OBreak | OContinue => OContinue
    | OReturn _ => OReturn (negb any)
    | ORaise e => ORaise e
    | OFuel => OFuel
    end.

  (** Running the consumer on the tree. *)
  Fixpoint col (g : gen S V unit E) : gen S Empty_set bool E :=
    match g with
    | GDone s o => GDone s (om o)
    | GYield s v k =>
        match truth v s with
        | (s', inl t) => if Bool.eqb t any then GDone s' (OReturn any) else col (k s')
        | (s', inr e) => GDone s' (ORaise e)
        end
    end.

  Definition raises : Prop := exists v s s' e, truth v s = (s', inr e).

  Lemma col_bind g k k' :
    (forall s o, k' s (om o) = col (k s o)) ->
    (forall s, k' s (OReturn any) = GDone s (OReturn any)) ->
    (raises -> forall s e, k' s (ORaise e) = GDone s (ORaise e)) ->
    col (gbind g k) = gbind (col g) k'.
  Proof.
    intros H1 H2 H3. induction g as [s o|s v r IH]; cbn; [now rewrite H1|].
    destruct (truth v s) as [s' [t|e]] eqn:T; cbn.
    - destruct (Bool.eqb t any); cbn; [now rewrite H2|apply IH].
    - rewrite H3; [reflexivity|]. now exists v, s, s', e.
  Qed.

  Lemma col_wloop n c body body' :
    (forall s, body' s = col (body s)) ->
    forall s, wloop n c body' s = col (wloop n c body s).
  Proof.
    intros B. induction n as [|n IH]; intros s; cbn; [reflexivity|].
    destruct (c s) as [s' [[|]|e]]; try reflexivity.
    rewrite B. symmetry. apply col_bind; try reflexivity.
    intros s1 o. destruct o; cbn; try reflexivity; apply IH.
  Qed.

  Lemma fuse_exec fuel (b : stmt) :
    not_under_finally b = true -> (raises -> not_under_except b = true) ->
    forall s, exec fuel (fuse b) s = col (exec fuel b s).
  Proof.
    induction b; intros F X s; cbn in F, X; cbn [fuse_bool exec]; try reflexivity.
    - destruct (f s) as [s' [u|e]]; reflexivity.
    - apply andb_prop in F as [F1 F2].
      assert (X1 : raises -> not_under_except b1 = true)
        by (intros r; specialize (X r); now apply andb_prop in X).
      assert (X2 : raises -> not_under_except b2 = true)
        by (intros r; specialize (X r); now apply andb_prop in X).
      rewrite IHb1 by assumption. symmetry. apply col_bind; try reflexivity.
      intros s1 o. destruct o; cbn; try reflexivity. now apply IHb2.
    - apply andb_prop in F as [F1 F2].
      assert (X1 : raises -> not_under_except b1 = true)
        by (intros r; specialize (X r); now apply andb_prop in X).
      assert (X2 : raises -> not_under_except b2 = true)
        by (intros r; specialize (X r); now apply andb_prop in X).
      destruct (c s) as [s' [[|]|e]]; [now apply IHb1|now apply IHb2|reflexivity].
    - apply col_wloop. intros s1. now apply IHb.
    - destruct (f s) as [s' [u|e]]; reflexivity.
    - destruct (f s) as [s' [v|e]]; cbn; [|reflexivity].
      destruct (truth v s') as [s2 [t|e]]; cbn; [|reflexivity].
      destruct any, t; reflexivity.
    - apply andb_prop in F as [F F3]. apply andb_prop in F as [F F2].
      apply andb_prop in F as [F0 F1].
      assert (XX : raises -> yields b1 = false /\ not_under_except b1 = true /\
                not_under_except b2 = true /\ not_under_except b3 = true).
      { intros r. specialize (X r). apply andb_prop in X as [X X3].
        apply andb_prop in X as [X X2]. apply andb_prop in X as [X0 X1].
        now apply negb_true_iff in X0. }
      assert (I1 : forall s, exec fuel (fuse b1) s = col (exec fuel b1 s))
        by (apply IHb1; [exact F1|intros r; apply (XX r)]).
      assert (I2 : forall s, exec fuel (fuse b2) s = col (exec fuel b2 s))
        by (apply IHb2; [exact F2|intros r; apply (XX r)]).
      assert (I3 : forall s, exec fuel (fuse b3) s = col (exec fuel b3 s))
        by (apply IHb3; [exact F3|intros r; apply (XX r)]).
      assert (D : (match b3 with SSkip => true | _ => false end = true) \/
                  (yields b1 = false /\ yields b2 = false)).
      { destruct b3; [now left|..]; right; apply andb_prop in F0 as [Y1 Y2];
          apply negb_true_iff in Y1, Y2; now split. }
      destruct D as [D|[Y1 Y2]].
      + destruct b3; try discriminate. cbn [fuse_bool exec].
        rewrite (col_bind _ _ (fun s o => match o with
          | OFuel => GDone s o
          | _ => gbind (GDone s ONormal) (fun s' o' =>
                   match o' with ONormal => GDone s' o | _ => GDone s' o' end) end));
          [|intros s1 o; destruct o; reflexivity|reflexivity|reflexivity].
        f_equal.
        match goal with |- ?l = ?r =>
          assert (Eq : l = r); [|rewrite Eq; reflexivity] end.
        destruct (yields b1) eqn:Y.
        * rewrite I1. symmetry. apply col_bind.
          -- intros s1 o. destruct o; cbn; try reflexivity.
             destruct (takes e); [apply I2|reflexivity].
          -- reflexivity.
          -- intros r. destruct (XX r) as [Z _]. discriminate.
        * destruct (exec_straight fuel b1 Y s) as (s1 & o & Ex).
          rewrite I1, Ex. cbn. destruct o; cbn; try reflexivity.
          destruct (takes e); [apply I2|reflexivity].
      + destruct (exec_straight fuel b1 Y1 s) as (s1 & o & Ex). rewrite I1, Ex. cbn.
        assert (Z : exists s2 o2,
          match o with
          | ORaise e => if takes e then exec fuel b2 (bnd e s1) else GDone s1 o
          | _ => GDone s1 o end = GDone s2 o2 /\
          match om o with
          | ORaise e => if takes e then exec fuel (fuse b2) (bnd e s1) else GDone s1 (om o)
          | _ => GDone s1 (om o) end = GDone s2 (om o2)).
        { destruct o; cbn; eauto. destruct (takes e); [|eauto].
          destruct (exec_straight fuel b2 Y2 (bnd e s1)) as (s2 & o2 & Ex2).
          exists s2, o2. rewrite I2, Ex2. split; reflexivity. }
        destruct Z as (s2 & o2 & -> & ->). cbn.
        assert (W : forall o2', (forall x, o2' = om x -> True) ->
          o2' = om o2 ->
          gbind (exec fuel (fuse b3) s2) (fun s' o' =>
            match o' with ONormal => GDone s' o2' | _ => GDone s' o' end)
          = col (gbind (exec fuel b3 s2) (fun s' o' =>
              match o' with ONormal => GDone s' o2 | _ => GDone s' o' end))).
        { intros o2' _ ->. rewrite I3. symmetry. apply col_bind; try reflexivity.
          intros s3 o3. destruct o3; reflexivity. }
        destruct o2; cbn; try reflexivity; apply W; try reflexivity; trivial.
  Qed.

  Context (consume : V -> unit -> S -> S * step unit bool E).
  Context (consume_spec : forall v s, consume v tt s =
    match truth v s with
    | (s', inl t) => if Bool.eqb t any then (s', KReturn any) else (s', KNext tt)
    | (s', inr e) => (s', KRaise e)
    end).

  Lemma call_col (g : gen S V unit E) : all_out no_jump g ->
    match gbind (col g) (fun s o => match o with
            | ONormal => GDone s (OReturn (negb any)) | _ => GDone s o end) with
    | GDone s o => (s, match o with
                       | OReturn r => RVal (Some r)
                       | ORaise e => RExn e
                       | OFuel => RFuel
                       | _ => RVal None
                       end)
    | GYield _ v _ => match v with end
    end = returns (for_in g consume (fun _ => negb any) tt).
  Proof.
    induction g as [s o|s v r IH]; cbn; intros J.
    - destruct o; cbn in *; try reflexivity; contradiction.
    - rewrite consume_spec. destruct (truth v s) as [s' [t|e]]; cbn; [|reflexivity].
      destruct (Bool.eqb t any); cbn; [reflexivity|]. apply IH, J.
  Qed.
End AnyAll.

(** sum *)
Section Sum.
  Context {S V E A : Type} (add : A -> V -> S -> S * (A + E)).
  Local Notation stmt := (stmt S V unit E).
  Local Notation fuse := (fuse_sum add).

  Definition omS (a : A) (o : out unit E) : out A E :=
    match o with
    | ONormal => ONormal | OBreak => OBreak | OContinue => OContinue
    | OReturn _ => OReturn a
    | ORaise e => ORaise e
    | OFuel => OFuel
    end.

  Fixpoint colS (g : gen S V unit E) (a : A) : gen (S * A) Empty_set A E :=
    match g with
    | GDone s o => GDone (s, a) (omS a o)
    | GYield s v k =>
        match add a v s with
        | (s', inl a') => colS (k s') a'
        | (s', inr e) => GDone (s', a) (ORaise e)
        end
    end.

  Definition raisesS : Prop := exists a v s s' e, add a v s = (s', inr e).

  Lemma colS_bind g k k' :
    (forall s a o, k' (s, a) (omS a o) = colS (k s o) a) ->
    (raisesS -> forall s e, k' s (ORaise e) = GDone s (ORaise e)) ->
    forall a, colS (gbind g k) a = gbind (colS g a) k'.
  Proof.
    intros H1 H2. induction g as [s o|s v r IH]; intros a; cbn; [now rewrite H1|].
    destruct (add a v s) as [s' [t|e]] eqn:T; cbn; [apply IH|].
    rewrite H2; [reflexivity|]. now exists a, v, s, s', e.
  Qed.

  Lemma colS_wloop n c body body' :
    (forall s a, body' (s, a) = colS (body s) a) ->
    forall s a, wloop n (lift c) body' (s, a) = colS (wloop n c body s) a.
  Proof.
    intros B. induction n as [|n IH]; intros s a; cbn; [reflexivity|].
    unfold lift. cbn. destruct (c s) as [s' [[|]|e]]; try reflexivity.
    rewrite B. symmetry. apply colS_bind; [|reflexivity].
    intros s1 a1 o. destruct o; cbn; try reflexivity; apply IH.
  Qed.

  Lemma fuse_sum_exec fuel (b : stmt) :
    not_in_finally b = true ->
    (raisesS -> not_under_finally b = true) -> (raisesS -> not_under_except b = true) ->
    forall s a, exec fuel (fuse b) (s, a) = colS (exec fuel b s) a.
  Proof.
    induction b; intros Q F X s a; cbn in Q, F, X; cbn [fuse_sum exec]; try reflexivity.
    - unfold lift. cbn. destruct (f s) as [s' [u|e]]; reflexivity.
    - apply andb_prop in Q as [Q1 Q2].
      assert (F1 : raisesS -> not_under_finally b1 = true)
        by (intros r; specialize (F r); now apply andb_prop in F).
      assert (F2 : raisesS -> not_under_finally b2 = true)
        by (intros r; specialize (F r); now apply andb_prop in F).
      assert (X1 : raisesS -> not_under_except b1 = true)
        by (intros r; specialize (X r); now apply andb_prop in X).
      assert (X2 : raisesS -> not_under_except b2 = true)
        by (intros r; specialize (X r); now apply andb_prop in X).
      rewrite IHb1 by assumption. symmetry. apply colS_bind; [|reflexivity].
      intros s1 a1 o. destruct o; cbn; try reflexivity. now apply IHb2.
    - apply andb_prop in Q as [Q1 Q2].
      assert (F1 : raisesS -> not_under_finally b1 = true)
        by (intros r; specialize (F r); now apply andb_prop in F).
      assert (F2 : raisesS -> not_under_finally b2 = true)
        by (intros r; specialize (F r); now apply andb_prop in F).
      assert (X1 : raisesS -> not_under_except b1 = true)
        by (intros r; specialize (X r); now apply andb_prop in X).
      assert (X2 : raisesS -> not_under_except b2 = true)
        by (intros r; specialize (X r); now apply andb_prop in X).
      unfold lift. cbn.
      destruct (c s) as [s' [[|]|e]]; [now apply IHb1|now apply IHb2|reflexivity].
    - apply colS_wloop. intros s1 a1. now apply IHb.
    - unfold lift. cbn. destruct (f s) as [s' [u|e]]; reflexivity.
    - cbn. destruct (f s) as [s' [v|e]]; cbn; [|reflexivity].
      destruct (add a v s') as [s2 [t|e]]; reflexivity.
    - apply andb_prop in Q as [Q Q3]. apply andb_prop in Q as [Q Q2].
      apply andb_prop in Q as [Q0 Q1]. apply negb_true_iff in Q0.
      assert (FF : raisesS ->
        (match b3 with SSkip => true | _ => negb (yields b1) && negb (yields b2) end) = true /\
        not_under_finally b1 = true /\ not_under_finally b2 = true /\
        not_under_finally b3 = true).
      { intros r. specialize (F r). apply andb_prop in F as [F F3].
        apply andb_prop in F as [F F2]. apply andb_prop in F as [F0 F1]. now split. }
      assert (XX : raisesS -> yields b1 = false /\ not_under_except b1 = true /\
                not_under_except b2 = true /\ not_under_except b3 = true).
      { intros r. specialize (X r). apply andb_prop in X as [X X3].
        apply andb_prop in X as [X X2]. apply andb_prop in X as [X0 X1].
        now apply negb_true_iff in X0. }
      assert (I1 : forall s a, exec fuel (fuse b1) (s, a) = colS (exec fuel b1 s) a)
        by (apply IHb1; [exact Q1|intros r; apply (FF r)|intros r; apply (XX r)]).
      assert (I2 : forall s a, exec fuel (fuse b2) (s, a) = colS (exec fuel b2 s) a)
        by (apply IHb2; [exact Q2|intros r; apply (FF r)|intros r; apply (XX r)]).
      assert (I3 : forall s a, exec fuel (fuse b3) (s, a) = colS (exec fuel b3 s) a)
        by (apply IHb3; [exact Q3|intros r; apply (FF r)|intros r; apply (XX r)]).
      set (inner := fun s => gbind (exec fuel b1 s) (fun s o =>
             match o with
             | ORaise e => if takes e then exec fuel b2 (bnd e s) else GDone s o
             | _ => GDone s o
             end)).
      set (inner' := fun sa => gbind (exec fuel (fuse b1) sa) (fun s o =>
             match o with
             | ORaise e => if takes e
                           then exec fuel (fuse b2) (bnd e (fst s), snd s) else GDone s o
             | _ => GDone s o
             end)).
      change (gbind (inner' (s, a)) (fun s o =>
             match o with
             | OFuel => GDone s o
             | _ => gbind (exec fuel (fuse b3) s) (fun s' o' =>
                      match o' with ONormal => GDone s' o | _ => GDone s' o' end)
             end) = colS (gbind (inner s) (fun s o =>
             match o with
             | OFuel => GDone s o
             | _ => gbind (exec fuel b3 s) (fun s' o' =>
                      match o' with ONormal => GDone s' o | _ => GDone s' o' end)
             end)) a).
      assert (IN : inner' (s, a) = colS (inner s) a).
      { unfold inner', inner. destruct (yields b1) eqn:Y.
        - rewrite I1. symmetry. apply colS_bind.
          + intros s1 a1 o. destruct o; cbn; try reflexivity.
            destruct (takes e); [apply I2|reflexivity].
          + intros r. destruct (XX r) as [Z _]. discriminate.
        - destruct (exec_straight fuel b1 Y s) as (s1 & o & Ex).
          rewrite I1, Ex. cbn. destruct o; cbn; try reflexivity.
          destruct (takes e); [apply I2|reflexivity]. }
      assert (K : forall s1 a1 o,
        match omS a1 o with
        | OFuel => GDone (s1, a1) (omS a1 o)
        | _ => gbind (exec fuel (fuse b3) (s1, a1)) (fun s' o' =>
                 match o' with ONormal => GDone s' (omS a1 o) | _ => GDone s' o' end)
        end = colS (match o with
          | OFuel => GDone s1 o
          | _ => gbind (exec fuel b3 s1) (fun s' o' =>
                   match o' with ONormal => GDone s' o | _ => GDone s' o' end)
          end) a1).
      { intros s1 a1 o. destruct (exec_straight fuel b3 Q0 s1) as (s3 & o3 & Ex).
        rewrite I3, Ex. cbn. destruct o; cbn; try reflexivity; destruct o3; reflexivity. }
      rewrite IN. symmetry.
      destruct (yields b1 || yields b2) eqn:Y.
      + apply colS_bind; [exact K|].
        intros r. destruct (FF r) as [F0 _].
        destruct b3; cbn in F0; try reflexivity;
          apply andb_prop in F0 as [G1 G2]; apply negb_true_iff in G1, G2;
          rewrite G1, G2 in Y; discriminate.
      + apply orb_false_elim in Y as [Y1 Y2].
        assert (Z : exists s2 o2, inner s = GDone s2 o2).
        { unfold inner. destruct (exec_straight fuel b1 Y1 s) as (s1 & o & ->). cbn.
          destruct o; eauto. destruct (takes e); eauto. now apply exec_straight. }
        destruct Z as (s2 & o2 & ->). cbn. symmetry. apply K.
  Qed.

  Lemma call_colS (g : gen S V unit E) : all_out no_jump g -> forall a,
    exists a',
    match gbind (colS g a) (fun s o => match o with
            | ONormal => GDone s (OReturn (snd s)) | _ => GDone s o end) with
    | GDone s o => (s, match o with
                       | OReturn r => RVal (Some r)
                       | ORaise e => RExn e
                       | OFuel => RFuel
                       | _ => RVal None
                       end)
    | GYield _ v _ => match v with end
    end = let r := returns (for_in g
             (fun v a s => match add a v s with
                    | (s', inl a') => (s', KNext a')
                    | (s', inr e) => (s', KRaise e)
                    end) (fun a => a) a) in ((fst r, a'), snd r).
  Proof.
    induction g as [s o|s v r IH]; cbn; intros J a.
    - exists a. destruct o; cbn in *; try reflexivity; contradiction.
    - destruct (add a v s) as [s' [t|e]]; cbn; [now apply IH|]. now exists a.
  Qed.
End Sum.
