(** From claims about the annotated events of a name to the analysis of Flow.v.
    Proof machinery only. *)
From Coq Require Import List Bool Arith Lia.
From Verif.Scope Require Import Spec Model Events Flow.
Import ListNotations.

(** ** Lists *)

Lemma split_cons : forall A (u : list A) x w q y r, u ++ x :: w = q ++ y :: r ->
  (exists e, u = q ++ y :: e /\ r = e ++ x :: w) \/
  (u = q /\ x = y /\ w = r) \/
  (exists e, q = u ++ x :: e /\ w = e ++ y :: r).
Proof.
  induction u as [|z u IH]; intros x w q y r E; destruct q as [|z' q]; simpl in E;
    injection E as E1 E2; subst.
  - right. left. auto.
  - right. right. exists q. auto.
  - left. exists u. auto.
  - destruct (IH _ _ _ _ _ E2) as [(e & -> & ->)|[(-> & -> & ->)|(e & -> & ->)]].
    + left. exists e. auto.
    + right. left. auto.
    + right. right. exists e. auto.
Qed.

(** A block that was open at an event inside a balanced list is not after it. *)
Lemma closed_not_stays : forall u e w lp q,
  dep 0 [e] = Some 0 -> bal (u ++ e :: w) -> ~ stays (w ++ Close lp :: q).
Proof.
  intros u e w lp q De B S.
  unfold bal in B. rewrite dep_app in B. destruct (dep 0 u) as [d|] eqn:Du; [|discriminate].
  assert (Dw : dep d w = Some 0).
  { change (dep d ([e] ++ w) = Some 0) in B. rewrite dep_app in B.
    rewrite (dep_lower [e] d 0 De) in B. exact B. }
  pose proof (stays_app_l _ _ S) as [d' Dw'].
  rewrite (dep_lower w d d' Dw') in Dw. injection Dw as Z.
  assert (d' = 0) as -> by lia.
  destruct S as [d'' S]. rewrite dep_app, Dw' in S. discriminate.
Qed.

Fixpoint opens (es : list ev) : list nat :=
  match es with
  | [] => []
  | Open k _ _ :: es => k :: opens es
  | _ :: es => opens es
  end.
Lemma opens_app : forall u w, opens (u ++ w) = opens u ++ opens w.
Proof. induction u as [|[]]; intros w; simpl; rewrite ?IHu; auto. Qed.

Section Claims.
  Context (a : ann).
  Local Notation intros := (intros a).
  Local Notation is_intro := (is_intro a).

  (** The current variable. *)
  Definition cstep (c : option node) (e : ev) : option node :=
    match e with
    | Bd b => if is_intro e then Some (NBind b) else c
    | Body k _ => if is_intro e then Some (NSuite k) else c
    | _ => c
    end.
  Definition curof (es : list ev) : option node := fold_left cstep es None.

  Lemma cur_same : forall es c, intros es = 0 -> fold_left cstep es c = c.
  Proof.
    induction es as [|e es IH]; intros c Z; simpl in *; [reflexivity|].
    destruct (is_intro e) eqn:E; [discriminate|]. rewrite IH by exact Z.
    unfold cstep. destruct e; rewrite ?E; reflexivity.
  Qed.
  Lemma curof_app : forall u w, intros w = 0 -> curof (u ++ w) = curof u.
  Proof. intros u w Z. unfold curof. rewrite fold_left_app. apply cur_same. exact Z. Qed.
  Lemma curof_zero : forall es, intros es = 0 -> curof es = None.
  Proof. intros es Z. exact (curof_app [] es Z). Qed.
  Definition node_of (e : ev) : option node :=
    match e with Bd b => Some (NBind b) | Body k _ => Some (NSuite k) | _ => None end.
  Lemma last_intro : forall es, intros es <> 0 ->
    exists u i w, es = u ++ i :: w /\ is_intro i = true /\ intros w = 0 /\ curof es = node_of i.
  Proof.
    induction es as [|e es IH] using rev_ind; intros Z; [simpl in Z; lia|].
    rewrite intros_app in Z. simpl in Z. destruct (is_intro e) eqn:E.
    - exists es, e, []. repeat split; auto. unfold curof. rewrite fold_left_app. simpl.
      unfold cstep, node_of. destruct e; try discriminate; rewrite E; reflexivity.
    - destruct (IH ltac:(lia)) as (u & i & w & -> & Ei & Zw & C).
      exists u, i, (w ++ [e]). rewrite <- app_assoc. repeat split; auto.
      + rewrite intros_app. simpl. rewrite E. lia.
      + change (u ++ i :: w ++ [e]) with (u ++ (i :: w) ++ [e]).
        rewrite app_assoc, curof_app; [exact C|]. simpl. rewrite E. reflexivity.
  Qed.
  Lemma curof_intro : forall u i w, is_intro i = true -> intros w = 0 ->
    curof (u ++ i :: w) = node_of i.
  Proof.
    intros u i w E Z. rewrite (app_assoc u [i] w : u ++ i :: w = _), curof_app by exact Z.
    unfold curof. rewrite fold_left_app. simpl. unfold cstep, node_of.
    destruct i; try discriminate; rewrite E; reflexivity.
  Qed.
  Lemma intro_flat : forall i, is_intro i = true -> dep 0 [i] = Some 0.
  Proof. intros []; simpl; intros E; try discriminate; reflexivity. Qed.

  Definition inloop (p : list ev) : Prop :=
    exists p1 k su p2, p = p1 ++ Open k su true :: p2 /\ stays p2.

  Record claims (T : list ev) : Prop := Claims {
    cB : forall p1 i p2 r p3, T = p1 ++ i :: p2 ++ Rd r :: p3 ->
         is_intro i = true -> intros p2 = 0 -> stays p2;
    cB0 : forall p r q, T = p ++ Rd r :: q -> intros p <> 0;
    cC : forall p r q, T = p ++ Rd r :: q -> checks a r = false ->
         exists p1 b p2, p = p1 ++ Bd b :: p2 /\ intros p2 = 0 /\ stays p2;
    cF : forall p r q, T = p ++ Rd r :: q -> checks a r = true ->
         exists k, curof p = Some (NSuite k);
    cA : forall p1 k su e1 r e2 lp p2,
         T = p1 ++ Open k su true :: (e1 ++ Rd r :: e2) ++ Close lp :: p2 ->
         bal (e1 ++ Rd r :: e2) -> intros (e1 ++ Rd r :: e2) <> 0 -> intros e1 <> 0;
    cD : forall p b q, T = p ++ Bd b :: q ->
         match kinds a b with
         | KNew => True
         | KUpd => exists j, curof p = Some (NBind j)
         | KUsed => exists j, curof p = Some (NSuite j)
         end;
    cE : forall p k fo q, T = p ++ Body k fo :: q -> decls a k <> None ->
         decls a k = Some 1 /\ intros p = 0
  }.

  Section Link.
    Context (strict : bool) (T : list ev) (CT : claims T) (Nd : NoDup (opens T)).
    Context (CS : strict = true -> forall p k fo q, T = p ++ Body k fo :: q ->
                  decls a k <> None -> ~ inloop p).

    (** Whether a variable is introduced before the block is closed. *)
    Fixpoint ahead (d : nat) (es : list ev) : nat :=
      match es with
      | [] => 0
      | Open _ _ _ :: es => ahead (S d) es
      | Close _ :: es => match d with 0 => 0 | S d => ahead d es end
      | e :: es => (if is_intro e then 1 else 0) + ahead d es
      end.
    Fixpoint hof (es : list ev) (k : nat) : bool :=
      match es with
      | [] => false
      | Open j _ _ :: es => if Nat.eqb j k then negb (ahead 0 es =? 0) else hof es k
      | _ :: es => hof es k
      end.
    Definition H : nat -> bool := hof T.

    Lemma ahead_dep : forall es d d' w, dep d es = Some d' ->
      ahead d (es ++ w) = intros es + ahead d' w.
    Proof.
      induction es as [|e es IH]; intros d d' w D; simpl in *; [congruence|].
      destruct e as [k su lp|k fo|r|b|lp].
      - rewrite (IH _ _ _ D). reflexivity.
      - rewrite (IH _ _ _ D). simpl. lia.
      - rewrite (IH _ _ _ D). simpl. lia.
      - rewrite (IH _ _ _ D). simpl. lia.
      - destruct d; [discriminate|]. rewrite (IH _ _ _ D). reflexivity.
    Qed.
    Lemma hof_open : forall pre k su lp es, NoDup (opens (pre ++ Open k su lp :: es)) ->
      hof (pre ++ Open k su lp :: es) k = negb (ahead 0 es =? 0).
    Proof.
      induction pre as [|e pre IH]; intros k su lp es N; simpl.
      - rewrite Nat.eqb_refl. reflexivity.
      - destruct e as [j ? ?|j ?|r|b|l]; simpl in N; auto.
        inversion N as [|? ? N1 N2]; subst.
        destruct (Nat.eqb_spec j k) as [->|_]; [|auto].
        exfalso. apply N1. rewrite opens_app. apply in_or_app. right. left. reflexivity.
    Qed.
    Lemma H_block : forall pre k su lp lp' es post, bal es ->
      T = pre ++ Open k su lp :: es ++ Close lp' :: post -> H k = negb (intros es =? 0).
    Proof.
      intros pre k su lp lp' es post B E. unfold H. rewrite E.
      rewrite hof_open by (rewrite <- E; exact Nd).
      rewrite (ahead_dep es 0 0 _ B). simpl. rewrite Nat.add_0_r. reflexivity.
    Qed.

    Definition able (v : val) (rest : list ev) : Prop := forall q r rest',
      rest = q ++ Rd r :: rest' -> intros q = 0 ->
      v <> Inv /\ (checks a r = false ->
        v = Def \/ exists q1 b q2, q = q1 ++ Bd b :: q2 /\ stays q2).

    Record J (inl : bool) (pre rest : list ev) (f : fs) : Prop := mkJ {
      Jc : fc f = curof pre;
      Jn : fn f = intros pre;
      Ju : intros pre = 0 -> inl = false -> fv f = Unb;
      Jd : intros pre <> 0 -> fv f <> Unb;
      Ja : able (fv f) rest;
      Jl : inl = true -> inloop pre
    }.

    Definition lk (es : list ev) : Prop := forall inl pre post f,
      T = pre ++ es ++ post -> J inl pre (es ++ post) f ->
      exists f', flow strict a H es f = Some f' /\ J inl (pre ++ es) post f'.

    Lemma lk_nil : lk [].
    Proof. intros inl pre post f E j. exists f. rewrite app_nil_r. split; [reflexivity|exact j]. Qed.
    Lemma lk_app : forall u w, lk u -> lk w -> lk (u ++ w).
    Proof.
      intros u w Lu Lw inl pre post f E j. rewrite <- app_assoc in E, j.
      destruct (Lu inl pre (w ++ post) f E j) as (f1 & E1 & j1).
      rewrite app_assoc in E.
      destruct (Lw inl (pre ++ u) post f1 E j1) as (f2 & E2 & j2).
      exists f2. rewrite flow_app, E1, app_assoc. split; [exact E2|exact j2].
    Qed.

    Lemma inloop_flat : forall p e, dep 0 [e] = Some 0 -> inloop p -> inloop (p ++ [e]).
    Proof.
      intros p e D (p1 & k & su & p2 & -> & S). exists p1, k, su, (p2 ++ [e]).
      rewrite <- app_assoc. split; [reflexivity|]. apply stays_app; [exact S|].
      exists 0. exact D.
    Qed.

    Lemma able_skip : forall v e rest, (forall r, e <> Rd r) -> is_intro e = false ->
      (forall b, e <> Bd b) -> able v (e :: rest) -> able v rest.
    Proof.
      intros v e rest Nr Ni Nb Ab q r rest' E Z.
      destruct (Ab (e :: q) r rest') as [A1 A2].
      - rewrite E. reflexivity.
      - simpl. rewrite Ni, Z. reflexivity.
      - split; [exact A1|]. intros C. destruct (A2 C) as [D|(q1 & b & q2 & E' & S)]; [auto|].
        right. destruct q1 as [|e' q1]; simpl in E'; injection E' as -> E'.
        + exfalso. exact (Nb b eq_refl).
        + exists q1, b, q2. auto.
    Qed.

    Lemma lk_one : forall e, dep 0 [e] = Some 0 -> lk [e].
    Proof.
      intros e De inl pre post f E j. destruct j as [jc jn ju jd ja jl].
      simpl in E, ja. simpl flow.
      destruct e as [k su lp|k fo|r|b|lp]; try discriminate.
      - (* Body *)
        simpl. destruct (decls a k) as [c|] eqn:Ek.
        + assert (Ek' : decls a k <> None) by congruence.
          destruct (cE T CT _ _ _ _ E Ek') as [Ec Zp]. rewrite Ek in Ec. injection Ec as ->.
          assert (U : strict && match fv f with Unb => false | _ => true end = false).
          { destruct strict; [|reflexivity]. simpl.
            destruct inl; [|rewrite (ju Zp eq_refl); reflexivity].
            exfalso. exact (CS eq_refl _ _ _ _ E Ek' (jl eq_refl)). }
          rewrite U. simpl. eexists. split; [reflexivity|].
          assert (I : is_intro (Body k fo) = true) by (simpl; rewrite Ek; reflexivity).
          assert (Ip : intros (pre ++ [Body k fo]) = S (intros pre)).
          { rewrite intros_app. simpl. rewrite Ek. lia. }
          constructor; simpl.
          * rewrite curof_intro; auto.
          * rewrite Ip, jn. reflexivity.
          * rewrite Ip. discriminate.
          * discriminate.
          * intros q r rest' Eq Z. split; [discriminate|]. intros C. right.
            assert (ET : T = (pre ++ Body k fo :: q) ++ Rd r :: rest').
            { rewrite E, Eq, <- app_assoc. reflexivity. }
            destruct (cC T CT _ _ _ ET C) as (p1 & b & p2 & Ep & Zp2 & S2).
            destruct (split_cons _ _ _ _ _ _ _ Ep) as [(e & -> & ->)|[(_ & ? & _)|(e & -> & ->)]].
            -- exfalso. rewrite intros_app in Zp2.
               change (intros (Body k fo :: q)) with
                 ((if is_intro (Body k fo) then 1 else 0) + intros q) in Zp2.
               rewrite I in Zp2. lia.
            -- discriminate.
            -- exists e, b, p2. auto.
          * intros L. apply inloop_flat; auto.
        + simpl. exists f. split; [reflexivity|].
          assert (I : is_intro (Body k fo) = false) by (simpl; rewrite Ek; reflexivity).
          assert (Z : intros [Body k fo] = 0) by (simpl; rewrite Ek; reflexivity).
          constructor; auto.
          * rewrite curof_app; auto.
          * rewrite intros_app, Z. lia.
          * rewrite intros_app, Z. intros. apply ju; auto. lia.
          * rewrite intros_app, Z. intros. apply jd. lia.
          * eapply able_skip; [| | |exact ja]; try discriminate. exact I.
          * intros L. apply inloop_flat; auto.
      - (* read *)
        assert (Ef : fstep strict a H (Rd r) f = Some f).
        { destruct (ja [] r post eq_refl eq_refl) as [A1 A2].
          pose proof (jd (cB0 T CT _ _ _ E)) as A3. simpl.
          destruct (checks a r) eqn:C.
          - destruct (cF T CT _ _ _ E C) as [k Ck]. rewrite jc, Ck.
            destruct (fv f); congruence.
          - destruct (A2 eq_refl) as [->|(q1 & b & q2 & Eq & _)]; [reflexivity|].
            destruct q1; discriminate. }
        rewrite Ef. simpl. exists f. split; [reflexivity|].
        constructor; auto.
        + rewrite curof_app; auto.
        + rewrite intros_app. simpl. lia.
        + rewrite intros_app. simpl. intros. apply ju; auto. lia.
        + rewrite intros_app. simpl. intros. apply jd. lia.
        + intros q r' rest' Eq Z. destruct (ja (Rd r :: q) r' rest') as [A1 A2].
          * rewrite Eq. reflexivity.
          * exact Z.
          * split; [exact A1|]. intros C.
            destruct (A2 C) as [D|(q1 & b & q2 & E' & S)]; [auto|].
            right. destruct q1 as [|e' q1]; simpl in E'; injection E' as E0 E'; [discriminate|].
            exists q1, b, q2. auto.
        + intros L. apply inloop_flat; auto.
      - (* assignment *)
        pose proof (cD T CT _ _ _ E) as D. simpl.
        destruct (kinds a b) eqn:Ek.
        + eexists. split; [reflexivity|].
          assert (I : is_intro (Bd b) = true) by (simpl; rewrite Ek; reflexivity).
          assert (Ip : intros (pre ++ [Bd b]) = S (intros pre)).
          { rewrite intros_app. simpl. rewrite Ek. lia. }
          constructor; simpl.
          * rewrite curof_intro; auto.
          * rewrite Ip, jn. reflexivity.
          * rewrite Ip. discriminate.
          * discriminate.
          * intros q r rest' _ _. split; [discriminate|]. auto.
          * intros L. apply inloop_flat; auto.
        + destruct D as [jn' Cj].
          assert (Np : intros pre <> 0).
          { intros Z. rewrite (curof_zero _ Z) in Cj. discriminate. }
          exists (Fs (fc f) Def (fn f) (sv f)). specialize (jd Np).
          rewrite jc, Cj. split; [destruct (fv f); simpl; congruence|].
          assert (Z : intros [Bd b] = 0) by (simpl; rewrite Ek; reflexivity).
          constructor; simpl; auto.
          * rewrite curof_app; auto.
          * rewrite intros_app, Z. lia.
          * rewrite intros_app, Z. intros. lia.
          * discriminate.
          * intros q r rest' _ _. split; [discriminate|]. auto.
          * intros L. apply inloop_flat; auto.
        + destruct D as [jn' Cj].
          assert (Np : intros pre <> 0).
          { intros Z. rewrite (curof_zero _ Z) in Cj. discriminate. }
          exists (Fs (fc f) Def (fn f) (sv f)). specialize (jd Np).
          rewrite jc, Cj. split; [destruct (fv f); simpl; congruence|].
          assert (Z : intros [Bd b] = 0) by (simpl; rewrite Ek; reflexivity).
          constructor; simpl; auto.
          * rewrite curof_app; auto.
          * rewrite intros_app, Z. lia.
          * rewrite intros_app, Z. intros. lia.
          * discriminate.
          * intros q r rest' _ _. split; [discriminate|]. auto.
          * intros L. apply inloop_flat; auto.
    Qed.

    Lemma lk_block : forall k su lp lp' es, bal es -> seg strict a H es ->
      lk es -> lk (Open k su lp :: es ++ [Close lp']).
    Proof.
      intros k su lp lp' es B Sg L inl pre post f E j.
      assert (E0 : (Open k su lp :: es ++ [Close lp']) ++ post =
                   Open k su lp :: es ++ Close lp' :: post).
      { simpl. rewrite <- app_assoc. reflexivity. }
      rewrite E0 in E, j. destruct j as [jc jn ju jd ja jl].
      pose proof (H_block _ _ _ _ _ _ _ B E) as Hk.
      assert (E1 : T = (pre ++ [Open k su lp]) ++ es ++ Close lp' :: post).
      { rewrite <- app_assoc. exact E. }
      assert (Io : intros (pre ++ [Open k su lp]) = intros pre).
      { rewrite intros_app. simpl. lia. }
      assert (j1 : J (inl || lp) (pre ++ [Open k su lp]) (es ++ Close lp' :: post)
                     (opened H k lp f)).
      { constructor; simpl.
        - rewrite curof_app; auto.
        - rewrite Io. exact jn.
        - rewrite Io. intros Z Ol. apply orb_false_elim in Ol. destruct Ol as [Ol ->].
          apply ju; auto.
        - rewrite Io. intros Z. destruct (lp && H k); [discriminate|auto].
        - destruct lp; simpl.
          + rewrite Hk. destruct (Nat.eqb_spec (intros es) 0) as [Z|Z]; simpl.
            * eapply able_skip; [| | |exact ja]; try discriminate. reflexivity.
            * intros q r rest' Eq Zq. exfalso.
              destruct (split_cons _ _ _ _ _ _ _ Eq) as [(e & -> & ->)|[(_ & ? & _)|(e & -> & _)]].
              -- exact (cA T CT _ _ _ _ _ _ _ _ E B Z Zq).
              -- discriminate.
              -- rewrite intros_app in Zq. lia.
          + eapply able_skip; [| | |exact ja]; try discriminate. reflexivity.
        - intros Ol. destruct lp.
          + exists pre, k, su, []. split; [reflexivity|]. exists 0. reflexivity.
          + rewrite orb_false_r in Ol. destruct (jl Ol) as (p1 & k' & su' & p2 & -> & S).
            exists p1, k', su', (p2 ++ [Open k su false]). rewrite <- app_assoc.
            split; [reflexivity|]. apply stays_app; [exact S|]. exists 1. reflexivity. }
      destruct (L _ _ _ _ E1 j1) as (f2 & E2 & j2).
      destruct (Sg _ _ E2) as (A1 & A2 & A3). simpl in A1, A2.
      destruct j2 as [kc kn ku kd ka kl].
      exists (Fs (fc f2) (if negb (intros es =? 0) then Inv else fv f) (fn f2) (sv f)).
      assert (Lt : (fn f <? fn f2) = negb (intros es =? 0)).
      { rewrite A2. destruct (Nat.eqb_spec (intros es) 0) as [Z|Z]; simpl;
          [apply Nat.ltb_ge; lia|apply Nat.ltb_lt; lia]. }
      split.
      { simpl. fold (opened H k lp f). rewrite flow_app, E2. simpl. rewrite A1, Lt.
        destruct lp; [|reflexivity]. rewrite Hk, eqb_reflx. reflexivity. }
      assert (Ep : pre ++ Open k su lp :: es ++ [Close lp'] =
                   ((pre ++ [Open k su lp]) ++ es) ++ [Close lp']).
      { rewrite <- !app_assoc. reflexivity. }
      assert (Ii : intros (pre ++ Open k su lp :: es ++ [Close lp']) = intros pre + intros es).
      { rewrite intros_app. simpl. rewrite intros_app. simpl. lia. }
      constructor; simpl.
      - rewrite Ep, curof_app by reflexivity. exact kc.
      - rewrite Ii. lia.
      - rewrite Ii. intros Z Ol. destruct (Nat.eqb_spec (intros es) 0); [|lia]. simpl.
        apply ju; [lia|exact Ol].
      - rewrite Ii. intros Z. destruct (Nat.eqb_spec (intros es) 0) as [Ze|Ze]; simpl;
          [apply jd; lia|discriminate].
      - destruct (Nat.eqb_spec (intros es) 0) as [Ze|Ze]; simpl.
        + intros q r rest' Eq Zq.
          destruct (ja (Open k su lp :: es ++ Close lp' :: q) r rest') as [C1 C2].
          { rewrite Eq. simpl. rewrite <- app_assoc. reflexivity. }
          { simpl. rewrite intros_app. simpl. lia. }
          split; [exact C1|]. intros C. destruct (C2 C) as [D|(q1 & b & q2 & E' & S)]; [auto|].
          right. destruct q1 as [|e' q1]; simpl in E'; [discriminate|]. injection E' as _ E'.
          destruct (split_cons _ _ _ _ _ _ _ E') as [(e & -> & ->)|[(_ & ? & _)|(e & -> & ->)]].
          * exfalso. revert S. apply (closed_not_stays q1 (Bd b) e lp' q); auto.
          * discriminate.
          * exists e, b, q2. auto.
        + intros q r rest' Eq Zq. exfalso.
          destruct (last_intro es Ze) as (u & i & w & -> & Ii' & Zw & _).
          assert (ET : T = (pre ++ Open k su lp :: u) ++ i :: (w ++ Close lp' :: q) ++ Rd r :: rest').
          { rewrite E, Eq. rewrite <- !app_assoc. simpl; rewrite <- ?app_assoc; simpl; rewrite <- ?app_assoc. reflexivity. }
          apply (closed_not_stays u i w lp' q); auto using intro_flat.
          apply (cB T CT _ _ _ _ _ ET Ii'). rewrite intros_app. simpl. lia.
      - intros Ol. destruct (jl Ol) as (p1 & k' & su' & p2 & -> & S).
        exists p1, k', su', (p2 ++ Open k su lp :: es ++ [Close lp']). rewrite <- app_assoc.
        split; [reflexivity|]. apply stays_app; [exact S|]. apply bal_stays.
        apply bal_block. exact B.
    Qed.

    Lemma lk_single : forall x y e, dep 0 [e] = Some 0 -> lk (one x y e).
    Proof. intros. unfold one. destruct (Nat.eqb y x); auto using lk_nil, lk_one. Qed.
    Lemma lk_blocked : forall V k x (e : expr V), lk (evs_e x e) -> lk (blocked k (evs_e x e)).
    Proof. intros. apply lk_block; auto using evs_e_bal, seg_evs_e. Qed.
    Lemma lk_branch : forall V k x (p : stmt V), lk (evs x p) -> lk (branch k (evs x p)).
    Proof.
      intros. apply lk_block.
      - exact (evs_bal V x p).
      - apply (seg_app strict a H [_]); [apply seg_one; reflexivity|apply seg_evs].
      - apply (lk_app [_]); [apply lk_one; reflexivity|assumption].
    Qed.
    Lemma lk_evs_e : forall V x (e : expr V), lk (evs_e x e).
    Proof.
      induction e; cbn [evs_e]; repeat apply lk_app; auto using lk_nil, lk_blocked;
        apply lk_single; reflexivity.
    Qed.
    Lemma lk_evs : forall V x (p : stmt V), lk (evs x p).
    Proof.
      induction p; cbn [evs]; repeat apply lk_app; auto using lk_nil, lk_evs_e, lk_branch;
        try (apply lk_single; reflexivity).
      - apply lk_block.
        + apply bal_app; [apply evs_e_bal|]. exact (evs_bal V x p).
        + apply seg_app; [apply seg_evs_e|].
          apply (seg_app strict a H [_]); [apply seg_one; reflexivity|apply seg_evs].
        + apply lk_app; [apply lk_evs_e|].
          apply (lk_app [_]); [apply lk_one; reflexivity|assumption].
      - apply lk_block.
        + apply bal_app; [apply one_bal; reflexivity|]. exact (evs_bal V x p).
        + apply seg_app; [apply seg_single; reflexivity|].
          apply (seg_app strict a H [_]); [apply seg_one; reflexivity|apply seg_evs].
        + apply lk_app; [apply lk_single; reflexivity|].
          apply (lk_app [_]); [apply lk_one; reflexivity|assumption].
    Qed.

    Definition fs0 : fs := Fs None Unb 0 [].
    Theorem link : forall V x (p : stmt V), T = all x p ->
      exists f', flow strict a H (all x p) fs0 = Some f'.
    Proof.
      intros V x p E.
      assert (L : lk (Body 0 false :: evs x p)).
      { apply (lk_app [_]); [apply lk_one; reflexivity|apply lk_evs]. }
      assert (ET : T = [Open 0 true false] ++ (Body 0 false :: evs x p) ++ []).
      { rewrite app_nil_r. exact E. }
      destruct (L false [Open 0 true false] [] (opened H 0 false fs0) ET) as (f' & F & _).
      - constructor; simpl; auto.
        + intros q r rest' Eq Z. exfalso.
          apply (cB0 T CT (Open 0 true false :: q) r rest'); [|exact Z].
          rewrite ET. simpl. simpl in Eq. rewrite Eq. reflexivity.
        + discriminate.
      - exists f'. exact F.
    Qed.
  End Link.
End Claims.
