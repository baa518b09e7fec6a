(** A static analysis of the annotated events of a name, and the proof that a
    resolved function whose names all pass it runs as Python's does.  Proof
    machinery only. *)
From Coq Require Import List Bool Arith Lia.
From Verif.Scope Require Import Spec Model Events.
Import ListNotations.

(** What is known of the current variable of a name: nothing, the name is
    unbound, the flag tells, it holds the name's value. *)
Inductive val : Type := Inv | Unb | May | Def.
Definition le (v w : val) : Prop := v = w \/ v = Inv \/ (v = May /\ w = Def).

Lemma le_refl : forall v, le v v.
Proof. left. reflexivity. Qed.
Lemma le_trans : forall u v w, le u v -> le v w -> le u w.
Proof.
  intros u v w [->|[->|[-> ->]]] H; auto; [right; left; auto|].
  destruct H as [<-|[H|[H _]]]; try discriminate. right. right. auto.
Qed.

Record fs : Type := Fs {
  fc : option node;
  fv : val;
  fn : nat;                                   (* how many variables introduced *)
  sv : list (val * nat * option bool)         (* the enclosing blocks *)
}.

Section Flow.
  Context (strict : bool) (a : ann) (H : nat -> bool).

  Definition is_intro (e : ev) : bool :=
    match e with
    | Bd b => match kinds a b with KNew => true | _ => false end
    | Body k _ => match decls a k with Some _ => true | None => false end
    | _ => false
    end.
  Fixpoint intros (es : list ev) : nat :=
    match es with
    | [] => 0
    | e :: es => (if is_intro e then 1 else 0) + intros es
    end.

  Definition fstep (e : ev) (f : fs) : option fs :=
    match e with
    | Open k _ lp =>
        Some (Fs (fc f) (if lp && H k then Inv else fv f) (fn f)
                 ((fv f, fn f, if lp then Some (H k) else None) :: sv f))
    | Close _ =>
        match sv f with
        | [] => None
        | (v0, n0, h) :: r =>
            let i := n0 <? fn f in
            let f' := Fs (fc f) (if i then Inv else v0) (fn f) r in
            match h with
            | Some h => if Bool.eqb h i then Some f' else None
            | None => Some f'
            end
        end
    | Body k _ =>
        match decls a k with
        | None => Some f
        | Some 0 => None
        | Some (S _) =>
            if strict && match fv f with Unb => false | _ => true end then None
            else Some (Fs (Some (NSuite k)) May (S (fn f)) (sv f))
        end
    | Rd r =>
        if checks a r then
          match fc f, fv f with
          | Some (NSuite _), May | Some (NSuite _), Def => Some f
          | _, _ => None
          end
        else match fv f with Def => Some f | _ => None end
    | Bd b =>
        match kinds a b, fc f, fv f with
        | KNew, _, _ => Some (Fs (Some (NBind b)) Def (S (fn f)) (sv f))
        | _, _, Unb => None
        | KUpd, Some (NBind _), _ | KUsed, Some (NSuite _), _ =>
            Some (Fs (fc f) Def (fn f) (sv f))
        | _, _, _ => None
        end
    end.

  Fixpoint flow (es : list ev) (f : fs) : option fs :=
    match es with
    | [] => Some f
    | e :: es => andthen (fstep e f) (flow es)
    end.

  Lemma flow_app : forall u w f, flow (u ++ w) f = andthen (flow u f) (flow w).
  Proof.
    induction u as [|e u IH]; intros w f; simpl; [reflexivity|].
    destruct (fstep e f); simpl; auto.
  Qed.
  Lemma intros_app : forall u w, intros (u ++ w) = intros u + intros w.
  Proof. induction u; intros w; simpl; [reflexivity|]. rewrite IHu. lia. Qed.

  Definition seg (es : list ev) : Prop := forall f f', flow es f = Some f' ->
    sv f' = sv f /\ fn f' = fn f + intros es /\
    (intros es = 0 -> fc f' = fc f /\ le (fv f) (fv f')).

  Lemma seg_nil : seg [].
  Proof.
    intros f f' E. injection E as <-. simpl. repeat split; auto using le_refl.
  Qed.
  Lemma seg_app : forall u w, seg u -> seg w -> seg (u ++ w).
  Proof.
    intros u w Su Sw f f' E. rewrite flow_app in E.
    destruct (flow u f) as [f1|] eqn:E1; [|discriminate]. simpl in E.
    destruct (Su _ _ E1) as (A1 & A2 & A3), (Sw _ _ E) as (B1 & B2 & B3).
    rewrite intros_app. split; [congruence|]. split; [lia|]. intros Z.
    destruct (A3 ltac:(lia)) as [C1 C2], (B3 ltac:(lia)) as [D1 D2].
    split; [congruence|]. eauto using le_trans.
  Qed.
  Lemma le_def : forall v, v <> Unb -> le v Def.
  Proof. intros [] N; unfold le; auto. congruence. Qed.
  Lemma seg_one : forall e, dep 0 [e] = Some 0 -> seg [e].
  Proof.
    intros e D f f' E. simpl in E. rewrite andthen_some in E.
    destruct e as [k su lp|k fo|r|b|lp]; simpl in *; try discriminate.
    - destruct (decls a k) as [[|n]|]; try discriminate.
      + destruct (strict && _); [discriminate|]. injection E as <-. simpl.
        split; [reflexivity|]. split; [lia|]. discriminate.
      + injection E as <-. split; [reflexivity|]. split; [lia|]. auto using le_refl.
    - assert (f' = f) as ->.
      { destruct (checks a r).
        - destruct (fc f) as [[]|], (fv f); congruence.
        - destruct (fv f); congruence. }
      split; [reflexivity|]. split; [lia|]. auto using le_refl.
    - destruct (kinds a b).
      + injection E as <-. simpl. split; [reflexivity|]. split; [lia|]. discriminate.
      + destruct (fv f) eqn:Ev, (fc f) as [[]|] eqn:Ec; try discriminate;
          injection E as <-; simpl; (split; [reflexivity|]); (split; [lia|]);
          (split; [reflexivity|]); rewrite ?Ev; apply le_def; discriminate.
      + destruct (fv f) eqn:Ev, (fc f) as [[]|] eqn:Ec; try discriminate;
          injection E as <-; simpl; (split; [reflexivity|]); (split; [lia|]);
          (split; [reflexivity|]); rewrite ?Ev; apply le_def; discriminate.
  Qed.

  Definition opened (k : nat) (lp : bool) (f : fs) : fs :=
    Fs (fc f) (if lp && H k then Inv else fv f) (fn f)
       ((fv f, fn f, if lp then Some (H k) else None) :: sv f).

  Lemma flow_block : forall k su lp lp' es f f', seg es ->
    flow (Open k su lp :: es ++ [Close lp']) f = Some f' ->
    exists f2, flow es (opened k lp f) = Some f2 /\
      fc f' = fc f2 /\ fv f' = (if intros es =? 0 then fv f else Inv) /\
      sv f' = sv f /\ fn f' = fn f + intros es /\
      (intros es = 0 -> fc f2 = fc f /\ le (fv (opened k lp f)) (fv f2)) /\
      (lp = true -> H k = negb (intros es =? 0)).
  Proof.
    intros k su lp lp' es f f' S E. simpl in E. rewrite flow_app in E.
    fold (opened k lp f) in E.
    destruct (flow es (opened k lp f)) as [f2|] eqn:E2; [|discriminate]. simpl in E.
    destruct (S _ _ E2) as (A1 & A2 & A3). exists f2. split; [reflexivity|].
    rewrite A1 in E. simpl in E. rewrite A2 in E. simpl in E.
    assert (L : (fn f <? fn f + intros es) = negb (intros es =? 0)).
    { destruct (Nat.eqb_spec (intros es) 0) as [Z|Z]; simpl;
        [apply Nat.ltb_ge; lia|apply Nat.ltb_lt; lia]. }
    rewrite L in E.
    assert (G : f' = Fs (fc f2) (if negb (intros es =? 0) then Inv else fv f)
                        (fn f + intros es) (sv f) /\
                (lp = true -> H k = negb (intros es =? 0))).
    { destruct lp; simpl in E.
      - destruct (Bool.eqb (H k) (negb (intros es =? 0))) eqn:B; [|discriminate].
        apply eqb_prop in B. simpl in E. split; [congruence|auto].
      - split; [simpl in E; congruence|discriminate]. }
    destruct G as [-> G]. simpl. repeat split; auto.
    - destruct (intros es =? 0); reflexivity.
    - apply A3; assumption.
    - apply A3; assumption.
  Qed.
  Lemma seg_block : forall k su lp lp' es, seg es -> seg (Open k su lp :: es ++ [Close lp']).
  Proof.
    intros k su lp lp' es S f f' E.
    destruct (flow_block k su lp lp' es f f' S E) as (f2 & _ & A & B & C & D & G & _).
    assert (I : intros (Open k su lp :: es ++ [Close lp']) = intros es).
    { simpl. rewrite intros_app. simpl. lia. }
    rewrite I. split; [exact C|]. split; [exact D|]. intros Z.
    destruct (G Z) as [G1 G2]. rewrite B, Z. simpl. split; [congruence|apply le_refl].
  Qed.
  Lemma seg_single : forall x y e, dep 0 [e] = Some 0 -> seg (one x y e).
  Proof. intros. unfold one. destruct (Nat.eqb y x); auto using seg_nil, seg_one. Qed.
  Lemma seg_blocked : forall k es, seg es -> seg (blocked k es).
  Proof. intros. apply seg_block. assumption. Qed.
  Lemma seg_evs_e : forall V x (e : expr V), seg (evs_e x e).
  Proof.
    induction e; cbn [evs_e]; repeat apply seg_app; auto using seg_nil, seg_blocked;
      try (apply seg_single; reflexivity).
  Qed.
  Lemma seg_branch : forall k es, seg es -> seg (branch k es).
  Proof.
    intros. apply seg_block. apply (seg_app [_]); [apply seg_one; reflexivity|assumption].
  Qed.
  Lemma seg_evs : forall V x (p : stmt V), seg (evs x p).
  Proof.
    induction p; cbn [evs]; repeat apply seg_app; auto using seg_nil, seg_evs_e, seg_branch;
      try (apply seg_single; reflexivity);
      apply seg_block; apply seg_app; auto using seg_evs_e;
      try (apply seg_single; reflexivity);
      apply (seg_app [_]); auto; apply seg_one; reflexivity.
  Qed.
End Flow.
