(** The desugared program does what the source does. *)
From Coq Require Import ZArith List Bool String Lia.
From Verif.Desugar Require Import DesugarSpec DesugarModel DesugarPat.
Import ListNotations.
Local Open Scope Z_scope.
Local Open Scope list_scope.

Scheme src_mut := Induction for src Sort Prop
  with cases_mut := Induction for cases Sort Prop.
Combined Scheme src_cases_ind from src_mut, cases_mut.

(** ** Breaks and continues that leave a statement *)

Lemma while_not_continue {S} k c (f : S -> result S) s s' : while_ k c f s <> Some (Continue, s').
Proof.
  revert s. induction k as [|k IH]; intros s; simpl; destruct (c s); try discriminate.
  destruct (f s) as [[[] ?]|]; try discriminate; apply IH.
Qed.

Lemma for_not_continue {S} vs (f : val -> S -> result S) s s' : for_ vs f s <> Some (Continue, s').
Proof.
  revert s. induction vs as [|v vs IH]; intros s; simpl; try discriminate.
  destruct (f v s) as [[[] ?]|]; try discriminate; apply IH.
Qed.

Lemma run_head_not_continue k h f s s' : run_head k h f s <> Some (Continue, s').
Proof.
  destruct h; simpl; [apply while_not_continue| |]; destruct (items _);
    try discriminate; apply for_not_continue.
Qed.

Lemma no_break k :
  (forall p, brks p = false -> forall s s', sexec k p s <> Some (Break, s')) /\
  (forall cs, brks_cases cs = false -> forall v s s', scases k v cs s <> Some (Break, s')).
Proof.
  apply src_cases_ind; simpl; try (intros; discriminate).
  - intros a IHa b IHb H s s'. apply orb_false_iff in H as [Ha Hb].
    destruct (sexec k a s) as [[[] ?]|] eqn:E; try discriminate; auto.
    exfalso. now apply (IHa Ha s e).
  - intros c a IHa b IHb H s s'. apply orb_false_iff in H as [Ha Hb]. destruct (c s); auto.
  - intros h body IH _ s s'. unfold after. destruct (run_head k h _ s) as [[[] ?]|]; discriminate.
  - intros h body IH els IHe H s s'. unfold after.
    destruct (run_head k h _ s) as [[[] ?]|]; try discriminate. auto.
  - intros e cs IH H s s'. auto.
  - intros p g body IH rest IHr H v s s'. apply orb_false_iff in H as [Ha Hb].
    destruct (pmatch p v) as [bs|]; auto.
    match goal with |- context [if ?b then _ else _] => destruct b end; auto.
Qed.

Lemma no_continue k :
  (forall p, conts p = false -> forall s s', sexec k p s <> Some (Continue, s')) /\
  (forall cs, conts_cases cs = false -> forall v s s', scases k v cs s <> Some (Continue, s')).
Proof.
  apply src_cases_ind; simpl; try (intros; discriminate).
  - intros a IHa b IHb H s s'. apply orb_false_iff in H as [Ha Hb].
    destruct (sexec k a s) as [[[] ?]|] eqn:E; try discriminate; auto.
    exfalso. now apply (IHa Ha s e).
  - intros c a IHa b IHb H s s'. apply orb_false_iff in H as [Ha Hb]. destruct (c s); auto.
  - intros h body IH _ s s'. unfold after.
    destruct (run_head k h (sexec k body) s) as [[[] ?]|] eqn:E; try discriminate.
    exfalso. eapply run_head_not_continue; eauto.
  - intros h body IH els IHe H s s'. unfold after.
    destruct (run_head k h (sexec k body) s) as [[[] ?]|] eqn:E; try discriminate; auto.
    exfalso. eapply run_head_not_continue; eauto.
  - intros e cs IH H s s'. auto.
  - intros p g body IH rest IHr H v s s'. apply orb_false_iff in H as [Ha Hb].
    destruct (pmatch p v) as [bs|]; auto.
    match goal with |- context [if ?b then _ else _] => destruct b end; auto.
Qed.

(** ** Temporaries *)

Definition static_go (x : string) (l t : nat) (body : src) : nat -> Z -> nat -> tgt * nat :=
  fix go (k : nat) (i : Z) (n : nat) : tgt * nat :=
    match k with
    | O => (TSkip, n)
    | S k' =>
        let (b, n1) := tr (Ctx None (Some l)) n body in
        let (r, n2) := go k' (i + 1) n1 in
        (TSeq (TWhile (CTemp l) (TSeq (TAssignPath x t [i]) (TSeq b TBreak))) r, n2)
    end.

Lemma tr_static c n x e cnt body :
  tr c n (Loop (HStatic x e cnt) body) =
  (let (b, n1) := static_go x n (S n) body cnt 0 (S (S n)) in
   (TSeq (TFlag n true) (TWhile (CTemp n) (TSeq (TSave (S n) e) (TSeq b (TFlag n false)))), n1)).
Proof. reflexivity. Qed.

Lemma tr_static_else c n x e cnt body els :
  tr c n (LoopElse (HStatic x e cnt) body els) =
  (let (b, n1) := static_go x n (S n) body cnt 0 (S (S n)) in
   (TSeq (TFlag n true) (TWhile (CTemp n) (TSeq (TSave (S n) e) (TSeq b (TFlag n false)))), n1)).
Proof. reflexivity. Qed.

Lemma static_go_mono x l t body :
  (forall c n, (n <= snd (tr c n body))%nat) ->
  forall k i n, (n <= snd (static_go x l t body k i n))%nat.
Proof.
  intros H. induction k as [|k IH]; intros i n; simpl; auto.
  specialize (H (Ctx None (Some l)) n). destruct (tr _ n body) as [b n1].
  specialize (IH (i + 1) n1). destruct (static_go _ _ _ _ k (i + 1) n1) as [r n2]. simpl in *. lia.
Qed.

Lemma tr_mono :
  (forall p c n, (n <= snd (tr c n p))%nat) /\
  (forall cs t n, (n <= snd (tr_cases t n cs))%nat).
Proof.
  apply src_cases_ind; try (intros; simpl; auto; fail).
  - intros a IHa b IHb c n. simpl. specialize (IHa c n). destruct (tr c n a) as [a' n1].
    specialize (IHb c n1). destruct (tr c n1 b). simpl in *. lia.
  - intros c0 a IHa b IHb c n. simpl. specialize (IHa c n). destruct (tr c n a) as [a' n1].
    specialize (IHb c n1). destruct (tr c n1 b). simpl in *. lia.
  - intros h body IH c n. destruct h as [cd|x e|x e cnt].
    + simpl. specialize (IH (Ctx None None) n). destruct (tr _ n body). exact IH.
    + simpl. specialize (IH (Ctx None None) n). destruct (tr _ n body). exact IH.
    + rewrite tr_static. pose proof (static_go_mono x n (S n) body IH cnt 0 (S (S n))) as H.
      destruct (static_go _ _ _ _ _ _ _). simpl in *. lia.
  - intros h body IH els IHe c n. destruct h as [cd|x e|x e cnt].
    + simpl. specialize (IH (Ctx (Some n) None) (S n)). destruct (tr _ (S n) body) as [b n1].
      specialize (IHe (Ctx (Some n) (st c)) n1). destruct (tr _ n1 els). simpl in *. lia.
    + simpl. specialize (IH (Ctx (Some n) None) (S n)). destruct (tr _ (S n) body) as [b n1].
      specialize (IHe (Ctx (Some n) (st c)) n1). destruct (tr _ n1 els). simpl in *. lia.
    + rewrite tr_static_else. pose proof (static_go_mono x n (S n) body IH cnt 0 (S (S n))) as H.
      destruct (static_go _ _ _ _ _ _ _). simpl in *. lia.
  - intros e cs IH c n. simpl. specialize (IH n (S n)). destruct (tr_cases n (S n) cs). simpl in *. lia.
  - intros p g body IH rest IHr t n. simpl. specialize (IH (Ctx None None) n).
    destruct (tr _ n body) as [b n1]. specialize (IHr t n1). destruct (tr_cases t n1 rest).
    simpl in *. lia.
Qed.

(** ** The relation between results *)

Definition agree (A : string -> Prop) (e : env) (s : tenv) : Prop := forall x, A x -> e x = fst s x.

Lemma reads_agree {T} A (f : env -> T) e s : reads A f -> agree A e s -> f e = f (fst s).
Proof. intros H1 H2. apply H1. exact H2. Qed.

Lemma agree_upd A e s x v : agree A e s -> agree A (upd x v e) (tupd x v s).
Proof. intros H y Hy. simpl. unfold upd. destruct (String.eqb y x); auto. Qed.

Lemma agree_temps A e s s' : fst s' = fst s -> agree A e s -> agree A e s'.
Proof. intros H1 H2 x Hx. rewrite H1. auto. Qed.

Definition omap (c : ctx) (o : outcome) : outcome :=
  match o with Continue => match st c with Some _ => Break | None => Continue end | _ => o end.

Definition flagged (o : outcome) (v : val) : val :=
  match o with Break => VBool false | _ => v end.

Definition rel (A : string -> Prop) (n : nat) (c : ctx) (need : option nat) (s : tenv)
    (r : result env) (r' : result tenv) : Prop :=
  match r, r' with
  | None, None => True
  | Some (o, e'), Some (o', s') =>
      o' = omap c o /\ agree A e' s' /\
      (forall m, (m < n)%nat -> brk c <> Some m -> st c <> Some m -> snd s' m = snd s m) /\
      (forall b, need = Some b -> snd s' b = flagged o (snd s b)) /\
      (forall l, st c = Some l -> snd s' l = flagged o (snd s l))
  | _, _ => False
  end.

Definition wfctx (c : ctx) (n : nat) (need : option nat) : Prop :=
  (forall b, brk c = Some b -> (b < n)%nat) /\
  (forall l, st c = Some l -> (l < n)%nat /\ brk c <> Some l) /\
  (need = None \/ need = brk c).

(** Loops without else, and matches, leave all earlier temporaries alone. *)
Lemma rel_closed A n c need s o e' s' : wfctx c n need ->
  o <> Break -> o <> Continue -> agree A e' s' ->
  (forall m, (m < n)%nat -> snd s' m = snd s m) ->
  rel A n c need s (Some (o, e')) (Some (o, s')).
Proof.
  intros (W1 & W2 & W3) H1 H2 H3 H4. simpl. split; [destruct o; simpl; congruence|]. split; auto.
  split; auto.
  assert (F : forall v, flagged o v = v) by (destruct o; simpl; congruence).
  split; intros b Hb; rewrite F; apply H4.
  - destruct W3 as [W3|W3]; [congruence|]. apply W1. congruence.
  - now apply W2.
Qed.

(** ** Loops *)

Section LoopRel.
  Context (Inv Brk Ret : env -> tenv -> Prop).

  Definition lrel (r : result env) (r' : result tenv) : Prop :=
    match r, r' with
    | None, None => True
    | Some (Normal, e), Some (o, s) | Some (Continue, e), Some (o, s) =>
        (o = Normal \/ o = Continue) /\ Inv e s
    | Some (Break, e), Some (Break, s) => Brk e s
    | Some (Return v, e), Some (Return v', s) => v = v' /\ Ret e s
    | Some (Wrong, e), Some (Wrong, s) => Ret e s
    | _, _ => False
    end.

  (** The same without [Continue]. *)
  Definition lrel' (r : result env) (r' : result tenv) : Prop :=
    match r, r' with
    | None, None => True
    | Some (Normal, e), Some (Normal, s) => Inv e s
    | Some (Break, e), Some (Break, s) => Brk e s
    | Some (Return v, e), Some (Return v', s) => v = v' /\ Ret e s
    | Some (Wrong, e), Some (Wrong, s) => Ret e s
    | _, _ => False
    end.

  Lemma while_rel c c' f f' : (forall e s, Inv e s -> c e = c' s) ->
    (forall e s, Inv e s -> lrel (f e) (f' s)) ->
    forall k e s, Inv e s -> lrel' (while_ k c f e) (while_ k c' f' s).
  Proof.
    intros Hc Hf. induction k as [|k IH]; intros e s H; simpl; rewrite (Hc e s H);
      destruct (c' s); simpl; auto.
    specialize (Hf e s H). destruct (f e) as [[o e']|], (f' s) as [[o' s']|]; simpl in Hf;
      try destruct o; try tauto; try (destruct Hf as [[-> | ->] Hf]; auto; fail);
      destruct o'; simpl; try tauto.
  Qed.

  Lemma for_rel f f' : (forall v e s, Inv e s -> lrel (f v e) (f' v s)) ->
    forall vs e s, Inv e s -> lrel' (for_ vs f e) (for_ vs f' s).
  Proof.
    intros Hf. induction vs as [|v vs IH]; intros e s H; simpl; auto.
    specialize (Hf v e s H). destruct (f v e) as [[o e']|], (f' v s) as [[o' s']|]; simpl in Hf;
      try destruct o; try tauto; try (destruct Hf as [[-> | ->] Hf]; auto; fail);
      destruct o'; simpl; try tauto.
  Qed.
End LoopRel.

Definition sim (k : nat) (p : src) : Prop := forall A els c n need,
  ok A els p -> wfctx c n need -> (need <> None -> els = true) ->
  forall e s, agree A e s -> rel A n c need s (sexec k p e) (texec k (fst (tr c n p)) s).

(** Bodies of while and for loops; [nb] is the variable of the else clause, if any. *)
Definition LInv (A : string -> Prop) (n : nat) (nb : option nat) (s0 : tenv) (flag : bool)
    (e : env) (s : tenv) : Prop :=
  agree A e s /\ (forall m, (m < n)%nat -> snd s m = snd s0 m) /\
  (forall b, nb = Some b -> snd s b = VBool flag).

Definition LRet (A : string -> Prop) (n : nat) (s0 : tenv) (e : env) (s : tenv) : Prop :=
  agree A e s /\ (forall m, (m < n)%nat -> snd s m = snd s0 m).

Lemma body_lrel k body A n nb n' s0 : sim k body ->
  (nb = None /\ n' = n \/ nb = Some n /\ n' = S n) ->
  ok A (match nb with Some _ => true | None => false end) body ->
  forall e s, LInv A n nb s0 true e s ->
  lrel (LInv A n nb s0 true) (LInv A n nb s0 false) (LRet A n s0)
    (sexec k body e) (texec k (fst (tr (Ctx nb None) n' body)) s).
Proof.
  intros IH Hnb Hok e s (H1 & H2 & H3).
  assert (W : wfctx (Ctx nb None) n' nb).
  { split; [|split; [|now right]]; simpl; intros b Hb; [|discriminate].
    destruct Hnb as [[-> _]|[-> ->]]; [discriminate|]. inversion Hb. lia. }
  specialize (IH A _ (Ctx nb None) n' nb Hok W ltac:(destruct nb; congruence) e s H1).
  unfold rel in IH. destruct (sexec k body e) as [[o e']|], (texec k _ s) as [[o' s']|]; simpl; try tauto.
  destruct IH as (E & Ha & Hfr & Hn & _).
  assert (Hm : forall m, (m < n)%nat -> snd s' m = snd s0 m).
  { intros m Hm. rewrite Hfr; auto; simpl; try discriminate.
    - destruct Hnb as [[-> ->]|[-> ->]]; lia.
    - destruct Hnb as [[-> ->]|[-> ->]]; [discriminate|]. intros E'. inversion E'. lia. }
  assert (Hb : forall b, nb = Some b -> snd s' b = flagged o (VBool true)).
  { intros b Hb. rewrite (Hn b Hb). now rewrite (H3 b Hb). }
  destruct o; simpl in E; subst o'; simpl in *; unfold LInv, LRet; auto 6.
Qed.

Lemma head_lrel k h body A n nb n' s0 : sim k body ->
  (nb = None /\ n' = n \/ nb = Some n /\ n' = S n) ->
  ok A (match nb with Some _ => true | None => false end) body ->
  head_ok A h -> (match h with HStatic _ _ _ => False | _ => True end) ->
  forall e s, LInv A n nb s0 true e s ->
  let r := after (fun e => Some (Normal, e)) (run_head k h (sexec k body) e) in
  let t := head_cond h (fst (tr (Ctx nb None) n' body)) in
  match run_head k h (sexec k body) e, texec k t s with
  | None, None => True
  | Some (Normal, e'), Some (Normal, s') => LInv A n nb s0 true e' s'
  | Some (Break, e'), Some (Normal, s') => LInv A n nb s0 false e' s'
  | Some (Return v, e'), Some (Return v', s') => v = v' /\ LRet A n s0 e' s'
  | Some (Wrong, e'), Some (Wrong, s') => LRet A n s0 e' s'
  | _, _ => False
  end.
Proof.
  intros IH Hnb Hok Hh Hst e s HI. pose proof HI as (Hag & HI2 & HI3).
  pose proof (body_lrel k body A n nb n' s0 IH Hnb Hok) as HB.
  destruct h as [c|x ex|]; cbn [head_ok] in Hh; [| |contradiction]; cbn [head_cond texec run_head].
  - pose proof (while_rel _ _ _ c (eval_cond (CUser c)) (sexec k body) _
      (fun e s H => reads_agree A c e s Hh (proj1 H)) HB k e s HI) as HW.
    match type of HW with lrel' _ _ _ ?r ?r' =>
      destruct r as [[[] e']|], r' as [[[] s']|] end;
      cbn [after]; try exact I; try exact HW; contradiction.
  - rewrite <- (reads_agree A ex e s Hh Hag). destruct (items (ex e)) as [vs|]; [|split; auto].
    assert (HB' : forall v e s, LInv A n nb s0 true e s ->
      lrel (LInv A n nb s0 true) (LInv A n nb s0 false) (LRet A n s0)
        (sexec k body (upd x v e)) (texec k (fst (tr (Ctx nb None) n' body)) (tupd x v s))).
    { intros v e1 s1 (G1 & G2 & G3). apply HB. split; [now apply agree_upd|auto]. }
    pose proof (for_rel _ _ _ _ _ HB' vs e s HI) as HW. cbn beta in HW.
    match type of HW with lrel' _ _ _ ?r ?r' =>
      destruct r as [[[] e']|], r' as [[[] s']|] end;
      cbn [after]; try exact I; try exact HW; contradiction.
Qed.

(** ** Loops over tuples *)

Lemma static_skipped x l t body k cnt i n s : truth (snd s l) = false ->
  texec k (fst (static_go x l t body cnt i n)) s = Some (Normal, s).
Proof.
  intros H. revert i n. induction cnt as [|cnt IH]; intros i n; simpl; auto.
  destruct (tr _ n body) as [b n1]. specialize (IH (i + 1) n1).
  destruct (static_go x l t body cnt (i + 1) n1) as [r n2]. simpl in *.
  replace (while_ k _ _ s) with (Some (Normal, s)); [exact IH|].
  destruct k; simpl; now rewrite H.
Qed.

Definition SInv (A : string -> Prop) (l t : nat) (v : val) (s0 : tenv) (flag : bool)
    (e : env) (s : tenv) : Prop :=
  agree A e s /\ (forall m, (m < l)%nat -> snd s m = snd s0 m) /\
  snd s l = VBool flag /\ snd s t = v.

Lemma static_lrel k x l body A vs s0 : (1 <= k)%nat -> sim k body -> ok A false body ->
  forall rest i n e s, (i + List.length rest = List.length vs)%nat -> rest = skipn i vs ->
  (S l < n)%nat ->
  SInv A l (S l) (VTuple vs) s0 true e s ->
  match for_ rest (fun v e => sexec k body (upd x v e)) e,
        texec k (fst (static_go x l (S l) body (List.length rest) (Z.of_nat i) n)) s with
  | None, None => True
  | Some (Normal, e'), Some (Normal, s') => SInv A l (S l) (VTuple vs) s0 true e' s'
  | Some (Break, e'), Some (Normal, s') => SInv A l (S l) (VTuple vs) s0 false e' s'
  | Some (Return v, e'), Some (Return v', s') => v = v' /\ LRet A l s0 e' s'
  | Some (Wrong, e'), Some (Wrong, s') => LRet A l s0 e' s'
  | _, _ => False
  end.
Proof.
  intros Hk IH Hok. induction rest as [|v rest IHr]; intros i n e s Hl Hr Hn HI; [exact HI|].
  pose proof HI as (G1 & G2 & G3 & G4).
  simpl in Hl. destruct (skipn_cons vs i ltac:(lia)) as (w & Hw & Hsk).
  rewrite Hsk in Hr. injection Hr as Hvw Hr. subst w. cbn [List.length static_go].
  pose proof (proj1 tr_mono body (Ctx None (Some l)) n) as Hmono.
  specialize (IH A false (Ctx None (Some l)) n None Hok).
  destruct (tr (Ctx None (Some l)) n body) as [b n1]. simpl in Hmono, IH.
  replace (Z.of_nat i + 1) with (Z.of_nat (S i)) by lia.
  specialize (IHr (S i) n1).
  replace (S i + List.length rest)%nat with (i + S (List.length rest))%nat in IHr by lia.
  destruct (static_go x l (S l) body (List.length rest) (Z.of_nat (S i)) n1) as [r n2] eqn:Er.
  pose proof (static_skipped x l (S l) body k (List.length rest) (Z.of_nat (S i)) n1) as Hskip.
  rewrite Er in Hskip. cbn [fst] in IHr, Hskip. cbn [fst for_ texec].
  assert (W : wfctx (Ctx None (Some l)) n None).
  { split; [discriminate|]. split; [|now left]. simpl. intros l' E. inversion E; subst.
    split; [lia|discriminate]. }
  specialize (IH W ltac:(congruence) (upd x v e) (tupd x v s) (agree_upd _ _ _ _ _ G1)).
  assert (EB : texec k (TSeq (TAssignPath x (S l) [Z.of_nat i]) (TSeq b TBreak)) s =
               match texec k b (tupd x v s) with
               | Some (Normal, s') => Some (Break, s') | r => r end).
  { cbn [texec]. rewrite G4. simpl.
    replace (Z.of_nat i <? 0) with false by (symmetry; apply Z.ltb_ge; lia).
    rewrite Nat2Z.id, Hw. reflexivity. }
  destruct k as [|k']; [lia|]. cbn [while_ eval_cond]. rewrite G3. cbn [truth].
  cbn [texec] in EB. rewrite EB. clear EB. unfold rel in IH.
  destruct (sexec (S k') body (upd x v e)) as [[o e']|],
           (texec (S k') b (tupd x v s)) as [[o' s']|]; try contradiction; [|exact I].
  destruct IH as (E & Ha & Hfr & _ & Hst). simpl in Hst. specialize (Hst l eq_refl).
  assert (F1 : forall m, (m < l)%nat -> snd s' m = snd s0 m).
  { intros m Hm. rewrite <- G2 by auto. apply (Hfr m); simpl; [lia|discriminate|].
    intros E'. inversion E'. lia. }
  assert (F2 : snd s' (S l) = VTuple vs).
  { rewrite <- G4. apply (Hfr (S l)); simpl; [lia|discriminate|]. intros E'. inversion E'. lia. }
  destruct o; simpl in E; subst o'; cbn [after].
  - apply IHr; auto; [lia|]. split; auto. split; auto. split; auto. rewrite Hst. exact G3.
  - rewrite Hskip by (rewrite Hst; reflexivity). split; auto.
  - apply IHr; auto; [lia|]. split; auto. split; auto. split; auto. rewrite Hst. exact G3.
  - split; auto. split; auto.
  - split; auto.
Qed.

(** ** Match *)

Definition relc (A : string -> Prop) (n : nat) (s : tenv) (r : result env) (r' : result tenv) : Prop :=
  match r, r' with
  | None, None => True
  | Some (o, e'), Some (o', s') =>
      o <> Break /\ o <> Continue /\ o' = (match o with Normal => Break | _ => o end) /\
      LRet A n s e' s'
  | _, _ => False
  end.

Lemma upds_in bs e e' x : In x (map fst bs) -> upds bs e x = upds bs e' x.
Proof.
  revert e e'. induction bs as [|[y v] bs IH]; simpl; intros e e' H; [contradiction|].
  unfold upds. simpl. fold (upds bs (upd y v e)) (upds bs (upd y v e')).
  destruct (in_dec string_dec x (map fst bs)) as [Hi|Hi]; [now apply IH|].
  destruct H as [->|H]; [|contradiction]. rewrite !upds_other by auto. unfold upd.
  now rewrite String.eqb_refl.
Qed.

Definition simc (k : nat) (cs : cases) : Prop := forall A t n, ok_cases A cs -> (t < n)%nat ->
  forall e s v, agree A e s -> snd s t = v ->
  relc A n s (scases k v cs e) (texec k (fst (tr_cases t n cs)) s).

Lemma match_case k p g body rest : sim k body -> simc k rest -> simc k (CCons p g body rest).
Proof.
  intros IHb IHr A t n (Hp & Hd & Hg & Hb & Hnb & Hnc & Hrest) Ht e s v Hag Hv.
  cbn [tr_cases scases].
  pose proof (proj1 tr_mono body (Ctx None None) n) as Hmono.
  specialize (IHb (fun x => A x \/ In x (pvars p)) false (Ctx None None) n None Hb).
  destruct (tr (Ctx None None) n body) as [b n1]. simpl in Hmono, IHb.
  assert (Hm2 := proj2 tr_mono rest t n1).
  specialize (IHr A t n1 Hrest ltac:(lia)).
  destruct (tr_cases t n1 rest) as [r n2]. simpl in IHr. cbn [fst].
  set (suite := match g with Some c => TIf (TUser c) (TSeq b TBreak) | None => TSeq b TBreak end).
  assert (Hf : follow (snd s t) [] = Some v) by (simpl; now rewrite Hv).
  (* the remaining cases, from a state near [s] *)
  assert (Hnext : forall e' s', agree A e' s' -> snd s' = snd s ->
            relc A n s (scases k v rest e') (texec k r s')).
  { intros e' s' Ha Hs. specialize (IHr e' s' v Ha ltac:(now rewrite Hs)).
    unfold relc in *. destruct (scases k v rest e') as [[o e2]|], (texec k r s') as [[o' s2]|]; auto.
    destruct IHr as (R1 & R2 & R3 & R4 & R5). do 3 (split; auto). split; auto.
    intros m Hm. rewrite R5 by lia. now rewrite Hs. }
  cbn [texec].
  destruct (pmatch p v) as [bs|] eqn:Em.
  2:{ destruct (tr_pat_quiet k (pvars p) (snd s) (fst s) t p [] suite v Hf (incl_refl _) Hp
                  (or_introl Em) s eq_refl ltac:(auto)) as (s1 & E1 & E2 & E3).
      rewrite E1. apply Hnext; auto. intros x Hx. rewrite E3; auto. intros Hi. now apply (Hd x). }
  destruct (tr_pat_run k (snd s) t p [] suite v bs s Hf Hp Em eq_refl) as (s1 & E1 & E2 & E3).
  assert (Hvars := pmatch_vars p v bs Hp Em).
  assert (Hag1 : agree (fun x => A x \/ In x (pvars p)) (upds bs e) s1).
  { intros x [Hx|Hx].
    - rewrite E2, !upds_other; auto; intros Hi; apply (Hd x); auto; now apply Hvars.
    - rewrite E2. apply upds_in. now apply Hvars. }
  assert (Hag1' : agree A (upds bs e) s1) by (intros x Hx; apply Hag1; auto).
  destruct (match g with Some c => c (upds bs e) | None => true end) eqn:Eg.
  - (* the case is taken *)
    assert (Es : texec k suite s1 = texec k (TSeq b TBreak) s1).
    { unfold suite. destruct g as [c|]; auto. cbn [texec eval_test].
      rewrite <- (reads_agree _ c _ _ (proj1 Hg) Hag1), Eg. reflexivity. }
    assert (W : wfctx (Ctx None None) n None).
    { split; [discriminate|]. split; [discriminate|now left]. }
    specialize (IHb W ltac:(congruence) (upds bs e) s1 Hag1). unfold rel in IHb.
    pose proof (proj1 (no_break k) body Hnb (upds bs e)) as NB.
    pose proof (proj1 (no_continue k) body Hnc (upds bs e)) as NC.
    assert (HA : active (texec k suite s1) /\
                 relc A n s (sexec k body (upds bs e)) (texec k suite s1)).
    { rewrite Es. cbn [texec]. unfold active, relc.
      destruct (sexec k body (upds bs e)) as [[o e']|], (texec k b s1) as [[o' s']|]; try tauto.
      2:{ split; auto. discriminate. }
      destruct IHb as (R1 & R2 & R3 & _ & _).
      assert (R4 : LRet A n s e' s').
      { split; [intros x Hx; apply R2; auto|]. intros m Hm.
        rewrite (R3 m Hm) by discriminate. now rewrite E1. }
      destruct o; simpl in R1; subst o'.
      - split; [discriminate|]. repeat split; try discriminate; apply R4.
      - destruct (NB e'); reflexivity.
      - destruct (NC e'); reflexivity.
      - split; [discriminate|]. repeat split; try discriminate; apply R4.
      - split; [discriminate|]. repeat split; try discriminate; apply R4. }
    destruct HA as [HA1 HA2]. rewrite (E3 (or_intror HA1)).
    destruct (texec k suite s1) as [[[] s2]|]; auto. now destruct (HA1 s2).
  - (* the guard fails *)
    destruct g as [c|]; [|discriminate]. destruct Hg as [Hg1 Hg2].
    assert (Es : texec k suite s1 = Some (Normal, s1)).
    { unfold suite. cbn [texec eval_test].
      rewrite <- (reads_agree _ c _ _ Hg1 Hag1), Eg. reflexivity. }
    destruct Hg2 as [Hno|Hg2].
    + rewrite (E3 (or_introl Hno)), Es. now apply Hnext.
    + assert (Q : quiet k (pvars p) (snd s) (fst s) suite).
      { intros s' H1 H2. exists s'. split; auto. unfold suite. cbn [texec eval_test].
        rewrite <- (Hg2 (upds bs e) (fst s')), Eg; auto.
        intros x Hx. rewrite (Hag1' x Hx), E2, upds_other, H2; auto.
        - intros Hi. now apply (Hd x).
        - intros Hi. apply (Hd x); auto. now apply Hvars. }
      destruct (tr_pat_quiet k (pvars p) (snd s) (fst s) t p [] suite v Hf (incl_refl _) Hp
                  (or_intror Q) s eq_refl ltac:(auto)) as (s2 & F1 & F2 & F3).
      rewrite F1. apply Hnext; auto. intros x Hx.
      rewrite (Hag1' x Hx), E2, upds_other, F3; auto.
      * intros Hi. now apply (Hd x).
      * intros Hi. apply (Hd x); auto. now apply Hvars.
Qed.

(** ** All statements *)

Lemma tset_other t v s m : m <> t -> snd (tset t v s) m = snd s m.
Proof. intros H. simpl. now destruct (Nat.eqb_spec m t). Qed.
Lemma tset_same t v s : snd (tset t v s) t = v.
Proof. simpl. now rewrite Nat.eqb_refl. Qed.

Lemma rel_seq A n c need s (r : result env) (r' : result tenv) f f' n1 :
  wfctx c n need -> (n <= n1)%nat ->
  rel A n c need s r r' ->
  (forall e1 s1, agree A e1 s1 -> rel A n1 c need s1 (f e1) (f' s1)) ->
  rel A n c need s (match r with Some (Normal, e1) => f e1 | r => r end)
                   (match r' with Some (Normal, s1) => f' s1 | r => r end).
Proof.
  intros W Hn H Hf. unfold rel in H.
  destruct r as [[o e1]|], r' as [[o' s1]|]; try contradiction; [|exact I].
  destruct H as (H1 & H2 & H3 & H4 & H5).
  destruct o; simpl in H1; subst o'; try (simpl; auto; fail).
  - specialize (Hf e1 s1 H2). unfold rel in *.
    destruct (f e1) as [[o e2]|], (f' s1) as [[o' s2]|]; auto.
    destruct Hf as (G1 & G2 & G3 & G4 & G5). do 2 (split; auto). split.
    + intros m Hm Hb Hs. rewrite G3, H3; auto. lia.
    + simpl in H4, H5. split.
      * intros b Hb. rewrite (G4 b Hb), (H4 b Hb). reflexivity.
      * intros l Hl. rewrite (G5 l Hl), (H5 l Hl). reflexivity.
  - assert (X : (match (match st c with Some _ => Break | None => Continue end) with
                 | Normal => f' s1 | o => Some (o, s1) end) =
                Some (match st c with Some _ => Break | None => Continue end, s1))
      by (destruct (st c); reflexivity).
    destruct (st c) eqn:Es; simpl; rewrite ?Es; auto.
Qed.

Lemma plain_loop k h body : sim k body -> (match h with HStatic _ _ _ => False | _ => True end) ->
  forall A els c n need, ok A els (Loop h body) -> wfctx c n need ->
  forall e s, agree A e s ->
  rel A n c need s (sexec k (Loop h body) e) (texec k (fst (tr c n (Loop h body))) s).
Proof.
  intros IH Hns A els c n need [Hh Hb] W e s Hag.
  assert (HI : LInv A n None s true e s) by (split; [auto|split; [auto|discriminate]]).
  pose proof (head_lrel k h body A n None n s IH ltac:(auto) Hb Hh Hns e s HI) as HL.
  cbn zeta in HL.
  assert (E : fst (tr c n (Loop h body)) = head_cond h (fst (tr (Ctx None None) n body))).
  { destruct h; try contradiction; cbn [tr]; destruct (tr (Ctx None None) n body); reflexivity. }
  rewrite E. clear E. cbn [sexec].
  destruct (run_head k h (sexec k body) e) as [[[] e']|], (texec k _ s) as [[[] s']|];
    cbn [after]; try contradiction; try exact I.
  - destruct HL as (L1 & L2 & _). apply rel_closed; auto; discriminate.
  - destruct HL as (L1 & L2 & _). apply rel_closed; auto; discriminate.
  - destruct HL as (-> & L1 & L2). apply rel_closed; auto; discriminate.
  - destruct HL as (L1 & L2). apply rel_closed; auto; discriminate.
Qed.

Theorem sim_all k : (1 <= k)%nat -> (forall p, sim k p) /\ (forall cs, simc k cs).
Proof.
  intros Hk. apply src_cases_ind; unfold sim.
  - (* Skip *)
    intros A els c n need _ W _ e s Hag. apply rel_closed; auto; discriminate.
  - (* Assign *)
    intros x f A els c n need Hok W _ e s Hag. simpl sexec. simpl texec.
    rewrite (reads_agree A f e s Hok Hag).
    apply rel_closed; auto; try discriminate. now apply agree_upd.
  - (* Seq *)
    intros a IHa b IHb A els c n need [Ha Hb] W HN e s Hag. cbn [tr].
    pose proof (proj1 tr_mono a c n) as Hm. specialize (IHa A els c n need Ha W HN e s Hag).
    destruct (tr c n a) as [a' n1]. simpl in Hm.
    assert (W1 : wfctx c n1 need).
    { destruct W as (W1 & W2 & W3). split; [|split; auto].
      - intros b' Hb'. specialize (W1 b' Hb'). lia.
      - intros l Hl. destruct (W2 l Hl). split; auto. lia. }
    specialize (IHb A els c n1 need Hb W1 HN). destruct (tr c n1 b) as [b' n2].
    cbn [fst sexec texec] in *. pose proof (rel_seq A n c need s _ _ (sexec k b) (texec k b') n1 W Hm IHa IHb) as HS.
    destruct (sexec k a e) as [[[] ?]|], (texec k a' s) as [[[] ?]|]; exact HS.
  - (* If *)
    intros cd a IHa b IHb A els c n need (Hc & Ha & Hb) W HN e s Hag. cbn [tr].
    pose proof (proj1 tr_mono a c n) as Hm. specialize (IHa A els c n need Ha W HN e s Hag).
    destruct (tr c n a) as [a' n1]. simpl in Hm.
    assert (W1 : wfctx c n1 need).
    { destruct W as (W1 & W2 & W3). split; [|split; auto].
      - intros b' Hb'. specialize (W1 b' Hb'). lia.
      - intros l Hl. destruct (W2 l Hl). split; auto. lia. }
    specialize (IHb A els c n1 need Hb W1 HN e s Hag). destruct (tr c n1 b) as [b' n2].
    cbn [fst sexec texec] in *. rewrite (reads_agree A cd e s Hc Hag).
    destruct (cd (fst s)); auto. unfold rel in *.
    destruct (sexec k b e) as [[o e2]|], (texec k b' s) as [[o' s2]|]; auto.
    destruct IHb as (G1 & G2 & G3 & G4). do 2 (split; auto). split; auto.
    intros m Hm' X Y. apply G3; auto. lia.
  - (* Break *)
    intros A els c n need _ (W1 & W2 & W3) _ e s Hag. cbn [tr fst sexec].
    assert (E : exists s', texec k (clear (brk c) (clear (st c) TBreak)) s = Some (Break, s') /\
      fst s' = fst s /\
      (forall m, brk c <> Some m -> st c <> Some m -> snd s' m = snd s m) /\
      (forall m, brk c = Some m -> snd s' m = VBool false) /\
      (forall m, st c = Some m -> snd s' m = VBool false)).
    { destruct (brk c) as [b|], (st c) as [l|]; cbn [clear texec]; eexists;
        (split; [reflexivity|]); (split; [reflexivity|]); repeat split; intros m; try discriminate.
      - intros H1 H2. rewrite !tset_other; congruence.
      - intros H1. inversion H1; subst. destruct (Nat.eq_dec m l) as [->|Hne].
        + apply tset_same.
        + rewrite tset_other by auto. apply tset_same.
      - intros H1. inversion H1; subst. apply tset_same.
      - intros H1 H2. rewrite tset_other; congruence.
      - intros H1. inversion H1; subst. apply tset_same.
      - intros H1 H2. rewrite tset_other; congruence.
      - intros H1. inversion H1; subst. apply tset_same. }
    destruct E as (s' & E & E1 & E2 & E3 & E4). rewrite E. simpl.
    split; auto. split; [now apply (agree_temps A e s)|]. split; auto. split; auto.
    intros b Hb. apply E3. destruct W3; congruence.
  - (* Continue *)
    intros A els c n need _ W _ e s Hag. cbn [tr fst sexec].
    destruct (st c) eqn:Es; cbn [texec rel]; unfold omap; rewrite Es; auto.
  - (* Return *)
    intros f A els c n need Hok W _ e s Hag. simpl sexec. simpl texec.
    rewrite (reads_agree A f e s Hok Hag). apply rel_closed; auto; discriminate.
  - (* Loop *)
    intros h body IH A els c n need [Hh Hb] W _ e s Hag.
    destruct h as [cd|x ex|x ex cnt].
    { exact (plain_loop k (HWhile cd) body IH I A els c n need (conj Hh Hb) W e s Hag). }
    { exact (plain_loop k (HFor x ex) body IH I A els c n need (conj Hh Hb) W e s Hag). }
    (* over a tuple *)
    rewrite tr_static. destruct Hh as [He Htup]. destruct (Htup e) as (vs & Ev & Hlen).
    cbn [sexec run_head]. rewrite Ev. cbn [items].
    set (s1 := tset n (VBool true) s). set (s2 := tset (S n) (VTuple vs) s1).
    assert (HI : SInv A n (S n) (VTuple vs) s true e s2).
    { split; [apply (agree_temps A e s); auto|]. split; [|split].
      - intros m Hm. unfold s2, s1. rewrite !tset_other by lia. reflexivity.
      - unfold s2. rewrite tset_other by lia. apply tset_same.
      - apply tset_same. }
    pose proof (static_lrel k x n body A vs s Hk IH Hb vs 0 (S (S n)) e s2
      ltac:(lia) eq_refl ltac:(lia) HI) as HL.
    rewrite Hlen in HL. change (Z.of_nat 0) with 0 in HL.
    destruct (static_go x n (S n) body cnt 0 (S (S n))) as [b n1]. cbn [fst] in *.
    cbn [texec]. fold s1.
    destruct k as [|k']; [lia|]. cbn [while_ eval_cond].
    replace (truth (snd s1 n)) with true by (unfold s1; now rewrite tset_same).
    replace (ex (fst s1)) with (VTuple vs).
    2:{ rewrite <- Ev. apply (reads_agree A ex e s1); auto. }
    fold s2.
    assert (Hfin : forall s' : tenv, snd s' n = VBool false ->
      while_ k' (fun s0 : tenv => truth (snd s0 n))
        (texec (S k') (TSeq (TSave (S n) ex) (TSeq b (TFlag n false)))) s' = Some (Normal, s')).
    { intros s' Hs'. destruct k'; simpl; now rewrite Hs'. }
    destruct (for_ vs _ e) as [[[] e']|], (texec (S k') b s2) as [[[] s']|];
      cbn [after]; try contradiction; try exact I.
    + destruct HL as (L1 & L2 & L3 & L4).
      match goal with |- context [while_ k' ?c ?f ?x] =>
        replace (while_ k' c f x) with (Some (Normal, x)) by (symmetry; apply Hfin, tset_same) end.
      apply rel_closed; auto; try discriminate. intros m Hm. rewrite tset_other by lia. auto.
    + destruct HL as (L1 & L2 & L3 & L4).
      match goal with |- context [while_ k' ?c ?f ?x] =>
        replace (while_ k' c f x) with (Some (Normal, x)) by (symmetry; apply Hfin, tset_same) end.
      apply rel_closed; auto; try discriminate. intros m Hm. rewrite tset_other by lia. auto.
    + destruct HL as [-> [L1 L2]]. apply rel_closed; auto; discriminate.
    + destruct HL as [L1 L2]. apply rel_closed; auto; discriminate.
  - (* Loop with else *)
    intros h body IH el IHe A els c n need (Hh & Hns & Hb & Hel & Hbrk) W HN e s Hag.
    set (s1 := tset n (VBool true) s).
    assert (HI : LInv A n (Some n) s true e s1).
    { split; [apply (agree_temps A e s); auto|]. split.
      - intros m Hm. unfold s1. rewrite tset_other by lia. reflexivity.
      - intros b Hb'. inversion Hb'; subst. apply tset_same. }
    pose proof (head_lrel k h body A n (Some n) (S n) s IH ltac:(auto) Hb Hh Hns e s1 HI) as HL.
    cbn zeta in HL.
    assert (Etr : tr c n (LoopElse h body el) =
      (let (b, n1) := tr (Ctx (Some n) None) (S n) body in
       let (e, n2) := tr (Ctx (Some n) (st c)) n1 el in
       (TSeq (TFlag n true) (TSeq (head_cond h b) (TIf (TTemp n) e)), n2)))
      by (destruct h; [reflexivity|reflexivity|contradiction]).
    rewrite Etr. clear Etr.
    pose proof (proj1 tr_mono body (Ctx (Some n) None) (S n)) as Hm.
    destruct (tr (Ctx (Some n) None) (S n) body) as [b n1]. cbn [fst snd] in *.
    assert (W' : wfctx (Ctx (Some n) (st c)) n1 None).
    { destruct W as (W1 & W2 & W3). split; [|split; [|now left]]; simpl.
      - intros m E. inversion E. lia.
      - intros l Hl. destruct (W2 l Hl). split; [lia|]. intros E. inversion E. lia. }
    specialize (IHe A els (Ctx (Some n) (st c)) n1 None Hel W' ltac:(congruence)).
    destruct (tr (Ctx (Some n) (st c)) n1 el) as [e2 n2]. cbn [fst] in *.
    cbn [sexec]. change (texec k (TSeq (TFlag n true) (TSeq (head_cond h b) (TIf (TTemp n) e2))) s)
      with (match texec k (head_cond h b) s1 with
            | Some (Normal, s') => texec k (TIf (TTemp n) e2) s' | r => r end).
    destruct (run_head k h (sexec k body) e) as [[[] e']|], (texec k (head_cond h b) s1) as [[[] s']|];
      cbn [after]; try contradiction; try exact I.
    + destruct HL as (L1 & L2 & L3). cbn [texec eval_test]. rewrite (L3 n eq_refl). cbn [truth].
      specialize (IHe e' s' L1).
      pose proof (proj1 (no_break k) el) as NB. unfold rel in *.
      destruct (sexec k el e') as [[o e3]|] eqn:Ee, (texec k e2 s') as [[o' s3]|]; try contradiction; [|exact I].
      destruct IHe as (G1 & G2 & G3 & _ & G5). destruct W as (W1 & W2 & W3).
      split; [exact G1|]. split; auto. split; [|split].
      * intros m Hlt Hx Hy. rewrite G3; [apply L2; auto|lia| |auto]. simpl. intros E. inversion E. lia.
      * intros b' Hb'. assert (Hbb : brk c = Some b') by (destruct W3; congruence).
        specialize (W1 b' Hbb).
        assert (Ho : o <> Break).
        { intros ->. apply (NB (Hbrk (HN ltac:(congruence))) e' e3). exact Ee. }
        replace (flagged o (snd s b')) with (snd s b') by (destruct o; simpl; congruence).
        rewrite G3; [apply L2; auto|lia| |].
        -- simpl. intros E. inversion E. lia.
        -- simpl. intros E. destruct (W2 b' E) as [_ X]. contradiction.
      * intros l Hl. rewrite (G5 l Hl). f_equal. apply L2. now apply W2.
    + destruct HL as (L1 & L2 & L3). cbn [texec eval_test]. rewrite (L3 n eq_refl). cbn [truth].
      apply rel_closed; auto; discriminate.
    + destruct HL as [-> [L1 L2]]. apply rel_closed; auto; discriminate.
    + destruct HL as [L1 L2]. apply rel_closed; auto; discriminate.
  - (* Match *)
    intros f cs IH A els c n need [He Hcs] W _ e s Hag. cbn [tr].
    specialize (IH A n (S n) Hcs ltac:(lia) e (tset n (f e) s) (f e)
      (agree_temps A e s (tset n (f e) s) eq_refl Hag) (tset_same _ _ _)).
    destruct (tr_cases n (S n) cs) as [b n1]. cbn [fst sexec texec] in *.
    destruct k as [|k']; [lia|]. cbn [while_ eval_cond].
    rewrite <- (reads_agree A f e s He Hag). unfold relc in IH.
    destruct (scases (S k') (f e) cs e) as [[o e']|], (texec (S k') b (tset n (f e) s)) as [[o' s']|];
      try contradiction; [|exact I].
    destruct IH as (R1 & R2 & R3 & R4 & R5).
    assert (R6 : forall m, (m < n)%nat -> snd s' m = snd s m).
    { intros m Hm. rewrite R5 by lia. apply tset_other. lia. }
    destruct o; subst o'; try congruence; cbn [after]; apply rel_closed; auto; discriminate.
  - (* no case left *)
    intros A t n _ Ht e s v Hag Hv. simpl. repeat split; auto; discriminate.
  - intros p g body IHb rest IHr. now apply match_case.
Qed.
