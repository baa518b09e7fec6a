(** C54: a covered function that does not end in the source does not halt in the
    generated code either. *)
From Coq Require Import List Bool Arith Lia.
From Verif Require Import Exc.Spec Exc.Model Exc.Proofs Exc.Eval.
Import ListNotations.

Section Diverge.
  Context {S V X : Type}.
  Context (isinst : X -> nat -> bool).
  Context (P : nat -> option (@instr S V X)).

  Local Notation stmt := (stmt S V X).
  Local Notation handlers := (handlers S V X).
  Local Notation outcome := (outcome S V X).
  Local Notation mstate := (@mstate S V X).
  Local Notation cell := (@cell V X).
  Local Notation star := (star isinst P).
  Local Notation step := (step isinst P).
  Local Notation eval := (eval isinst).
  Local Notation installed := (installed P).
  Local Notation inv := (inv P).
  Local Notation others := (others P).

  (** [n] more instructions are executed *)
  Fixpoint goes_on (n : nat) (st : mstate) : Prop :=
    match n with
    | 0 => True
    | Datatypes.S n => exists st', step st = Some st' /\ goes_on n st'
    end.

  Lemma goes_on_less n : forall n' st, n' <= n -> goes_on n st -> goes_on n' st.
  Proof.
    induction n as [|n IH]; intros n' st L H.
    - replace n' with 0 by lia. exact I.
    - destruct n' as [|n']; [exact I|]. destruct H as (st' & E & H).
      exists st'. split; [exact E|]. apply IH; [lia|exact H].
  Qed.

  Lemma goes_on_star n a b : star a b -> goes_on n b -> goes_on n a.
  Proof.
    induction 1 as [st|st st1 st2 E _ IH]; intro H; [exact H|].
    apply (goes_on_less (Datatypes.S n)); [lia|]. exists st1. auto.
  Qed.

  Fixpoint height (s : stmt) : nat :=
    match s with
    | Seq a b => 1 + height a + height b
    | If _ a b => 1 + height a + height b
    | While _ a => 1 + height a
    | Try b hs e f => 1 + height b + handlers_height hs + height e + height f
    | _ => 1
    end
  with handlers_height (hs : handlers) : nat :=
    match hs with
    | HNil => 0
    | HCons _ _ h r => height h + handlers_height r
    end.

  (** the premises of the simulation *)
  Definition ready (s : stmt) k lp n fr K entry exit l m : Prop :=
    covered k (is_nil (tries (ctx_of fr))) lp s /\
    region_ok k fr K /\ loops_ok k fr lp /\ wf n fr /\
    (forall c, n <= c -> K c = None) /\
    installed (fst (gen n (ctx_of fr) s entry exit)) /\
    starts s n entry l /\ inv K (cell_of fr) m.

  Lemma ready_sim s k lp n fr K entry exit l m d f o :
    ready s k lp n fr K entry exit l m -> eval f s d = Some o ->
    exists st, star (At l d m) st /\ arrive isinst P K fr exit o st.
  Proof.
    intros (H1 & H2 & H3 & H4 & H5 & H6 & H7 & H8) E. apply eval_sound in E.
    exact (proj1 (sim_both isinst P) _ _ _ E _ _ _ _ _ _ _ _ _ H1 H2 H3 H4 H5 H6 H7 H8).
  Qed.

  Lemma body_ready (body : stmt) (hs : handlers) lp n fr K n1 hf c m :
    wf n fr -> nofin fr ->
    ((cell_of fr = None /\ c = n + 27) \/ cell_of fr = Some c) ->
    K c = None -> (forall c', n <= c' -> K c' = None) ->
    n + 28 <= n1 ->
    installed (fst (gen (n1 + 2) (ctx_of (body_fr n hs c n1 hf fr)) body (n + 23) (n + 24))) ->
    covered InBody false lp body -> loops_ok InBody fr lp -> inv K (Some c) m ->
    ready body InBody lp (n1 + 2) (body_fr n hs c n1 hf fr) K (n + 23) (n + 24) (n + 23) m.
  Proof.
    intros W N Cf Kc Fr L1 C Cov Lo Im. unfold ready.
    split; [exact Cov|]. split.
    { split; [exact N|]. cbn [body_fr cell_of td_of t_cell]. congruence. }
    split; [exact Lo|]. split.
    { cbn [body_fr wf td_of t_seq t_cell]. split; [lia|].
      split; [destruct Cf as [[_ ->]|Cf]; [lia|]; pose proof (wf_cell_lt _ _ _ W Cf); lia|].
      split; [intros c' E; destruct Cf as [[Cf _]|Cf]; congruence|].
      destruct hf; [split; [lia|]|]; (apply (wf_mono P fr n); [lia|exact W]). }
    split; [intros c' Lc; apply Fr; lia|]. split; [exact C|].
    split; [left; reflexivity|exact Im].
  Qed.

  Lemma guard_ready (x : stmt) n n1 k fr K hf (hs : handlers) c lp b0 be m :
    wf n fr -> nofin fr ->
    ((cell_of fr = None /\ c = n + 27) \/ cell_of fr = Some c) ->
    K c = None -> (forall c', n <= c' -> K c' = None) ->
    n + 28 <= n1 -> n1 + 2 <= k ->
    installed (fst (gen k (ctx_of (guard_fr n hs c n1 hf fr)) x b0 be)) ->
    covered (if hf then InGuard (is_nil (tries (ctx_of fr))) else InBody)
      (is_nil (tries (ctx_of fr))) lp x ->
    loops_ok InBody fr lp ->
    others K c m -> calm (c_flag (m c)) -> c_depth (m c) = 0 ->
    exists kk K', ready x kk lp k (guard_fr n hs c n1 hf fr) K' b0 be b0 m.
  Proof.
    intros W N Cf Kc Fr L1 L2 C Cov Lo O F D.
    assert (Ck : c < k).
    { destruct Cf as [[_ ->]|Cf]; [lia|]. pose proof (wf_cell_lt _ _ _ W Cf). lia. }
    assert (Frp : forall v c', k <= c' -> pin K c v c' = None).
    { intros v c' Lc. rewrite pin_other by lia. apply Fr; lia. }
    destruct hf.
    - exists (InGuard (is_nil (tries (ctx_of fr)))), (pin K c (m c)). unfold ready.
      split; [exact Cov|]. split.
      { exists [], (td_of n hs c n1), fr, (m c). split; [reflexivity|].
        split; [apply pin_same|]. split; [exact D|].
        intro T. destruct (tries (ctx_of fr)); [reflexivity|discriminate]. }
      split; [exact Lo|]. split.
      { cbn [guard_fr wf td_of t_seq]. split; [lia|]. apply (wf_mono P fr n); [lia|exact W]. }
      split; [apply Frp|]. split; [exact C|]. split; [left; reflexivity|].
      cbn [guard_fr cell_of]. apply pin_inv; [assumption|tauto].
    - cbn [guard_fr] in *. exists InBody. destruct Cf as [[Cn Ec]|Cs].
      + exists (pin K c (m c)). unfold ready. split; [exact Cov|].
        split; [split; [exact N|rewrite Cn; discriminate]|].
        split; [exact Lo|]. split; [apply (wf_mono P fr n); [lia|exact W]|].
        split; [apply Frp|]. split; [exact C|]. split; [left; reflexivity|].
        apply pin_inv; auto.
      + exists K. unfold ready. split; [exact Cov|].
        split; [split; [exact N|rewrite Cs; congruence]|].
        split; [exact Lo|]. split; [apply (wf_mono P fr n); [lia|exact W]|].
        split; [intros c' Lc; apply Fr; lia|]. split; [exact C|]. split; [left; reflexivity|].
        rewrite Cs. apply others_inv; assumption.
  Qed.

  Lemma fin_ready (fin : stmt) lp n fr K c m :
    nofin fr -> wf n fr ->
    ((cell_of fr = None /\ c = n + 27) \/ cell_of fr = Some c) ->
    (forall c, n <= c -> K c = None) ->
    loops_ok InBody fr lp ->
    covered (if is_nil (tries (ctx_of fr)) then InBody else InFinally)
      (is_nil (tries (ctx_of fr))) (is_nil (tries (ctx_of fr)) && lp) fin ->
    installed (fst (gen (n + 28) (ctx_of fr) fin (n + 3) (n + 8))) ->
    others K c m ->
    exists kk lp' K', ready fin kk lp' (n + 28) fr K' (n + 3) (n + 8) (n + 3) m.
  Proof.
    intros N W Cf Fr Lo Cov C O. eexists _, _, (pin K c (m c)). unfold ready.
    split; [exact Cov|]. split.
    { destruct (tries (ctx_of fr)) eqn:E; cbn [is_nil].
      + split; [exact N|]. rewrite cell_of_tries, E. discriminate.
      + exact N. }
    split.
    { destruct (tries (ctx_of fr)); cbn [is_nil andb]; [exact Lo|]. intro; discriminate. }
    split; [apply (wf_mono P fr n); [lia|exact W]|]. split.
    { intros c' Lc. rewrite pin_other; [apply Fr; lia|].
      destruct Cf as [[_ ->]|Cf]; [lia|]. pose proof (wf_cell_lt _ _ _ W Cf). lia. }
    split; [exact C|]. split; [left; reflexivity|]. apply pin_inv; [exact O|tauto].
  Qed.

  Definition diverges_on (N : nat) (s : stmt) : Prop :=
    forall f d k lp n fr K entry exit l m,
    N + height s <= f -> eval f s d = None ->
    ready s k lp n fr K entry exit l m -> goes_on N (At l d m).

  Fixpoint all_handlers (Q : stmt -> Prop) (hs : handlers) : Prop :=
    match hs with HNil => True | HCons _ _ h r => Q h /\ all_handlers Q r end.

  Lemma all_find (Q : stmt -> Prop) (hs : handlers) e b h :
    all_handlers Q hs -> find_handler isinst hs e = Some (b, h) -> Q h.
  Proof.
    induction hs as [|t b' h' rest IH]; intros C F; [discriminate|].
    destruct C as [C1 C2]. cbn [find_handler] in F.
    destruct (catches isinst e t); [injection F as <- <-; exact C1|auto].
  Qed.

  Lemma height_find (hs : handlers) e b h :
    find_handler isinst hs e = Some (b, h) -> height h <= handlers_height hs.
  Proof.
    induction hs as [|t b' h' rest IH]; intros F; [discriminate|].
    cbn [find_handler handlers_height] in *.
    destruct (catches isinst e t); [injection F as <- <-; lia|]. specialize (IH F). lia.
  Qed.

  Lemma height_pos (s : stmt) : 1 <= height s.
  Proof. destruct s; cbn [height]; lia. Qed.

  (** the protected part of a try does not end *)
  Lemma prot_diverges N (body : stmt) (hs : handlers) (els : stmt) f d :
    diverges_on N body -> diverges_on N els -> all_handlers (diverges_on N) hs ->
    N + height body <= f -> N + height els <= f -> N + handlers_height hs <= f ->
    (match eval f body d with
     | Some (ONorm d') => eval f els d'
     | Some (OExn e d') =>
         match find_handler isinst hs e with
         | Some (b, h) => eval f h (b e d')
         | None => Some (OExn e d')
         end
     | r => r
     end) = None ->
    prot_gen P (fun _ _ _ _ _ _ st => goes_on N st) body hs els d.
  Proof.
    intros Db De Dh Hb He Hh E.
    intros lp n fr K n1 n2 n3 n4 hf ch es c m exit
      W Nf Cf Kc Fr L1 En2 Cb C24 En3 Ce C26 Hg Ch Cx Cp Cfin Cov1 Cov2 Cov3 Lo Im.
    pose proof (body_ready body hs lp n fr K n1 hf c m W Nf Cf Kc Fr L1 Cb Cov1 Lo Im) as Rb.
    assert (L2 : n1 + 2 <= n2) by (rewrite En2; apply gen_mono).
    assert (L3 : n2 <= n3) by (rewrite En3; apply gen_mono).
    destruct (eval f body d) as [o1|] eqn:Eb; [|eapply Db; eauto].
    destruct (ready_sim _ _ _ _ _ _ _ _ _ _ _ _ _ Rb Eb) as (st & S1 & Ar).
    destruct o1 as [d'|d'|d'|v d'|e d']; try discriminate.
    - destruct Ar as (m' & -> & Im').
      assert (Cm : calm (c_flag (m' c)) /\ c_depth (m' c) = 0).
      { specialize (Im' c). unfold cell_ok in Im'. rewrite Kc in Im'.
        cbn [body_fr cell_of td_of t_cell] in Im'.
        destruct Im' as [I1 [I2|[_ I2]]]; [auto|congruence]. }
      assert (O' : others K c m') by (eapply inv_others; eauto).
      destruct (guard_ready els n n1 n2 fr K hf hs c lp (n + 25) (n + 26) m')
        as (kk & K' & Re); try tauto; auto.
      eapply goes_on_star; [exact S1|].
      eapply goes_on_star; [|exact (De f d' _ _ _ _ _ _ _ _ _ He E Re)].
      eapply star_step; [cbn [Model.step]; rewrite C24; reflexivity|]. apply star_refl.
    - destruct (find_handler isinst hs e) as [[b h]|] eqn:Fh; [|discriminate].
      pose proof (catch_exn isinst P n c fr K hf hs _ n3 n4 ch es Hg Ch Cx Cp e d' st
                    (n1 + 1) (if hf then Some n1 else None) Ar) as Ca.
      unfold caught in Ca. rewrite Fh in Ca.
      destruct Ca as (k & m' & Lk & (_ & _ & _ & K4 & K5) & S2 & O & F & D).
      destruct (guard_ready h n n1 (k + 5) fr K hf hs c lp (k + 3) (k + 4) m')
        as (kk & K' & Re); try tauto; auto.
      { lia. }
      { eapply covered_find; eauto. }
      { right. exact F. }
      eapply goes_on_star; [exact S1|]. eapply goes_on_star; [exact S2|].
      pose proof (height_find _ _ _ _ Fh).
      pose proof (all_find _ _ _ _ _ Dh Fh) as Dh'.
      eapply Dh'; [|exact E|exact Re]. lia.
  Qed.

  Lemma diverge_all N : (forall s : stmt, diverges_on N s).
  Proof.
    induction N as [|N IHN]; [intros s f d k lp n fr K entry exit l m _ _ _; exact I|].
    assert (A : (forall s : stmt, diverges_on (Datatypes.S N) s) /\
                (forall hs : handlers, all_handlers (diverges_on (Datatypes.S N)) hs)); [|apply A].
    apply stmt_handlers_ind.
    - intros f d k lp n fr K entry exit l m L E _. destruct f; [cbn [height] in L; lia|discriminate].
    - intros a f d k lp n fr K entry exit l m L E _. destruct f; [cbn [height] in L; lia|discriminate].
    - intros a Ha b Hb f d k lp n fr K entry exit l m L E Re.
      destruct f as [|f]; [cbn [height] in L; lia|]. cbn [height] in L.
      destruct Re as ([Cov1 Cov2] & R & Lo & W & Fr & C & Sl & Im).
      destruct Sl as [->|(c & a' & H & _)]; [|discriminate].
      cbn [gen] in C.
      pose proof (proj1 gen_mono a (n + 1) (ctx_of fr) entry n) as Mo.
      destruct (gen (n + 1) (ctx_of fr) a entry n) as [ca n1] eqn:E1.
      destruct (gen n1 (ctx_of fr) b n exit) as [cb n2] eqn:E2.
      cbn [fst snd] in *. apply installed_app in C. destruct C as [C1 C2].
      assert (Ra : ready a k lp (n + 1) fr K entry n entry m).
      { unfold ready. split; [exact Cov1|]. split; [exact R|]. split; [exact Lo|].
        split; [apply (wf_mono P fr n); [lia|exact W]|]. split; [intros; apply Fr; lia|].
        split; [rewrite E1; exact C1|]. split; [left; reflexivity|exact Im]. }
      cbn [Eval.eval] in E. destruct (eval f a d) as [o1|] eqn:Ea.
      + destruct o1 as [d'|d'|d'|v d'|e d']; try discriminate.
        destruct (ready_sim _ _ _ _ _ _ _ _ _ _ _ _ _ Ra Ea) as (st & S1 & m' & -> & Im').
        eapply goes_on_star; [exact S1|].
        apply (Hb f d' k lp n1 fr K n exit n m'); [lia|exact E|].
        unfold ready. split; [exact Cov2|]. split; [exact R|]. split; [exact Lo|].
        split; [apply (wf_mono P fr n); [lia|exact W]|]. split; [intros; apply Fr; lia|].
        split; [rewrite E2; exact C2|]. split; [left; reflexivity|exact Im'].
      + apply (Ha f d k lp (n + 1) fr K entry n entry m); [lia|exact Ea|exact Ra].
    - intros c a Ha b Hb f d k lp n fr K entry exit l m L E Re.
      destruct f as [|f]; [cbn [height] in L; lia|]. cbn [height] in L.
      destruct Re as ([Cov1 Cov2] & R & Lo & W & Fr & C & Sl & Im).
      destruct Sl as [->|(c' & a' & H & _)]; [|discriminate].
      cbn [gen] in C.
      pose proof (proj1 gen_mono a (n + 2) (ctx_of fr) n exit) as Mo.
      destruct (gen (n + 2) (ctx_of fr) a n exit) as [ca n1] eqn:E1.
      destruct (gen n1 (ctx_of fr) b (n + 1) exit) as [cb n2] eqn:E2.
      cbn [fst snd] in *. rewrite installed_cons, installed_app in C.
      destruct C as (C0 & C1 & C2). cbn [Eval.eval] in E.
      destruct (c d) eqn:Cs.
      + eapply goes_on_star with (b := At n d m).
        { eapply star_step; [cbn [Model.step]; rewrite C0, Cs; reflexivity|]. apply star_refl. }
        apply (Ha f d k lp (n + 2) fr K n exit n m); [lia|exact E|].
        unfold ready. split; [exact Cov1|]. split; [exact R|]. split; [exact Lo|].
        split; [apply (wf_mono P fr n); [lia|exact W]|]. split; [intros; apply Fr; lia|].
        split; [rewrite E1; exact C1|]. split; [left; reflexivity|exact Im].
      + eapply goes_on_star with (b := At (n + 1) d m).
        { eapply star_step; [cbn [Model.step]; rewrite C0, Cs; reflexivity|]. apply star_refl. }
        apply (Hb f d k lp n1 fr K (n + 1) exit (n + 1) m); [lia|exact E|].
        unfold ready. split; [exact Cov2|]. split; [exact R|]. split; [exact Lo|].
        split; [apply (wf_mono P fr n); [lia|exact W]|]. split; [intros; apply Fr; lia|].
        split; [rewrite E2; exact C2|]. split; [left; reflexivity|exact Im].
    - intros c a Ha f d k lp n fr K entry exit l m L E Re.
      pose proof Re as Re'.
      destruct f as [|f]; [cbn [height] in L; lia|]. cbn [height] in L.
      destruct Re' as (Cov & R & Lo & W & Fr & C & Sl & Im).
      destruct (while_code isinst P c a n _ entry exit l d m C Sl) as (C1 & C2 & S0).
      cbn [Eval.eval] in E. destruct (c d) eqn:Cs; [|discriminate].
      assert (S1 : forall N', goes_on N' (At (n + 1) d m) -> goes_on N' (At l d m)).
      { intros N' H. eapply goes_on_star; [exact S0|].
        eapply goes_on_star; [|exact H].
        eapply star_step; [cbn [Model.step]; rewrite C1, Cs; reflexivity|]. apply star_refl. }
      assert (Ra : ready a k true (n + 4) (FrLoop (mkLoop (n + 3) exit n) :: fr) K
                         (n + 1) (n + 2) (n + 1) m).
      { clear - Cov R Lo W Fr C Im. unfold ready. cbn [gen] in C.
        destruct (gen (n + 4) _ a (n + 1) (n + 2)) as [ca n1] eqn:E.
        cbn [fst] in C. rewrite !installed_cons in C. destruct C as (_ & _ & _ & C).
        split; [exact Cov|]. split.
        { destruct k as [|b|]; [exact R| |exact R].
          destruct R as (ls & t & r & v & -> & H). exists (mkLoop (n + 3) exit n :: ls), t, r, v.
          split; [reflexivity|exact H]. }
        split; [intros _; destruct k; [discriminate|discriminate|eauto]|].
        split; [cbn [wf l_seq]; split; [lia|]; apply (wf_mono P fr n); [lia|exact W]|].
        split; [intros c' Lc; apply Fr; lia|].
        split; [exact C|]. split; [left; reflexivity|exact Im]. }
      destruct (eval f a d) as [o1|] eqn:Ea.
      + destruct (ready_sim _ _ _ _ _ _ _ _ _ _ _ _ _ Ra Ea) as (st & S2 & Ar).
        assert (Again : forall d' m', star (At (n + 1) d m) (At n d' m') ->
                   inv K (cell_of fr) m' -> eval f (While c a) d' = None ->
                   goes_on (Datatypes.S N) (At l d m)).
        { intros d' m' S3 Im' E'. eapply goes_on_star; [exact S0|].
          eexists. split; [cbn [Model.step]; rewrite C1, Cs; reflexivity|].
          eapply goes_on_star; [exact S3|].
          eapply (IHN (While c a) f d' k lp n fr K entry exit n m'); [cbn [height]; lia|exact E'|].
          unfold ready. split; [exact Cov|]. split; [exact R|]. split; [exact Lo|].
          split; [exact W|]. split; [exact Fr|]. split; [exact C|].
          split; [right; eauto|exact Im']. }
        destruct o1 as [d'|d'|d'|v d'|e d']; try discriminate.
        * destruct Ar as (m' & -> & Im'). eapply (Again d' m'); [|exact Im'|exact E].
          eapply star_trans; [exact S2|].
          eapply star_step; [cbn [Model.step]; rewrite C2; reflexivity|]. apply star_refl.
        * destruct Ar as (m' & -> & Im'). eapply (Again d' m'); [exact S2|exact Im'|exact E].
      + apply S1. apply (Ha f d _ _ _ _ _ _ _ _ _ ltac:(lia) Ea Ra).
    - intros f d k lp n fr K entry exit l m L E _. destruct f; [cbn [height] in L; lia|discriminate].
    - intros f d k lp n fr K entry exit l m L E _. destruct f; [cbn [height] in L; lia|discriminate].
    - intros v f d k lp n fr K entry exit l m L E _. destruct f; [cbn [height] in L; lia|discriminate].
    - intros body Hb hs Hh els He fin Hf f d k lp n fr K entry exit l m L E Re.
      destruct f as [|f]; [cbn [height] in L; lia|]. cbn [height] in L.
      destruct Re as (Cov & R & Lo & W & Fr & C & Sl & Im).
      destruct Sl as [->|(c & a & H & _)]; [|discriminate].
      change (handlers_height hs) with (handlers_height hs) in L.
      cbn [Eval.eval] in E.
      match type of E with match ?T with _ => _ end = _ => destruct T as [o1|] eqn:Ep end.
      + assert (Pr : exec_protected isinst body hs els d o1).
        { destruct (eval f body d) as [[d'|d'|d'|v d'|e d']|] eqn:B; try discriminate.
          - apply eval_sound in B. apply eval_sound in Ep. eapply P_Else; eauto.
          - injection Ep as <-. apply eval_sound in B. constructor; auto.
          - injection Ep as <-. apply eval_sound in B. constructor; auto.
          - injection Ep as <-. apply eval_sound in B. constructor; auto.
          - apply eval_sound in B. destruct (find_handler isinst hs e) as [[b h]|] eqn:F.
            + apply eval_sound in Ep. eapply P_Caught; eauto.
            + injection Ep as <-. eapply P_Uncaught; eauto. }
        pose proof (proj2 (sim_both isinst P) _ _ _ _ _ Pr) as IHp.
        destruct (try_enter isinst P _ _ _ _ _ _ _ _ _ _ _ _ _ _ IHp Cov R Lo W Fr C Im)
          as (c & m0 & Nf & Cf & Kc & Rs & Lo' & Cov4 & Ccf & Cfin & C6 & S0 & st & S01 & En).
        destruct (eval f fin (data_of o1)) as [o2|] eqn:Ef.
        { destruct o2; discriminate. }
        assert (Ff : has_finally fin = true).
        { destruct fin; try reflexivity. destruct f; [|discriminate]. cbn [height] in L. lia. }
        destruct En as [(m1 & -> & O & Pc)|(Hx & _)]; [|congruence].
        destruct (fin_ready fin lp n fr K c m1 Nf W Cf Fr Lo' Cov4 Ccf O)
          as (kk & lp' & K' & Re).
        eapply goes_on_star; [exact S0|]. eapply goes_on_star; [exact S01|].
        eapply Hf; [|exact Ef|exact Re]. lia.
      + assert (Dp : prot_gen P (fun _ _ _ _ _ _ st => goes_on (Datatypes.S N) st)
                       body hs els d).
        { eapply prot_diverges with (f := f); eauto; lia. }
        destruct (try_enter isinst P _ _ _ _ _ _ _ _ _ _ _ _ _ _ Dp Cov R Lo W Fr C Im)
          as (c & m0 & _ & _ & _ & _ & _ & _ & _ & _ & _ & S0 & G).
        eapply goes_on_star; [exact S0|exact G].
    - exact I.
    - intros t b h Hh rest Hr. split; assumption.
  Qed.
End Diverge.
