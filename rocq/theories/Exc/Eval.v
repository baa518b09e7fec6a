(** C54: the specification as a program, to show that it is a function and to
    run it. *)
From Coq Require Import List Bool Arith Lia.
From Verif Require Import Exc.Spec Exc.Proofs.
Import ListNotations.

Section Eval.
  Context {S V X : Type}.
  Context (isinst : X -> nat -> bool).
  Local Notation stmt := (stmt S V X).
  Local Notation outcome := (outcome S V X).

  Fixpoint eval (fuel : nat) (s : stmt) (d : S) : option outcome :=
    match fuel with
    | 0 => None
    | Datatypes.S f =>
        match s with
        | Skip => Some (ONorm d)
        | Act a => Some (match a d with inl d' => ONorm d' | inr (e, d') => OExn e d' end)
        | Seq a b => match eval f a d with
                     | Some (ONorm d') => eval f b d'
                     | r => r
                     end
        | If c a b => eval f (if c d then a else b) d
        | While c a =>
            if c d then
              match eval f a d with
              | Some (ONorm d') | Some (OCont d') => eval f (While c a) d'
              | Some (OBrk d') => Some (ONorm d')
              | r => r
              end
            else Some (ONorm d)
        | Break => Some (OBrk d)
        | Continue => Some (OCont d)
        | Return v => Some (ORet (v d) d)
        | Try body hs els fin =>
            match (match eval f body d with
                   | Some (ONorm d') => eval f els d'
                   | Some (OExn e d') =>
                       match find_handler isinst hs e with
                       | Some (b, h) => eval f h (b e d')
                       | None => Some (OExn e d')
                       end
                   | r => r
                   end) with
            | None => None
            | Some o => match eval f fin (data_of o) with
                        | Some (ONorm d') => Some (with_data o d')
                        | r => r
                        end
            end
        end
    end.

  Lemma eval_sound fuel : forall s d o, eval fuel s d = Some o -> exec isinst s d o.
  Proof.
    induction fuel as [|f IH]; intros s d o H; [discriminate|].
    destruct s as [|a|a b|c a b|c a| | |v|body hs els fin]; cbn [eval] in H.
    - injection H as <-. constructor.
    - injection H as <-. destruct (a d) as [d'|[e d']] eqn:E; constructor; exact E.
    - destruct (eval f a d) as [[d'|d'|d'|v d'|e d']|] eqn:E; try discriminate.
      + eapply X_Seq; eauto.
      + injection H as <-. eapply X_SeqAbrupt; eauto.
      + injection H as <-. eapply X_SeqAbrupt; eauto.
      + injection H as <-. eapply X_SeqAbrupt; eauto.
      + injection H as <-. eapply X_SeqAbrupt; eauto.
    - constructor. auto.
    - destruct (c d) eqn:C.
      + destruct (eval f a d) as [[d'|d'|d'|v d'|e d']|] eqn:E; try discriminate.
        * eapply X_WhileNext; eauto.
        * injection H as <-. eapply X_WhileBreak; eauto.
        * eapply X_WhileContinue; eauto.
        * injection H as <-. eapply X_WhileRet; eauto.
        * injection H as <-. eapply X_WhileExn; eauto.
      + injection H as <-. constructor. exact C.
    - injection H as <-. constructor.
    - injection H as <-. constructor.
    - injection H as <-. constructor.
    - match type of H with match ?T with _ => _ end = _ =>
        destruct T as [o1|] eqn:E; [|discriminate] end.
      assert (Pr : exec_protected isinst body hs els d o1).
      { destruct (eval f body d) as [[d'|d'|d'|v d'|e d']|] eqn:B; try discriminate.
        - eapply P_Else; eauto.
        - injection E as <-. constructor; auto.
        - injection E as <-. constructor; auto.
        - injection E as <-. constructor; auto.
        - destruct (find_handler isinst hs e) as [[b h]|] eqn:F.
          + eapply P_Caught; eauto.
          + injection E as <-. eapply P_Uncaught; eauto. }
      destruct (eval f fin (data_of o1)) as [[d'|d'|d'|v d'|e d']|] eqn:F; try discriminate.
      + injection H as <-. eapply X_Try; eauto.
      + injection H as <-. eapply X_TryFin; eauto.
      + injection H as <-. eapply X_TryFin; eauto.
      + injection H as <-. eapply X_TryFin; eauto.
      + injection H as <-. eapply X_TryFin; eauto.
  Qed.

  Lemma eval_mono f : forall f' s d o, f <= f' -> eval f s d = Some o -> eval f' s d = Some o.
  Proof.
    induction f as [|f IH]; intros f' s d o L H; [discriminate|].
    destruct f' as [|f']; [lia|]. assert (L' : f <= f') by lia.
    assert (IH' : forall s d o, eval f s d = Some o -> eval f' s d = Some o) by (intros; eauto).
    clear IH L. destruct s as [|a|a b|c a b|c a| | |v|body hs els fin]; cbn [eval] in *; auto.
    - destruct (eval f a d) as [o1|] eqn:E; [|discriminate]. rewrite (IH' _ _ _ E).
      destruct o1; auto.
    - destruct (c d); [|exact H].
      destruct (eval f a d) as [o1|] eqn:E; [|discriminate]. rewrite (IH' _ _ _ E).
      destruct o1; auto.
    - destruct (eval f body d) as [o1|] eqn:E; [|discriminate]. rewrite (IH' _ _ _ E).
      match type of H with match ?T with _ => _ end = _ =>
        destruct T as [o2|] eqn:E2; [|discriminate] end.
      assert (E3 : match o1 with
                   | ONorm d' => eval f' els d'
                   | OExn e d' => match find_handler isinst hs e with
                                  | Some (b, h) => eval f' h (b e d')
                                  | None => Some (OExn e d')
                                  end
                   | _ => Some o1
                   end = Some o2).
      { destruct o1; auto. destruct (find_handler isinst hs e) as [[b h]|]; auto. }
      destruct o1; rewrite ?E3; try (injection E3 as <-);
        try (destruct (eval f fin _) as [o3|] eqn:E4; [|discriminate];
             rewrite (IH' _ _ _ E4); destruct o3; exact H).
  Qed.

  Lemma eval_complete :
    (forall s d o, exec isinst s d o -> exists f, eval f s d = Some o) /\
    (forall body hs els d o, exec_protected isinst body hs els d o ->
       exists f, forall fin, forall f', f <= f' ->
         eval (Datatypes.S f') (Try body hs els fin) d =
         match eval f' fin (data_of o) with
         | Some (ONorm d') => Some (with_data o d')
         | r => r
         end).
  Proof.
    apply exec_both_ind.
    - intros s. exists 1. reflexivity.
    - intros a s s' E. exists 1. cbn [eval]. rewrite E. reflexivity.
    - intros a s e s' E. exists 1. cbn [eval]. rewrite E. reflexivity.
    - intros a b s s' o _ [f1 H1] _ [f2 H2]. exists (Datatypes.S (f1 + f2)). cbn [eval].
      rewrite (eval_mono f1 (f1 + f2) _ _ _ ltac:(lia) H1).
      apply (eval_mono f2 (f1 + f2) _ _ _ ltac:(lia) H2).
    - intros a b s o _ [f1 H1] N. exists (Datatypes.S f1). cbn [eval]. rewrite H1.
      destruct o; [discriminate|..]; reflexivity.
    - intros c a b s o _ [f1 H1]. exists (Datatypes.S f1). exact H1.
    - intros c a s E. exists 1. cbn [eval]. rewrite E. reflexivity.
    - intros c a s s' o E _ [f1 H1] _ [f2 H2]. exists (Datatypes.S (f1 + f2)). cbn [eval].
      rewrite E, (eval_mono f1 (f1 + f2) _ _ _ ltac:(lia) H1).
      apply (eval_mono f2 (f1 + f2) _ _ _ ltac:(lia) H2).
    - intros c a s s' o E _ [f1 H1] _ [f2 H2]. exists (Datatypes.S (f1 + f2)). cbn [eval].
      rewrite E, (eval_mono f1 (f1 + f2) _ _ _ ltac:(lia) H1).
      apply (eval_mono f2 (f1 + f2) _ _ _ ltac:(lia) H2).
    - intros c a s s' E _ [f1 H1]. exists (Datatypes.S f1). cbn [eval]. rewrite E, H1. reflexivity.
    - intros c a s v s' E _ [f1 H1]. exists (Datatypes.S f1). cbn [eval]. rewrite E, H1. reflexivity.
    - intros c a s e s' E _ [f1 H1]. exists (Datatypes.S f1). cbn [eval]. rewrite E, H1. reflexivity.
    - intros s. exists 1. reflexivity.
    - intros s. exists 1. reflexivity.
    - intros v s. exists 1. reflexivity.
    - intros body hs els fin s o s' _ [f1 H1] _ [f2 H2].
      exists (Datatypes.S (f1 + f2)). rewrite H1 by lia.
      rewrite (eval_mono f2 (f1 + f2) _ _ _ ltac:(lia) H2). reflexivity.
    - intros body hs els fin s o o' _ [f1 H1] _ [f2 H2] N.
      exists (Datatypes.S (f1 + f2)). rewrite H1 by lia.
      rewrite (eval_mono f2 (f1 + f2) _ _ _ ltac:(lia) H2).
      destruct o'; [discriminate|..]; reflexivity.
    - intros body hs els s s' o _ [f1 H1] _ [f2 H2]. exists (f1 + f2). intros fin f' L.
      cbn [eval]. rewrite (eval_mono f1 f' _ _ _ ltac:(lia) H1).
      rewrite (eval_mono f2 f' _ _ _ ltac:(lia) H2). reflexivity.
    - intros body hs els s e s' b h o _ [f1 H1] F _ [f2 H2]. exists (f1 + f2). intros fin f' L.
      cbn [eval]. rewrite (eval_mono f1 f' _ _ _ ltac:(lia) H1), F.
      rewrite (eval_mono f2 f' _ _ _ ltac:(lia) H2). reflexivity.
    - intros body hs els s e s' _ [f1 H1] F. exists f1. intros fin f' L.
      cbn [eval]. rewrite (eval_mono f1 f' _ _ _ L H1), F. reflexivity.
    - intros body hs els s s' _ [f1 H1]. exists f1. intros fin f' L.
      cbn [eval]. rewrite (eval_mono f1 f' _ _ _ L H1). reflexivity.
    - intros body hs els s s' _ [f1 H1]. exists f1. intros fin f' L.
      cbn [eval]. rewrite (eval_mono f1 f' _ _ _ L H1). reflexivity.
    - intros body hs els s v s' _ [f1 H1]. exists f1. intros fin f' L.
      cbn [eval]. rewrite (eval_mono f1 f' _ _ _ L H1). reflexivity.
  Qed.

  Lemma exec_det (s : stmt) d o o' : exec isinst s d o -> exec isinst s d o' -> o = o'.
  Proof.
    intros H H'. destruct (proj1 eval_complete _ _ _ H) as [f E].
    destruct (proj1 eval_complete _ _ _ H') as [f' E'].
    pose proof (eval_mono f (f + f') _ _ _ ltac:(lia) E) as A.
    pose proof (eval_mono f' (f + f') _ _ _ ltac:(lia) E') as B. congruence.
  Qed.
End Eval.
