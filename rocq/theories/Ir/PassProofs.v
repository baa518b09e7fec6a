(** Any rewriting of nodes that is right node by node is right for whole programs. *)
From Coq Require Import List ZArith Lia Bool Floats.SpecFloat.
From Verif.Common Require Import Result Int64.
From Verif.Ir Require Import Num NumProofs Sem SemProofs Fold.
Import ListNotations.

Section Pass.
Context (ret : nat -> ty) (tenv : bool -> nat -> ty).
Notation wt := (wt ret tenv).
Notation ty_of := (ty_of ret).

Definition sty (e e' : node) : Prop := wt e' /\ ty_of e' = ty_of e.

Lemma F2_map (R : node -> node -> Prop) l l' : Forall2 R l l' -> (forall a b, R a b -> sty a b) -> map ty_of l' = map ty_of l /\ Forall wt l'.
Proof. intros F H. induction F as [|a b l l' r F [IH1 IH2]]; cbn; auto. destruct (H _ _ r) as [H1 H2]. split; [now rewrite H2, IH1|auto]. Qed.

Lemma cong_sty e e' : wt e -> cong sty e e' -> sty e e'.
Proof.
  intros WT C. inversion C as [f args args' F|c a b c' a' b' Rc Ra Rb|x e0 e0' R|l l' F|c a b c' a' b' Rc Ra Rb|c b c' b' Rc Rb|x a st b body a' b' body' Ra Rb Rbd|e0 e0' R|e0 e0' R|f v f' v' Rf Rv|b x h f b' h' f' Rb Rh Rf|e0]; subst.
  - destruct (F2_map _ _ _ F) as [M WA]; auto. cbn in WT |- *. split.
    + cbn. rewrite wt_args. split; auto. rewrite M. apply WT.
    + destruct f; auto.
  - destruct WT as (Wc & Wa & Wb & Tc & Tab). destruct Rc, Ra, Rb. split; cbn; intuition congruence.
  - destruct WT as (Wx & We & T). destruct R. split; cbn; intuition congruence.
  - destruct (F2_map _ _ _ F) as [M WA]; auto. split; auto. cbn. now rewrite wt_args.
  - destruct WT as (Wc & Wa & Wb & Tc & Ta & Tb). destruct Rc, Ra, Rb. split; cbn; intuition congruence.
  - destruct WT as (Wc & Wb & Tc). destruct Rc, Rb. split; cbn; intuition congruence.
  - destruct WT as (Wx & Wa & Wb & Wbd & Ta & Tb & Tx). destruct Ra, Rb, Rbd. split; cbn; intuition congruence.
  - destruct R. split; auto.
  - destruct WT as (We & T). destruct R. split; cbn; intuition congruence.
  - destruct WT as (Wf & Wv). destruct Rf, Rv. split; cbn; auto.
  - destruct WT as (Wx & Wb & Wh & Wf & Tx). destruct Rb, Rh, Rf. split; cbn; auto.
  - split; auto.
Qed.

Lemma cong_flip (R : node -> node -> Prop) e e' : cong R e e' -> cong (fun a b => R b a) e' e.
Proof.
  intros C. assert (L : forall l l', Forall2 R l l' -> Forall2 (fun a b => R b a) l' l) by (intros l l' F; induction F; auto).
  inversion C; subst; constructor; auto.
Qed.

Context (R : node -> node -> Prop) (handle : node -> node -> res node).
Context (Rrefl : forall e, R e e) (Rtrans : forall a b c, R a b -> R b c -> R a c)
  (Rcong : forall e e', wt e -> wt e' -> cong R e e' -> R e e').
Context (HH : forall e0 e e', wt e0 -> sty e0 e -> R e0 e -> handle e0 e = Ok e' -> sty e e' /\ R e e').

Definition SR (e e' : node) : Prop := wt e -> sty e e' /\ R e e'.

Lemma SR_cong e e' : wt e -> cong (fun a b => sty a b /\ R a b) e e' -> sty e e' /\ R e e'.
Proof.
  intros WT C. assert (S1 : sty e e') by (apply cong_sty; auto; eapply cong_mono; [|exact C]; intros a b []; auto).
  split; auto. apply Rcong; auto; [apply S1|]. eapply cong_mono; [|exact C]. intros a b []; auto.
Qed.


Lemma step_ok e e1 e2 : wt e -> cong (fun a b => sty a b /\ R a b) e e1 -> handle e e1 = Ok e2 -> sty e e2 /\ R e e2.
Proof.
  intros WT C H. destruct (SR_cong _ _ WT C) as [[S1 S2] R1]. destruct (HH _ _ _ WT (conj S1 S2) R1 H) as [[S3 S4] R2].
  split; [split; congruence|]. eapply Rtrans; eauto.
Qed.

Lemma map_res_ok (f : node -> res node) l : Forall (fun a => forall a', wt a -> f a = Ok a' -> sty a a' /\ R a a') l -> Forall wt l ->
  forall l', map_res f l = Ok l' -> Forall2 (fun a b => sty a b /\ R a b) l l'.
Proof.
  intros F WT. induction F as [|a l H F IH]; intros l'; cbn.
  - intros [= <-]. constructor.
  - inversion WT; subst. destruct (f a) as [a'| | |] eqn:Ea; try discriminate. cbn. destruct (map_res f l) as [l1| | |]; try discriminate. cbn.
    intros [= <-]. constructor; auto.
Qed.

Ltac sub H :=
  match type of H with
  | bind ?r _ = Ok _ => let x := fresh "k" in let E := fresh "E" in destruct r as [x| | |] eqn:E; try discriminate; cbn [bind] in H
  end.

Lemma bottom_up_ok e : forall e', wt e -> bottom_up handle e = Ok e' -> sty e e' /\ R e e'.
Proof.
  induction e as [v|x|f args FA|c a b IHc IHa IHb|x e IH|l FA|c a b IHc IHa IHb|c b IHc IHb|x a st b body IHa IHb IHbd| | |e IH|e IH|f v IHf IHv|b x h f IHb IHh IHf]
    using node_ind'; intros e' WT H; cbn [bottom_up] in H.
  - eapply step_ok; [exact WT|apply CLeaf|exact H].
  - eapply step_ok; [exact WT|apply CLeaf|exact H].
  - sub H. sub E. injection E as <-. eapply step_ok; [exact WT| |exact H]. constructor. destruct WT as (WA & _). apply wt_args in WA. eapply map_res_ok; eauto.
  - sub H. sub E. sub E. sub E. injection E as <-. destruct WT as (Wc & Wa & Wb & Tc & Tab). eapply step_ok; [cbn; auto 10| |exact H]. constructor; auto.
  - sub H. sub E. injection E as <-. destruct WT as (Wx & We & T). eapply step_ok; [cbn; auto 10| |exact H]. constructor; auto.
  - sub H. sub E. injection E as <-. eapply step_ok; [exact WT| |exact H]. constructor. cbn in WT. apply wt_args in WT. eapply map_res_ok; eauto.
  - sub H. sub E. sub E. sub E. injection E as <-. destruct WT as (Wc & Wa & Wb & Tc & Ta & Tb). eapply step_ok; [cbn; auto 10| |exact H]. constructor; auto.
  - sub H. sub E. sub E. injection E as <-. destruct WT as (Wc & Wb & Tc). eapply step_ok; [cbn; auto 10| |exact H]. constructor; auto.
  - sub H. sub E. sub E. sub E. injection E as <-. destruct WT as (Wx & Wa & Wb & Wbd & Ta & Tb & Tx). eapply step_ok; [cbn; auto 10| |exact H]. constructor; auto.
  - eapply step_ok; [exact WT|apply CLeaf|exact H].
  - eapply step_ok; [exact WT|apply CLeaf|exact H].
  - sub H. sub E. injection E as <-. eapply step_ok; [exact WT| |exact H]. constructor; auto.
  - sub H. sub E. injection E as <-. destruct WT as (We & T). eapply step_ok; [cbn; auto 10| |exact H]. constructor; auto.
  - sub H. sub E. sub E. injection E as <-. destruct WT as (Wf & Wv). eapply step_ok; [cbn; auto 10| |exact H]. constructor; auto.
  - sub H. sub E. sub E. sub E. injection E as <-. destruct WT as (Wx & Wb & Wh & Wf & Tx). eapply step_ok; [cbn; auto 10| |exact H]. constructor; auto.
Qed.

Lemma rewrite_ok rules : Forall (fun r => forall e e', wt e -> r e = Ok (Some e') -> sty e e' /\ R e e') rules ->
  forall e e', wt e -> rewrite rules e = Ok e' -> sty e e' /\ R e e'.
Proof.
  intros F. induction F as [|r rules Hr F IH]; intros e e' WT; cbn.
  - intros [= <-]. split; auto. split; auto.
  - destruct (r e) as [[e1|]| | |] eqn:E; cbn; try discriminate; intros H; [|auto].
    destruct (Hr _ _ WT E) as [[S1 S2] R1]. destruct (IH _ _ S1 H) as [[S3 S4] R2]. split; [split; congruence|eauto].
Qed.
End Pass.

Section Eqv.
Context {W : Type}.
Context (fopq : magic -> spec_float -> spec_float -> spec_float) (fpowi : spec_float -> Z -> spec_float).
Context (py : bool) (uc : ufun (W := W)) (ret : nat -> ty) (tenv : bool -> nat -> ty).
Context (UW : wt_ufun ret tenv uc).
Notation ref := (ref fopq fpowi py uc tenv).
Notation wt := (wt ret tenv).

Definition eqv (e e' : node) : Prop := ref e e' /\ ref e' e.
Lemma eqv_refl e : eqv e e.
Proof. split; apply ref_refl. Qed.
Lemma eqv_trans a b c : eqv a b -> eqv b c -> eqv a c.
Proof. intros [] []. split; eapply ref_trans; eauto. Qed.
Lemma eqv_cong e e' : wt e -> wt e' -> cong eqv e e' -> eqv e e'.
Proof.
  intros H1 H2 C. split.
  - apply (cong_ref fopq fpowi py uc ret tenv UW); auto. eapply cong_mono; [|exact C]. intros a b []; auto.
  - apply (cong_ref fopq fpowi py uc ret tenv UW); auto. apply cong_flip. eapply cong_mono; [|exact C]. intros a b []; auto.
Qed.
Lemma eqv_ev e e' : (forall n s, wt_state tenv s -> ev fopq fpowi py uc n e s = ev fopq fpowi py uc n e' s) -> eqv e e'.
Proof. intros H. split; intros n s Hs; rewrite H by auto; apply rle_refl. Qed.
End Eqv.
