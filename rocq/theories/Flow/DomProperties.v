(** C25: dominators. *)
From Coq Require Import List Bool Arith Lia.
From Verif.Common Require Import Result.
From Verif.Flow Require Import Graph Dom DomProofs.
Import ListNotations.

(** ** Specification *)
(** Every block has a predecessor, but for the entry. *)
Definition one_entry (g : graph) : Prop := forall b, b < size g -> b <> entry -> exists p, p < size g /\ In b (succs g p).
(** Every path from the entry to [b] goes through [a]. *)
Definition dominates (g : graph) (a b : nat) : Prop := forall h, trace g entry h b -> In a (b :: h).
(** Value [d] has been run when a path through the blocks [h] has got as far as the values [done]
    of the next block. *)
Definition has_run (items : nat -> list nat) (h done : list nat) (d : nat) : Prop := (exists c, In c h /\ In d (items c)) \/ In d done.

Lemma root_entry g r : wf g -> one_entry g -> root g r -> r = entry.
Proof.
  intros WF OE [HR NP]. destruct (Nat.eq_dec r entry) as [|N]; auto. destruct (OE r HR N) as (p & HP & HI). exfalso.
  assert (X : In p (preds g r)) by (now apply preds_In). now rewrite NP in X.
Qed.
Lemma first_arrival g r h b : trace g r h b -> exists h', trace g r h' b /\ ~ In b h'.
Proof.
  enough (H : forall h c, trace g r h c -> (c = b \/ In b h) -> exists h', trace g r h' b /\ ~ In b h').
  { intros T. eapply H; eauto. }
  clear. intros h c T. induction T as [|h c d T IH E].
  - intros [->|[]]. exists []. split; [constructor|auto].
  - intros H. destruct (in_dec Nat.eq_dec b (c :: h)) as [I|N].
    + apply IH. destruct I; auto.
    + destruct H as [->|H]; [|contradiction]. exists (c :: h). split; auto. econstructor; eauto.
Qed.

(** The analysis ends, and block [a] is in the set of [b] exactly when it dominates [b]. *)
Theorem C25_dominator_sets_exact g : wf g -> one_entry g -> exists sets, analyze g = Ok sets /\
  forall a b, a < size g -> b < size g -> (bget (nth b sets []) a = true <-> dominates g a b).
Proof.
  intros WF OE. destruct (analyze_final g WF) as (bits & E & F). exists bits. split; auto. intros a b HA HB. rewrite (final_dom g WF bits b a F HB HA). split.
  - intros D h T. apply (D entry h); auto. now apply entry_root.
  - intros D r h HR HT. assert (r = entry) by (eapply root_entry; eauto). subst. auto.
Qed.
Print Assumptions C25_dominator_sets_exact.

(** isDominated(v, d), for two values of a function: exactly when [d] has been run whenever [v] has. *)
Theorem C25_is_dominated_exact g items : wf g -> one_entry g -> NoDup (concat (map items (seq 0 (size g)))) ->
  exists sets, analyze g = Ok sets /\
  forall b c d v before after, b < size g -> c < size g -> items b = before ++ v :: after -> In d (items c) -> (exists h, trace g entry h b) ->
  exists r, isDominated g items sets v d = Ok r /\
  (r = true <-> forall h, trace g entry h b -> has_run items h (before ++ [v]) d).
Proof.
  intros WF OE ND. destruct (C25_dominator_sets_exact g WF OE) as (bits & E & F). exists bits. split; auto. intros b c d v before after HB HC EB HD [h0 HT].
  assert (HV : In v (items b)) by (rewrite EB; apply in_or_app; right; now left).
  unfold isDominated. rewrite (getBlock_ok g items ND v b HB HV), (getBlock_ok g items ND d c HC HD). destruct (Nat.eqb_spec b c) as [<-|N].
  - eexists; split; [reflexivity|]. rewrite Nat.leb_le, (dist_in_firstn d v (items b) HV).
    assert (DB : firstn (S (dist v (items b))) (items b) = before ++ [v]).
    { assert (NB : ~ In v before).
      { intros X. assert (N : NoDup (items b)).
        { clear - ND HB. assert (H : In b (seq 0 (size g))) by (apply in_seq; lia). revert ND H. generalize (seq 0 (size g)). induction l as [|x l IH]; cbn; [contradiction|]. intros N [->|H].
          - clear - N. induction (items b) as [|y ys IH]; [constructor|]. cbn in N. inversion N; subst. constructor; auto. intros X. apply H1, in_or_app; auto.
          - apply IH; auto. clear - N. induction (items x) as [|y ys IH]; auto. cbn in N. inversion N; auto. }
        rewrite EB in N. clear - N X. induction before as [|y ys IH]; [contradiction|]. cbn in N. inversion N; subst. destruct X as [->|X]; auto. apply H1, in_or_app. right. now left. }
      rewrite EB. clear - NB. induction before as [|y ys IH]; cbn; [now rewrite Nat.eqb_refl|]. destruct (Nat.eqb_spec v y) as [->|]; [exfalso; apply NB; now left|]. f_equal. apply IH. intros X. apply NB. now right. }
    rewrite DB. split.
    + intros H h _. now right.
    + intros H. destruct (first_arrival g entry h0 b HT) as (h' & T' & NI). destruct (H h' T') as [(x & HX & HI)|]; auto. exfalso. apply NI.
      assert (XN : x < size g). { clear - WF T' HX. revert HX. assert (Z : entry < size g) by apply WF. induction T' as [|h b c T IH E]; [contradiction|]. intros [<-|X]; auto. eapply trace_lt; eauto. }
      now rewrite (in_items_unique g items ND d b x HB XN HD HI).
  - eexists; split; [reflexivity|]. rewrite F by auto. split.
    + intros D h T. left. exists c. destruct (D h T) as [X|X]; [congruence|auto].
    + intros H h T. destruct (H h T) as [(x & HX & HI)|X].
      * right. assert (XN : x < size g). { clear - WF T HX. revert HX. assert (Z : entry < size g) by apply WF. induction T as [|h b c T IH E]; [contradiction|]. intros [<-|X]; auto. eapply trace_lt; eauto. }
        now rewrite (in_items_unique g items ND d c x HC XN HD HI).
      * exfalso. apply N. apply (in_items_unique g items ND d b c HB HC); auto. rewrite EB. apply in_or_app. apply in_app_or in X. destruct X as [X|[<-|[]]]; auto. right. now left.
Qed.
Print Assumptions C25_is_dominated_exact.

(** When other blocks have no predecessor either, a dominator found is still one. *)
Theorem C25_dominator_sets_sound g : wf g -> exists sets, analyze g = Ok sets /\
  forall a b, a < size g -> b < size g -> bget (nth b sets []) a = true -> dominates g a b.
Proof.
  intros WF. destruct (analyze_final g WF) as (bits & E & F). exists bits. split; auto. intros a b HA HB H h T. eapply final_sound; eauto. now apply entry_root.
Qed.
Print Assumptions C25_dominator_sets_sound.

(** The graph cfg.cpp:232-266 builds for a function with an imperative for loop: 0 entry, 1 endFor, 2 forBegin,
    3 forCheck, 4 forUpdate, 5 forBody.  Nothing leads to forUpdate, but it leads to forCheck: the
    analysis misses that the entry dominates the body of the loop. *)
Definition for_graph : graph :=
  {| size := 6; succs := fun b => match b with 0 => [2] | 2 => [3] | 3 => [1; 5] | 4 => [3] | 5 => [3] | _ => [] end |}.
Local Ltac cases b := do 8 (try (destruct b as [|b]; [cbn; intuition lia|])); cbn; intuition lia.
Local Ltac wfg := split; [cbn; lia|]; split; [intros b c; cases b|]; split; [unfold entry; intros b; cases b|]; intros b H; cbn in *; do 8 (destruct b as [|b]; [try lia; reflexivity|]); reflexivity.
Lemma for_graph_wf : wf for_graph.
Proof. wfg. Qed.
Theorem C25_dominators_after_for_refuted : wf for_graph /\ dominates for_graph 0 5 /\
  exists sets, analyze for_graph = Ok sets /\ bget (nth 5 sets []) 0 = false.
Proof.
  split; [apply for_graph_wf|]. split.
  - intros h T. right. assert (H : forall h c, trace for_graph entry h c -> c = 0 \/ In 0 h).
    { clear. intros h c T. induction T; [now left|]. right. destruct IHT as [->|]; [now left|now right]. }
    destruct (H h 5 T); [discriminate|auto].
  - eexists; split; vm_compute; reflexivity.
Qed.
Print Assumptions C25_dominators_after_for_refuted.

(** if/else in a while loop: 0 entry, 1 endWhile, 2 whileBegin, 3 whileBody, 4 endIf, 5 trueBranch, 6 falseBranch *)
Definition while_graph : graph :=
  {| size := 7; succs := fun b => match b with 0 => [2] | 2 => [1; 3] | 3 => [5; 6] | 5 => [4] | 6 => [4] | 4 => [2] | _ => [] end |}.
Example C25_applies : wf while_graph /\ one_entry while_graph /\
  exists sets, analyze while_graph = Ok sets /\ map (fun b => map (bget (nth b sets [])) (seq 0 7)) [1; 4] =
    [[true; true; true; false; false; false; false]; [true; false; true; true; true; false; false]].
Proof.
  split; [|split].
  - wfg.
  - intros b HB NB. cbn in *. destruct b as [|[|[|[|[|[|[|]]]]]]]; [now elim NB|exists 2|exists 0|exists 2|exists 5|exists 3|exists 3|lia]; cbn; intuition lia.
  - eexists; split; vm_compute; reflexivity.
Qed.
