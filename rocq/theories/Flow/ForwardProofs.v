From Coq Require Import List Bool Arith Lia.
From Verif.Common Require Import Result.
From Verif.Flow Require Import Graph BitSet Reach ReachProofs ReachProperties DomProofs Forward ForwardSpec.
Import ListNotations.

Lemma NoDup_tail {A} (l m : list A) : NoDup (l ++ m) -> NoDup m.
Proof. induction l as [|x l IH]; auto. intros H. inversion H. auto. Qed.

Section Proofs.
Context (g : graph) (items : nat -> list item) (effect : nat -> bool).

Lemma okPast_quiet vs v : okPast effect vs v = true -> quiet effect vs v.
Proof.
  unfold okPast, quiet, assigns. destruct (ikind v) as [y [a|]|y|y|] eqn:K; intros H; try discriminate.
  - split.
    + intros x [a' E]. injection E as -> _. apply negb_true_iff in H. intros F. apply memb_In in F. congruence.
    + intros N. destruct (N y). eauto.
  - split; [intros x [a' E]; discriminate|]. intros _. now apply negb_true_iff in H.
  - split; [intros x [a' E]; discriminate|]. intros _. now apply negb_true_iff in H.
  - split; [intros x [a' E]; discriminate|]. intros _. now apply negb_true_iff in H.
Qed.

Lemma scan_go src dst vs m d l : iid d = dst -> ~ In dst (map iid m) ->
  fst (scan effect src dst vs true true (m ++ d :: l) true) = true -> Forall (fun v => okPast effect vs v = true) m.
Proof.
  intros D. induction m as [|v m IH]; intros N H; auto. cbn [app scan] in H. cbn [negb andb] in H.
  destruct (Nat.eqb_spec (iid v) dst) as [E|E]; [destruct N; left; auto|].
  destruct (okPast effect vs v) eqn:K; [|discriminate]. constructor; auto. apply IH; auto. intros F. apply N. now right.
Qed.
Lemma scan_block src dst vs p s m d l : iid s = src -> iid d = dst -> ~ In src (map iid p) -> ~ In dst (map iid m) ->
  fst (scan effect src dst vs true true (p ++ s :: m ++ d :: l) false) = true -> Forall (fun v => okPast effect vs v = true) m.
Proof.
  intros S D N1 N2. induction p as [|v p IH]; intros H.
  - cbn [app scan] in H. cbn [negb andb] in H. rewrite S, Nat.eqb_refl in H. eapply scan_go; eauto.
  - cbn [app scan] in H. cbn [negb andb] in H. destruct (Nat.eqb_spec (iid v) src) as [E|E]; [destruct N1; left; auto|].
    apply IH; auto. intros F. apply N1. now right.
Qed.

Context (WF : wf g) (ND : NoDup (map iid (concat (map items (seq 0 (size g)))))).
Lemma in_block_unique b c i : b < size g -> c < size g -> In i (map iid (items b)) -> In i (map iid (items c)) -> b = c.
Proof.
  intros HB HC. rewrite concat_map, map_map in ND. revert ND. 
  assert (B : In b (seq 0 (size g))) by (apply in_seq; lia). assert (D : In c (seq 0 (size g))) by (apply in_seq; lia).
  revert B D. generalize (seq_NoDup (size g) 0). generalize (seq 0 (size g)) as l. induction l as [|a l IH]; intros NDl B D N I J; [contradiction|].
  cbn in N. inversion NDl as [|? ? NA NDl']; subst. apply NoDup_tail in N as N2.
  assert (X : forall z, In z l -> In i (map iid (items z)) -> In i (map iid (items a)) -> False).
  { intros z Z I1 I2. clear -N Z I1 I2. induction (map iid (items a)) as [|w m IHm]; [contradiction|]. cbn in N. inversion N as [|? ? N1 N2']; subst.
    destruct I2 as [->|I2]; [|auto]. apply N1, in_app_iff. right. apply in_concat. exists (map iid (items z)). split; auto. apply in_map_iff. eauto. }
  destruct B as [->|B], D as [->|D]; auto.
  - destruct (X c D J I).
  - destruct (X b B I J).
Qed.
Lemma getBlock_in b i : b < size g -> In i (map iid (items b)) -> getBlock g items i = Some b.
Proof.
  intros HB I. unfold getBlock. destruct (find _ _) as [c|] eqn:F.
  - apply find_some in F. destruct F as [F1 F2]. apply in_seq in F1. apply memb_In in F2. f_equal. symmetry. eapply in_block_unique; eauto. lia.
  - eapply find_none in F; [|apply in_seq; split; [|cbn; exact HB]; lia]. cbn in F. exfalso. apply memb_In in I. congruence.
Qed.
Lemma nodup_block b : b < size g -> NoDup (map iid (items b)).
Proof.
  intros HB. rewrite concat_map, map_map in ND. assert (B : In b (seq 0 (size g))) by (apply in_seq; lia). revert B ND.
  generalize (seq 0 (size g)) as l. induction l as [|a l IH]; intros B N; [contradiction|]. cbn in N. destruct B as [->|B].
  - clear -N. induction (map iid (items b)) as [|w m IHm]; constructor; cbn in N; inversion N as [|? ? N1 N2]; subst; auto. intros F. apply N1, in_app_iff. auto.
  - apply IH; auto. eapply NoDup_tail; eauto.
Qed.

(** Forwarding inside a block has checked what lies between. *)
Lemma expr_block e b p s m d l : b < size g -> items b = p ++ s :: m ++ d :: l ->
  canForwardExpression g items effect e (iid s) (iid d) = Ok true -> Forall (quiet effect (vids e)) m.
Proof.
  intros HB EI. unfold canForwardExpression. destruct (existsb _ _); [discriminate|].
  rewrite (getBlock_in b (iid s) HB), (getBlock_in b (iid d) HB);
    [|rewrite EI; repeat (rewrite ?map_app, ?map_cons, ?in_app_iff; cbn [In]); tauto..].
  cbn [dfs]. rewrite Nat.eqb_refl. intros H. injection H as H. cbn [app along] in H. rewrite Nat.eqb_refl in H.
  destruct (scan effect (iid s) (iid d) (vids e) true true (items b) false) as [ok go] eqn:S. destruct ok; [|discriminate].
  pose proof (nodup_block b HB) as N. rewrite EI, map_app, map_cons in N.
  assert (Q : Forall (fun v => okPast effect (vids e) v = true) m).
  { apply (scan_block (iid s) (iid d) (vids e) p s m d l); auto.
    - intros F. apply NoDup_remove_2 in N. apply N, in_app_iff. auto.
    - intros F. apply NoDup_tail in N. inversion N as [|? ? _ N']; subst. rewrite map_app, map_cons in N'. apply NoDup_remove_2 in N'. apply N', in_app_iff. auto.
    - now rewrite <- EI, S. }
  eapply Forall_impl; [|exact Q]. intros v. apply okPast_quiet.
Qed.
End Proofs.

Section Sem.
Context {C : Type} (un : nat -> C -> C) (bin : nat -> C -> C -> C) (val : nat -> state C -> C).
Context (g : graph) (items : nat -> list item) (effect : nat -> bool) (units : list nunit).
Notation step := (step un bin val g items effect units).
Notation steps := (steps un bin val g items effect units).
Notation eval := (eval un bin val).

Lemma kept_refl (s : state C) : kept s s.
Proof. split; auto. Qed.
Lemma kept_trans (s s' s'' : state C) : kept s s' -> kept s' s'' -> kept s s''.
Proof. intros [A B] [A' B']. split; [lia|]. intros l L. rewrite B', B; auto. lia. Qed.
Lemma step_allocated v s s' : allocated s -> step v s s' -> allocated s'.
Proof.
  intros A S. destruct S as [v x u s s' K I E F [T _] TE H|v x a s s' K I E F [T _]|v s s' N EF F [T _]|v s s' N EF A' T F]; intros y.
  - destruct (Nat.eq_dec y x) as [->|D]; [rewrite E; lia|]. rewrite F; auto. specialize (A y). lia.
  - destruct (Nat.eq_dec y x) as [->|D]; auto. rewrite F; auto. specialize (A y). lia.
  - rewrite F. specialize (A y). lia.
  - apply A'.
Qed.
Lemma steps_allocated l s s' : allocated s -> steps l s s' -> allocated s'.
Proof. intros A S. induction S; auto. apply IHS. eapply step_allocated; eauto. Qed.
Lemma steps_app l m s s' : steps (l ++ m) s s' -> exists t, steps l s t /\ steps m t s'.
Proof.
  revert s. induction l as [|v l IH]; intros s S; [exists s; split; auto; constructor|]. inversion S as [|? ? ? t ? S1 S2]; subst.
  destruct (IH _ S2) as (u & A & B). exists u. split; auto. econstructor; eauto.
Qed.
Lemma step_quiet vs v s s' : quiet effect vs v -> step v s s' -> kept s s' /\ forall x, In x vs -> env s' x = env s x.
Proof.
  intros [Q1 Q2] S. destruct S as [v x u s s' K I E F KP TE H|v x a s s' K I E F KP|v s s' N EF F KP|v s s' N EF A' T F].
  - split; auto. intros y Y. apply F. intros ->. apply (Q1 x); auto. eexists; eauto.
  - split; auto. intros y Y. apply F. intros ->. apply (Q1 x); auto. eexists; eauto.
  - split; auto.
  - rewrite (Q2 N) in EF. discriminate.
Qed.
Lemma steps_quiet vs l s s' : Forall (quiet effect vs) l -> steps l s s' -> kept s s' /\ forall x, In x vs -> env s' x = env s x.
Proof.
  intros Q S. induction S as [s|v l s s' s'' S1 S2 IH]; [split; auto; apply kept_refl|]. inversion Q as [|? ? Q1 Q2]; subst.
  destruct (step_quiet _ _ _ _ Q1 S1) as [A B]. destruct (IH Q2) as [A' B']. split; [eapply kept_trans; eauto|]. intros x X. rewrite B'; auto.
Qed.
Lemma eval_kept e s s' : allocated s -> kept s s' -> (forall x, In x (vids e) -> env s' x = env s x) ->
  (forall i vs, In (i, ValLeaf vs) (leaves e) -> local val i vs) -> eval e s' = eval e s.
Proof.
  intros A K. induction e as [i [x|vs]|i op l IH|i op l IHl r IHr]; intros E L; cbn.
  - rewrite E; [|cbn; auto]. apply K, A.
  - apply (L i vs); [now left|auto..]. intros x X. apply E. unfold vids. cbn. rewrite app_nil_r. exact X.
  - f_equal. apply IH; auto.
  - unfold vids in E. cbn in E. rewrite flat_map_app in E. f_equal.
    + apply IHl; [intros x X; apply E, in_app_iff; auto|intros j vs X; apply (L j vs); cbn; apply in_app_iff; auto].
    + apply IHr; [intros x X; apply E, in_app_iff; auto|intros j vs X; apply (L j vs); cbn; apply in_app_iff; auto].
Qed.
Lemma eval_graft f e t s :
  (forall i x, In (i, VarLeaf x) (leaves e) -> match f i x with Some e' => eval e' t | None => heap t (env t x) end = heap s (env s x)) ->
  (forall i vs, In (i, ValLeaf vs) (leaves e) -> val i t = val i s) -> eval (graft f e) t = eval e s.
Proof.
  induction e as [i [x|vs]|i op l IH|i op l IHl r IHr]; intros H G; cbn.
  - specialize (H i x (or_introl eq_refl)). destruct (f i x) as [e'|]; auto.
  - apply (G i vs). now left.
  - f_equal. apply IH; auto.
  - f_equal; [apply IHl|apply IHr]; intros; first [apply H|eapply G]; cbn; apply in_app_iff; eauto.
Qed.
Context (deleted : list nat).
Notation both := (both un bin val g items effect units deleted).
Lemma both_steps l s f s' f' : both l s f s' f' -> steps l s s'.
Proof. intros B. induction B; econstructor; eauto. Qed.
Lemma both_app l m s f s' f' : both (l ++ m) s f s' f' -> exists t k, both l s f t k /\ both m t k s' f'.
Proof.
  revert s f. induction l as [|v l IH]; intros s f S; [exists s, f; split; auto; constructor|]. inversion S as [|? ? ? ? t ? ? S1 S2]; subst.
  destruct (IH _ _ S2) as (u & k & A & B). exists u, k. split; auto. econstructor; eauto.
Qed.
Lemma step_other v s s' y : step v s s' -> ~ assigns y v -> ~ address_taken g items y -> env s' y = env s y.
Proof. intros S N NA. destruct S as [v x u s s' K I E F KP TE H|v x a s s' K I E F KP|v s s' N1 EF F KP|v s s' N1 EF A' T F]; auto; apply F; intros ->; apply N; eexists; eauto. Qed.
Lemma step_assign v x a s s' y : step v s s' -> ikind v = KDef x a -> y <> x -> env s' y = env s y.
Proof.
  intros S K0 NE. destruct S as [v z u s s' K I E F KP TE H|v z b s s' K I E F KP|v s s' N1 EF F KP|v s s' N1 EF A' T F].
  - apply F. congruence.
  - apply F. congruence.
  - auto.
  - destruct (N1 x). eexists; eauto.
Qed.
Lemma invalid_taken y : memb y (invalid g items) = true <-> address_taken g items y.
Proof.
  rewrite memb_In. unfold invalid, all_items. rewrite in_flat_map. split.
  - intros (v & I & K). apply in_concat in I. destruct I as (l & L & I). apply in_map_iff in L. destruct L as (b & <- & B). apply in_seq in B.
    destruct (ikind v) as [| z | |] eqn:E; try contradiction. destruct K as [->|[]]. exists b, v. split; [lia|auto].
  - intros (b & v & HB & I & K). exists v. split; [|rewrite K; now left]. apply in_concat. exists (items b). split; auto. apply in_map_iff. exists b. split; auto. apply in_seq. lia.
Qed.
(** A variable that no deleted assignment sets is the same in both runs. *)
Lemma both_sync y l s f s' f' : both l s f s' f' ->
  (forall v, In v l -> memb (iid v) deleted = true -> exists x a, ikind v = KDef x a /\ x <> y) ->
  f y = env s y -> f' y = env s' y.
Proof.
  intros B. induction B as [s f|v l s f s' s'' f'' S B IH]; intros N E; auto. apply IH; auto.
  - intros w W. apply N. now right.
  - unfold follow. destruct (memb (iid v) deleted) eqn:M.
    + destruct (N v) as (x & a & K & D); [now left|auto|]. rewrite E. symmetry. eapply step_assign; eauto.
    + destruct (kills y v || memb y (invalid g items)) eqn:KI; auto. apply orb_false_elim in KI. destruct KI as [KI IV]. rewrite E. symmetry. eapply step_other; eauto.
      * intros A. apply kills_assigns in A. congruence.
      * intros A. apply invalid_taken in A. congruence.
Qed.
(** Nothing changes for the variables of quiet steps. *)
Lemma both_quiet vs y l s f s' f' : Forall (quiet effect vs) l -> In y vs -> both l s f s' f' ->
  (address_taken g items y -> f y = env s y) -> f' y = f y.
Proof.
  intros Q Y B. induction B as [s f|v l s f s' s'' f'' S B IH]; auto. intros E. inversion Q as [|? ? Q1 Q2]; subst.
  assert (X : follow g items deleted v s' f y = f y).
  { unfold follow. destruct (memb (iid v) deleted); auto. destruct (kills y v) eqn:KI; [apply kills_assigns in KI; destruct (proj1 Q1 y KI Y)|].
    cbn [orb]. destruct (memb y (invalid g items)) eqn:IV; auto. apply invalid_taken in IV. rewrite (E IV). eapply step_quiet; eauto. }
  rewrite IH; auto. intros A. rewrite X, (E A). symmetry. eapply step_quiet; eauto.
Qed.
End Sem.
