(** C70: moving array expressions to their use keeps their values. *)
From Coq Require Import List Bool Arith Lia.
From Verif.Common Require Import Result.
From Verif.Flow Require Import Graph BitSet Reach ReachProofs ReachProperties DomProofs Cfg CfgSpec CfgFrame CfgProofs CfgProperties Forward ForwardSpec ForwardProofs.
Import ListNotations.

Section Props.
Context (g : graph) (items : nat -> list item) (effect : nat -> bool) (units : list nunit).
Context (WF : wf g) (ND : NoDup (map iid (concat (map items (seq 0 (size g)))))).
Notation unit_at := (unit_at units).
(** The assignment of a unit is in the graph, and each value is the right-hand side of one assignment. *)
Context (UA : forall k i x, uassign (unit_at k) = Some (i, x) ->
  exists b v, b < size g /\ In v (items b) /\ iid v = i /\ ikind v = KDef x (Some (root (uexpr (unit_at k))))).
Context (RHS : forall b c v w x y a, b < size g -> c < size g -> In v (items b) -> In w (items c) ->
  ikind v = KDef x (Some a) -> ikind w = KDef y (Some a) -> v = w).

Lemma item_unique b c v w : b < size g -> c < size g -> In v (items b) -> In w (items c) -> iid v = iid w -> v = w.
Proof.
  intros HB HC I J E. assert (b = c) as <-.
  { eapply (in_block_unique g items ND b c (iid v)); auto; [now apply in_map|rewrite E; now apply in_map]. }
  pose proof (nodup_block g items ND b HB) as N. clear -N I J E. induction (items b) as [|u l IH]; [contradiction|]. cbn in N. inversion N as [|? ? N1 N2]; subst.
  destruct I as [->|I], J as [->|J]; auto.
  - destruct N1. rewrite E. now apply in_map.
  - destruct N1. rewrite <- E. now apply in_map.
Qed.
Lemma reaching_address ins x loc : address_taken g items x -> getReachingDefinitions g items ins false x loc = [].
Proof.
  intros (b & v & HB & I & K). unfold getReachingDefinitions. replace (memb x (invalid g items)) with true; auto. symmetry. apply memb_In. unfold invalid.
  apply in_flat_map. exists v. split; [|rewrite K; now left]. unfold all_items. apply in_concat. exists (items b). split; auto. apply in_map_iff. exists b. split; auto. apply in_seq. lia.
Qed.
Lemma trace_items h : forall s b, s < size g -> trace g s h b -> forall d, In d (run_on items h) -> exists c, c < size g /\ In d (items c).
Proof.
  induction h as [|c h IH]; intros s b HS T d I; [contradiction|]. inversion T as [|? ? ? T' E]; subst. cbn in I. apply in_app_iff in I.
  destruct I as [I|I]; [eapply IH; eauto|]. exists c. split; auto.
  assert (X : forall h c, trace g s h c -> c < size g).
  { clear -WF HS. intros h c T. induction T as [|h b c T IH E]; auto. destruct WF as (_ & W & _). eapply W; eauto. }
  eapply X; eauto.
Qed.
Lemma last_in x l d : last_assignment x l d -> In d l.
Proof. intros (p & q & -> & _). apply in_app_iff. right. now left. Qed.

(** C70: a unit is forwarded to a read of its variable only if this read finds the unit's value on every path, and no other
    read of the variable does; so its assignment is not missed. *)
Theorem C70_forward_variable : exists ins, analyze g items = Ok ins /\
  forall k dst x, forwards g items ins effect units k dst x = true ->
  exists i, uassign (unit_at k) = Some (i, x) /\
  (forall b before v after s h d, b < size g -> items b = before ++ v :: after -> iid v = dst -> s < size g -> trace g s h b ->
     last_assignment x (run_on items h ++ before ++ [v]) d -> iid d = i) /\
  (forall b before v after s h d, b < size g -> items b = before ++ v :: after -> ikind v = KUse x -> iid v <> dst -> s < size g -> trace g s h b ->
     last_assignment x (run_on items h ++ before ++ [v]) d -> iid d <> i).
Proof.
  destruct (C24_reaching_definitions_exact g items WF ND) as (ins & E & Q). exists ins. split; auto. intros k dst x F.
  unfold forwards in F. destruct (uassign (unit_at k)) as [[i y]|] eqn:UK; [|discriminate].
  apply andb_prop in F. destruct F as [F F2]. apply andb_prop in F. destruct F as [F0 F]. apply Nat.eqb_eq in F0. subst y.
  exists i. split; auto. destruct (UA k i x UK) as (bi & vi & HBi & Ii & IDi & Ki).
  unfold canForwardVariable in F. apply andb_prop in F. destruct F as [F1 F3].
  assert (NT : ~ address_taken g items x). { intros AT. rewrite (reaching_address ins x dst AT) in F1. discriminate. }
  assert (IN : forall b before v after s h d, b < size g -> items b = before ++ v :: after -> s < size g -> trace g s h b ->
     last_assignment x (run_on items h ++ before ++ [v]) d -> exists c, c < size g /\ In d (items c)).
  { intros b before v after s h d HB EI HS T L. apply last_in in L. apply in_app_iff in L. destruct L as [L|L]; [eapply trace_items; eauto|].
    exists b. split; auto. rewrite EI. apply in_app_iff in L. apply in_app_iff. destruct L as [L|[L|[]]]; [now left|right; now left]. }
  split.
  - intros b before v after s h d HB EI V HS T L. subst dst. destruct (IN _ _ _ _ _ _ _ HB EI HS T L) as (c & HC & Id). destruct (Q b before v after x HB EI NT) as [_ Q'].
    destruct (getReachingDefinitions g items ins false x (iid v)) as [|r [|]] eqn:R; try discriminate.
    assert (D : In (reported d) [r]). { apply Q'. exists s, h, d. auto. }
    destruct D as [->|[]]. destruct L as (p & q & _ & [a A] & _). unfold reported in F1. rewrite A in F1. destruct a as [a|]; [|discriminate]. cbn in F1. apply Nat.eqb_eq in F1. subst a.
    rewrite (RHS c bi d vi x x _ HC HBi Id Ii A Ki). exact IDi.
  - intros b before v after s h d HB EI KV V HS T L. destruct (IN _ _ _ _ _ _ _ HB EI HS T L) as (c & HC & Id). destruct (Q b before v after x HB EI NT) as [_ Q'].
    rewrite forallb_forall in F3. assert (VI : In v (all_items g items)).
    { unfold all_items. apply in_concat. exists (items b). split; [apply in_map_iff; exists b; split; auto; apply in_seq; lia|]. rewrite EI. apply in_app_iff. right. now left. }
    specialize (F3 v VI). unfold uses in F3. rewrite KV, Nat.eqb_refl in F3. cbn [negb orb] in F3.
    replace (Nat.eqb (iid v) dst) with false in F3 by (symmetry; now apply Nat.eqb_neq). cbn [orb] in F3.
    intros X. assert (d = vi) as ->. { apply (item_unique c bi); [auto|auto|auto|auto|congruence]. }
    destruct (Nat.eqb_spec (iid v) i) as [EV|EV].
    + assert (v = vi) as ->. { apply (item_unique b bi); [auto|auto|rewrite EI; apply in_app_iff; right; now left|auto|congruence]. } rewrite KV in Ki. discriminate.
    + cbn [orb] in F3. apply negb_true_iff in F3. apply not_true_iff_false in F3. apply F3. apply existsb_exists. exists (RKnown (root (uexpr (unit_at k)))). split; [|cbn; apply Nat.eqb_refl].
      apply Q'. exists s, h, vi. repeat (split; auto). unfold reported. now rewrite Ki.
Qed.

(** C70: an expression with a leaf that may have a side effect stays where it is, so no side effect is moved. *)
Theorem C70_forward_no_effects ins k dst x i c : forwards g items ins effect units k dst x = true -> In (i, c) (leaves (uexpr (unit_at k))) -> effect i = false.
Proof.
  intros F I. unfold forwards in F. destruct (uassign (unit_at k)) as [[j y]|]; [|discriminate]. apply andb_prop in F. destruct F as [_ F]. unfold canForwardExpression in F.
  destruct (existsb _ _) eqn:E; [discriminate|]. destruct (effect i) eqn:EF; auto. rewrite <- E. symmetry. apply existsb_exists. exists (i, c). auto.
Qed.

(** ** The values *)
Context {C : Type} (un : nat -> C -> C) (bin : nat -> C -> C -> C) (val : nat -> state C -> C).
Context (LOCAL : forall u i vs, In u units -> In (i, ValLeaf vs) (leaves (uexpr u)) -> local val i vs).
(** Reading a variable has no side effect (side_effect.cpp:169). *)
Context (READS : forall b v x, b < size g -> In v (items b) -> ikind v = KUse x -> effect (iid v) = false).
(** Different units are different values. *)
Context (ROOTS : forall u w, In u units -> In w units -> root (uexpr u) = root (uexpr w) -> u = w).
Context (ins : list bits) (INS : analyze g items = Ok ins).
Notation steps := (steps un bin val g items effect units).
Notation eval := (eval un bin val).
Notation sources := (sources g items ins effect units).

(** The unit has no leaf that others are forwarded to. *)
Definition plain (k : nat) : Prop := forall i x, In (i, VarLeaf x) (leaves (uexpr (unit_at k))) -> sources k i x = [].
Lemma forwarded_plain k fuel : plain k -> forwarded g items ins effect units fuel k = uexpr (unit_at k).
Proof.
  intros P. destruct fuel as [|fuel]; auto. cbn [forwarded]. unfold plain in P. revert P. generalize (uexpr (unit_at k)) as e.
  induction e as [i [x|vs]|i op l IH|i op l IHl r IHr]; intros P; cbn; auto.
  - rewrite (P i x); [auto|now left].
  - f_equal. apply IH. intros j x I. apply P. exact I.
  - f_equal; [apply IHl|apply IHr]; intros j x I; apply P; cbn; apply in_app_iff; auto.
Qed.

(** Unit [k] is forwarded to leaf [i] of unit [n], a read of [x]. *)
Definition forwarded_to (n i x k : nat) : Prop := In (i, VarLeaf x) (leaves (uexpr (unit_at n))) /\ In k (sources n i x).
Definition deletes (n : nat) : list nat :=
  flat_map (fun l => match snd l with
                     | VarLeaf x => flat_map (fun k => match uassign (unit_at k) with Some (i, _) => [i] | None => [] end) (sources n (fst l) x)
                     | ValLeaf _ => []
                     end) (leaves (uexpr (unit_at n))).
Lemma deletes_spec n j : memb j (deletes n) = true <-> exists i x k y, forwarded_to n i x k /\ uassign (unit_at k) = Some (j, y).
Proof.
  rewrite memb_In. unfold deletes, forwarded_to. rewrite in_flat_map. split.
  - intros ([i [x|vs]] & I & J); [|contradiction]. cbn in J. apply in_flat_map in J. destruct J as (k & K & J). destruct (uassign (unit_at k)) as [[j' y]|] eqn:U; [|contradiction].
    destruct J as [->|[]]. exists i, x, k, y. auto.
  - intros (i & x & k & y & [I K] & U). exists (i, VarLeaf x). split; auto. cbn. apply in_flat_map. exists k. split; auto. rewrite U. now left.
Qed.
Lemma sources_assign n i x k : In k (sources n i x) -> k < length units /\ forwards g items ins effect units k i x = true /\ exists j, uassign (unit_at k) = Some (j, x).
Proof.
  intros X. unfold Forward.sources in X. apply filter_In in X. destruct X as [X Y]. apply in_seq in X. apply andb_prop in Y. destruct Y as [_ Y]. split; [lia|]. split; auto.
  unfold forwards in Y. destruct (uassign (unit_at k)) as [[j y]|]; [|discriminate]. apply andb_prop in Y. destruct Y as [Y _]. apply andb_prop in Y. destruct Y as [Y _]. apply Nat.eqb_eq in Y. subst y. eauto.
Qed.

(** C70, partial: let unit [n] be evaluated at [r], and let each unit [k] forwarded to a leaf [d] of it
    - be assigned earlier in the same block;
    - have no units forwarded to it;
    - have a variable that is not used by the other leaves of [n] or by the other units forwarded to [n];
    and between [d] and [r], that is in the rest of the expression, let nothing have a side effect or assign the variables of [k].
    Then evaluating the forwarded expression at [r] without the assignments of these units, all leaves at once, gives what the
    expression gives with them.  The refutations below show that the first, second and last condition are needed. *)
Theorem C70_forward_value_partial n b pre r post :
  n < length units -> b < size g -> items b = pre ++ r :: post ->
  (forall i x k, forwarded_to n i x k -> plain k /\
     (forall j c, In (j, c) (leaves (uexpr (unit_at n))) -> In x (leaf_vars c) -> (j, c) = (i, VarLeaf x)) /\
     (forall i' x' k', forwarded_to n i' x' k' -> k' <> k -> ~ In x (vids (uexpr (unit_at k')))) /\
     exists p s m d m', pre = p ++ s :: m ++ d :: m' /\ uassign (unit_at k) = Some (iid s, x) /\ iid d = i /\ ikind d = KUse x /\
     Forall (quiet effect (x :: vids (uexpr (unit_at k)))) m') ->
  forall st st' f, allocated st -> both un bin val g items effect units (deletes n) pre st (env st) st' f ->
  eval (forwarded g items ins effect units (length units) n) (State f (heap st') (top st')) = eval (uexpr (unit_at n)) st'.
Proof.
  intros LN HB EI H st st' f A B.
  assert (UI : forall k, k < length units -> In (unit_at k) units) by (intros k L; unfold Forward.unit_at; now apply nth_In).
  assert (DEL : forall v, In v pre -> memb (iid v) (deletes n) = true -> exists i x k, forwarded_to n i x k /\ uassign (unit_at k) = Some (iid v, x) /\ ikind v = KDef x (Some (root (uexpr (unit_at k))))).
  { intros v V M. apply deletes_spec in M. destruct M as (i & x & k & y & F & U). destruct (sources_assign n i x k (proj2 F)) as (_ & _ & j & U'). rewrite U in U'. injection U' as <- ->.
    exists i, x, k. split; auto. split; auto. destruct (UA k (iid v) x U) as (bi & vi & HBi & Ii & IDi & Ki). rewrite <- Ki. f_equal.
    apply (item_unique b bi); auto. rewrite EI. apply in_app_iff. auto. }
  assert (SYNC : forall j c y, In (j, c) (leaves (uexpr (unit_at n))) -> In y (leaf_vars c) -> (forall k, ~ forwarded_to n j y k \/ c <> VarLeaf y) -> f y = env st' y).
  { intros j c y J Y NF. eapply both_sync; [exact B| |reflexivity]. intros v V M. destruct (DEL v V M) as (i & x & k & F & U & K). exists x, (Some (root (uexpr (unit_at k)))). split; auto. intros ->.
    destruct (H i y k F) as (_ & H1 & _). specialize (H1 j c J Y). injection H1 as -> ->. destruct (NF k) as [N|N]; auto. }
  assert (KST : kept st' (State f (heap st') (top st'))) by (split; cbn; auto).
  assert (A' : allocated st') by (eapply steps_allocated; [exact A|eapply both_steps; exact B]).
  destruct (length units) as [|fuel] eqn:LU; [lia|].
  cbn [forwarded]. apply eval_graft.
  2:{ intros i vs I. apply (LOCAL _ i vs (UI n LN) I); auto. intros y Y. cbn. apply (SYNC i (ValLeaf vs)); auto. intros k. right. discriminate. }
  intros i x I. destruct (sources n i x) as [|k ks] eqn:SR.
  { cbn. f_equal. apply (SYNC i (VarLeaf x)); [auto|now left|]. intros k. left. intros [_ F]. rewrite SR in F. contradiction. }
  assert (FT : forwarded_to n i x k) by (split; auto; rewrite SR; now left).
  destruct (H i x k FT) as (P & _ & SEP & p & s & m & d & m' & EP & UK & ID & KD & Q). rewrite (forwarded_plain k fuel P).
  destruct (sources_assign n i x k (proj2 FT)) as (LK & F & _).
  destruct C70_forward_variable as (ins' & E' & V). rewrite INS in E'. injection E' as <-. destruct (V k i x F) as (i' & UK' & V1 & _). rewrite UK in UK'. injection UK' as <-.
  assert (NT : ~ address_taken g items x).
  { intros AT. unfold forwards in F. rewrite UK in F. apply andb_prop in F. destruct F as [F _]. apply andb_prop in F. destruct F as [_ F]. unfold canForwardVariable in F. rewrite (reaching_address ins x i AT) in F. discriminate. }
  unfold forwards in F. rewrite UK in F. apply andb_prop in F. destruct F as [F FE]. destruct (canForwardExpression _ _ _ _ _ _) as [[|]| | |] eqn:CE; try discriminate. rewrite <- ID in CE.
  assert (EI' : items b = p ++ s :: m ++ d :: (m' ++ r :: post)). { rewrite EI, EP. rewrite <- ?app_assoc. cbn. rewrite <- ?app_assoc. reflexivity. }
  pose proof (expr_block g items effect ND (uexpr (unit_at k)) b p s m d (m' ++ r :: post) HB EI' CE) as QM.
  destruct (UA k (iid s) x UK) as (bi & vi & HBi & Ii & IDi & Ki).
  assert (vi = s) as ->. { apply (item_unique bi b); [auto|auto|auto|rewrite EI'; apply in_app_iff; right; now left|auto]. }
  pose proof (nodup_block g items ND b HB) as N. rewrite EI', map_app, map_cons in N. apply NoDup_remove_2 in N.
  assert (NX : Forall (fun v => ~ assigns x v) m).
  { apply Forall_forall. intros v Iv Av.
    assert (LA : exists w, In w m /\ last_assignment x (run_on items [] ++ (p ++ s :: m) ++ [d]) w).
    { assert (X : exists w, In w m /\ last_assignment x m w).
      { clear -Iv Av. destruct (lastdef x m) as [z|] eqn:L.
        - apply lastdef_last in L. exists z. split; [now apply (last_in x)|auto].
        - exfalso. eapply (proj1 (lastdef_none x m) L) in Iv. apply kills_assigns in Av. congruence. }
      destruct X as (w & W & p' & q & -> & AW & FW). exists w. split; auto. exists (p ++ s :: p'), (q ++ [d]). cbn. rewrite <- ?app_assoc. cbn. rewrite <- ?app_assoc. cbn. split; auto. split; auto.
      apply Forall_app. split; auto. constructor; auto. intros [a X]. rewrite KD in X. discriminate. }
    destruct LA as (w & W & LA). assert (X : iid w = iid s).
    { eapply (V1 b (p ++ s :: m) d (m' ++ r :: post) b []); eauto; [rewrite EI'; rewrite <- app_assoc; reflexivity|constructor]. }
    apply N, in_app_iff. right. rewrite map_app. apply in_app_iff. left. rewrite <- X. now apply in_map. }
  rewrite EP in B. apply both_app in B. destruct B as (s0 & f0 & B0 & B). inversion B as [|? ? ? ? s1 ? ? SS B1]; subst.
  pose proof (steps_allocated un bin val g items effect units _ _ _ A (both_steps _ _ _ _ _ _ _ _ _ _ _ _ _ B0)) as A0.
  set (vs := x :: vids (uexpr (unit_at k))) in *.
  assert (QD : quiet effect vs d).
  { split; [intros y [a Y]; rewrite KD in Y; discriminate|]. intros _. apply (READS b d x); auto. rewrite EI'. apply in_app_iff. right. right. apply in_app_iff. right. now left. }
  assert (QA : Forall (quiet effect vs) (m ++ d :: m')).
  { apply Forall_app. split; [|constructor; auto]. apply Forall_forall. intros v Iv. rewrite Forall_forall in QM, NX. destruct (QM v Iv) as [C1 C2]. split; auto.
    intros y AY [<-|Y]; [apply (NX v Iv); auto|eapply C1; eauto]. }
  destruct (steps_quiet un bin val g items effect units _ _ _ _ QA (both_steps _ _ _ _ _ _ _ _ _ _ _ _ _ B1)) as [K1 E1].
  assert (SYN0 : forall y, In y (vids (uexpr (unit_at k))) -> f0 y = env s0 y).
  { intros y Y. eapply both_sync; [exact B0| |reflexivity]. intros v Iv M. destruct (DEL v) as (i2 & x2 & k2 & F2 & U2 & K2); auto; [apply in_app_iff; auto|].
    exists x2, (Some (root (uexpr (unit_at k2)))). split; auto. intros ->. destruct (Nat.eq_dec k2 k) as [->|NE].
    - rewrite UK in U2. injection U2 as U2 _. apply N, in_app_iff. left. rewrite U2. now apply in_map.
    - destruct (H i2 y k2 F2) as (_ & _ & SEP2 & _). apply (SEP2 (iid d) x k FT); auto. }
  assert (MS : memb (iid s) (deletes n) = true). { apply deletes_spec. exists (iid d), x, k, x. auto. }
  assert (FY : forall y, In y (vids (uexpr (unit_at k))) -> f y = env s0 y).
  { intros y Y. rewrite <- (SYN0 y Y). assert (X : follow g items (deletes n) s s1 f0 y = f0 y) by (unfold follow; now rewrite MS). rewrite <- X. eapply both_quiet; [exact QA|right; exact Y|exact B1|].
    intros AT. rewrite X, (SYN0 y Y). symmetry. eapply step_assign; [exact SS|exact Ki|]. intros ->. contradiction. }
  inversion SS as [v y u t t' K I' E2 F2 K2 T2 H2|v y a t t' K I' E2 F2 K2|v t t' N1|v t t' N1]; subst.
  - rewrite Ki in K. injection K as <- K. assert (u = unit_at k) as -> by (apply ROOTS; auto; apply UI; lia).
    assert (K02 : kept s0 st') by (eapply kept_trans; eauto).
    transitivity (eval (uexpr (unit_at k)) s0).
    + apply eval_kept; auto. intros j ws J. eapply LOCAL; eauto; apply UI; lia.
    + rewrite <- H2, (E1 x); [|now left]. rewrite E2. symmetry. apply K1. lia.
  - rewrite Ki in K. injection K as <- <-. exfalso. eapply I'; [|reflexivity]. unfold Forward.unit_at. apply nth_In. lia.
  - destruct (N1 x). eexists; eauto.
  - destruct (N1 x). eexists; eauto.
Qed.
End Props.

(** ** Functions that change their result *)
(** All assignments that the pass deletes (numpy.cpp:870-879). *)
Definition all_deleted g items ins effect units : list nat :=
  flat_map (fun k => if is_source g items ins effect units k then match uassign (unit_at units k) with Some (i, _) => [i] | None => [] end else [])
    (seq 0 (length units)).
(** Some run of the function evaluates unit [n] to another value once it is forwarded to. *)
Definition miscompiled (args : list (nat * nat * nat)) (body : node) (effect : nat -> bool) (units : list nunit) (n : nat) : Prop :=
  let g := graph_of (func args body) in let items := its (func args body) in
  NoDup (ids args body) /\ ok [] false [] body = true /\
  exists (un : nat -> nat -> nat) (bin : nat -> nat -> nat -> nat) val ins e l1 r l2 o st st' f,
  analyze g items = Ok ins /\ result g items ins effect units n = Some e /\
  exec body (l1 ++ r :: l2) o /\ iid r = root (uexpr (unit_at units n)) /\ allocated st /\
  both un bin val g items effect units (all_deleted g items ins effect units) (arguments args ++ l1) st (env st) st' f /\
  eval un bin val e (State f (heap st') (top st')) <> eval un bin val (uexpr (unit_at units n)) st'.

(** A run: an assignment that is no unit stores the array of variable [pick i], side effects do [mut]. *)
Section Go.
Context {C : Type} (un : nat -> C -> C) (bin : nat -> C -> C -> C) (val : nat -> state C -> C) (g : graph) (items : nat -> list item).
Context (effect : nat -> bool) (units : list nunit) (deleted : list nat) (pick : nat -> nat) (mut : (nat -> C) -> nat -> C).
Definition put {A} (f : nat -> A) (x : nat) (a : A) : nat -> A := fun y => if Nat.eqb y x then a else f y.
Definition go (v : item) (s : state C) : state C :=
  match ikind v with
  | KDef x a =>
      match find (fun u => match a with Some a => Nat.eqb a (root (uexpr u)) | None => false end) units with
      | Some u => State (put (env s) x (top s)) (put (heap s) (top s) (eval un bin val (uexpr u) s)) (S (top s))
      | None => State (put (env s) x (env s (pick (iid v)))) (heap s) (top s)
      end
  | _ => if effect (iid v) then State (env s) (mut (heap s)) (top s) else s
  end.
Lemma go_step v s : allocated s -> step un bin val g items effect units v s (go v s).
Proof.
  intros A. unfold go.
  assert (O : (forall x, ~ assigns x v) -> step un bin val g items effect units v s (if effect (iid v) then State (env s) (mut (heap s)) (top s) else s)).
  { intros N. destruct (effect (iid v)) eqn:E; [apply s_effect|apply s_pure]; auto. split; auto. }
  destruct (ikind v) as [x a| | |] eqn:K; try (apply O; intros y [b Y]; congruence).
  destruct (find _ units) as [u|] eqn:F.
  - apply find_some in F. destruct F as [F E]. destruct a as [a|]; [|discriminate]. apply Nat.eqb_eq in E. subst a. eapply s_unit; eauto; cbn; unfold put.
    + now rewrite Nat.eqb_refl.
    + intros y NE. apply Nat.eqb_neq in NE. now rewrite NE.
    + split; cbn; [lia|]. intros l L. replace (Nat.eqb l (top s)) with false; auto. symmetry. apply Nat.eqb_neq. lia.
    + now rewrite Nat.eqb_refl.
  - eapply s_def; eauto; cbn; unfold put.
    + intros u I ->. apply (find_none _ _ F) in I. rewrite Nat.eqb_refl in I. discriminate.
    + rewrite Nat.eqb_refl. apply A.
    + intros y NE. apply Nat.eqb_neq in NE. now rewrite NE.
    + split; auto.
Qed.
Fixpoint gos (l : list item) (s : state C) (f : nat -> nat) : state C * (nat -> nat) :=
  match l with [] => (s, f) | v :: l => gos l (go v s) (follow g items deleted v (go v s) f) end.
Lemma gos_both l : forall s f, allocated s -> both un bin val g items effect units deleted l s f (fst (gos l s f)) (snd (gos l s f)).
Proof.
  induction l as [|v l IH]; intros s f A; cbn; [constructor|]. econstructor; [now apply go_step|]. apply IH. eapply step_allocated; [exact A|now apply go_step].
Qed.
End Go.

(** Arguments a, b, c (0, 1, 2) with one-element arrays 1, 2, 4; operation 0 is addition, 1 multiplication. *)
Definition fargs : list (nat * nat * nat) := [(1, 0, 101); (2, 1, 102); (3, 2, 103)].
Definition fun1 (op x : nat) : nat := x.
Definition fbin (op x y : nat) : nat := match op with 0 => x + y | _ => x * y end.
Definition fval (i : nat) (s : state nat) : nat := 5.
Definition fpick (i : nat) : nat := match i with 1 => 0 | 2 => 1 | 3 => 2 | _ => 1 end.
Definition fmut (h : nat -> nat) : nat -> nat := put h 0 7.
Definition fst0 : state nat := State (fun x => if Nat.ltb x 3 then x else 0) (fun l => match l with 0 => 1 | 1 => 2 | _ => 4 end) 3.
Lemma fst0_allocated : allocated fst0.
Proof. intros x. cbn -[Nat.ltb]. destruct (Nat.ltb_spec x 3); lia. Qed.
Lemma miscompiled_intro body effect units n ins e l1 r l2 o :
  let g := graph_of (func fargs body) in let items := its (func fargs body) in
  nodupb (ids fargs body) = true -> ok [] false [] body = true -> analyze g items = Ok ins -> result g items ins effect units n = Some e ->
  exec body (l1 ++ r :: l2) o -> iid r = root (uexpr (unit_at units n)) ->
  (let t := gos fun1 fbin fval g items effect units (all_deleted g items ins effect units) fpick fmut (arguments fargs ++ l1) fst0 (env fst0) in
   Nat.eqb (eval fun1 fbin fval e (State (snd t) (heap (fst t)) (top (fst t)))) (eval fun1 fbin fval (uexpr (unit_at units n)) (fst t)) = false) ->
  miscompiled fargs body effect units n.
Proof.
  intros g items A B D E F G H. split; [now apply nodupb_ok|]. split; auto.
  exists fun1, fbin, fval, ins, e, l1, r, l2, o, fst0, (fst (gos fun1 fbin fval g items effect units (all_deleted g items ins effect units) fpick fmut (arguments fargs ++ l1) fst0 (env fst0))),
    (snd (gos fun1 fbin fval g items effect units (all_deleted g items ins effect units) fpick fmut (arguments fargs ++ l1) fst0 (env fst0))).
  split; [exact D|]. split; [exact E|]. split; [exact F|]. split; [exact G|]. split; [apply fst0_allocated|]. split; [apply gos_both, fst0_allocated|]. now apply Nat.eqb_neq.
Qed.
Definition ab : node := Op 11 [Leaf 12 (LRead 0); Leaf 13 (LRead 1)].
Definition unit_ab : nunit := NUnit (NBin 11 0 (NLeaf 12 (VarLeaf 0)) (NLeaf 13 (VarLeaf 1))) (Some (10, 3)).
Ltac op2 := apply x_op; [eapply xs_cons; [apply x_leaf|eapply xs_cons; [apply x_leaf|apply xs_nil]]|now left].
Ltac asop := apply x_assign; [op2|now left].

(** x = a + b
    if c: a = b
    return x * a            b and not the old a is added *)
Theorem C70_other_block_assign_refuted : miscompiled fargs
  (Series [Assign 10 3 ab; If (Leaf 14 (LRead 2)) (Assign 15 0 (Leaf 16 (LRead 1))) None; Return 20 (Some (Op 21 [Leaf 22 (LRead 3); Leaf 23 (LRead 0)]))])
  (fun _ => false) [unit_ab; NUnit (NBin 21 1 (NLeaf 22 (VarLeaf 3)) (NLeaf 23 (VarLeaf 0))) None] 1.
Proof.
  eapply (miscompiled_intro _ _ _ _ _ _ [Item 12 (KUse 0); Item 13 (KUse 1); Item 11 KOther; Item 10 (KDef 3 (Some 11)); Item 14 (KUse 2); Item 16 (KUse 1); Item 15 (KDef 0 (Some 16)); Item 22 (KUse 3); Item 23 (KUse 0)] (Item 21 KOther) [Item 20 KOther] End);
    [reflexivity|reflexivity|vm_compute; reflexivity|vm_compute; reflexivity| |reflexivity|vm_compute; reflexivity].
  eapply exec_eq. apply x_series. seqs; [asop|]. seqs; [eapply x_if_true; [apply x_leaf|asg]|]. eapply xs_stop; [|discriminate]. apply x_return_value. op2. reflexivity.
Qed.
(** x = a + b
    if c: g(a)              changes the array
    return x * c *)
Theorem C70_other_block_effect_refuted : miscompiled fargs
  (Series [Assign 10 3 ab; If (Leaf 14 (LRead 2)) (Op 15 [Leaf 16 (LRead 0)]) None; Return 20 (Some (Op 21 [Leaf 22 (LRead 3); Leaf 23 (LRead 2)]))])
  (fun i => Nat.eqb i 15) [unit_ab; NUnit (NBin 21 1 (NLeaf 22 (VarLeaf 3)) (NLeaf 23 (VarLeaf 2))) None] 1.
Proof.
  eapply (miscompiled_intro _ _ _ _ _ _ [Item 12 (KUse 0); Item 13 (KUse 1); Item 11 KOther; Item 10 (KDef 3 (Some 11)); Item 14 (KUse 2); Item 16 (KUse 0); Item 15 KOther; Item 22 (KUse 3); Item 23 (KUse 2)] (Item 21 KOther) [Item 20 KOther] End);
    [reflexivity|reflexivity|vm_compute; reflexivity|vm_compute; reflexivity| |reflexivity|vm_compute; reflexivity].
  eapply exec_eq. apply x_series. seqs; [asop|]. seqs; [eapply x_if_true; [apply x_leaf|apply x_op; [lastd; apply x_leaf|now left]]|]. eapply xs_stop; [|discriminate]. apply x_return_value. op2. reflexivity.
Qed.
(** x = a + b; y = x * c; a = b
    return y + b            all in one block *)
Theorem C70_chain_refuted : miscompiled fargs
  (Series [Assign 10 3 ab; Assign 14 4 (Op 15 [Leaf 16 (LRead 3); Leaf 17 (LRead 2)]); Assign 18 0 (Leaf 19 (LRead 1)); Return 20 (Some (Op 21 [Leaf 22 (LRead 4); Leaf 23 (LRead 1)]))])
  (fun _ => false) [unit_ab; NUnit (NBin 15 1 (NLeaf 16 (VarLeaf 3)) (NLeaf 17 (VarLeaf 2))) (Some (14, 4)); NUnit (NBin 21 0 (NLeaf 22 (VarLeaf 4)) (NLeaf 23 (VarLeaf 1))) None] 2.
Proof.
  eapply (miscompiled_intro _ _ _ _ _ _ [Item 12 (KUse 0); Item 13 (KUse 1); Item 11 KOther; Item 10 (KDef 3 (Some 11)); Item 16 (KUse 3); Item 17 (KUse 2); Item 15 KOther; Item 14 (KDef 4 (Some 15)); Item 19 (KUse 1); Item 18 (KDef 0 (Some 19)); Item 22 (KUse 4); Item 23 (KUse 1)] (Item 21 KOther) [Item 20 KOther] End);
    [reflexivity|reflexivity|vm_compute; reflexivity|vm_compute; reflexivity| |reflexivity|vm_compute; reflexivity].
  eapply exec_eq. apply x_series. seqs; [asop|]. seqs; [asop|]. seqs; [asg|]. eapply xs_stop; [|discriminate]. apply x_return_value. op2. reflexivity.
Qed.
(** x = a + b
    return x * g(a)         g changes its argument *)
Theorem C70_later_leaf_refuted : miscompiled fargs
  (Series [Assign 10 3 ab; Return 20 (Some (Op 21 [Leaf 22 (LRead 3); Op 23 [Leaf 24 (LRead 0)]]))])
  (fun i => Nat.eqb i 23) [unit_ab; NUnit (NBin 21 1 (NLeaf 22 (VarLeaf 3)) (NLeaf 23 (ValLeaf [0]))) None] 1.
Proof.
  eapply (miscompiled_intro _ _ _ _ _ _ [Item 12 (KUse 0); Item 13 (KUse 1); Item 11 KOther; Item 10 (KDef 3 (Some 11)); Item 22 (KUse 3); Item 24 (KUse 0); Item 23 KOther] (Item 21 KOther) [Item 20 KOther] End);
    [reflexivity|reflexivity|vm_compute; reflexivity|vm_compute; reflexivity| |reflexivity|vm_compute; reflexivity].
  eapply exec_eq. apply x_series. seqs; [asop|]. eapply xs_stop; [|discriminate]. apply x_return_value. apply x_op; [|now left].
  seqs; [apply x_leaf|]. lastd. apply x_op; [lastd; apply x_leaf|now left]. reflexivity.
Qed.

(** x = a + b; d = c
    return x * d            is evaluated as (a + b) * d: the theorem applies, with any operations *)
Definition ok_body : node := Series [Assign 10 3 ab; Assign 14 4 (Leaf 15 (LRead 2)); Return 20 (Some (Op 21 [Leaf 22 (LRead 3); Leaf 23 (LRead 4)]))].
Definition ok_units : list nunit := [unit_ab; NUnit (NBin 21 1 (NLeaf 22 (VarLeaf 3)) (NLeaf 23 (VarLeaf 4))) None].
Definition ok_graph := graph_of (func fargs ok_body).
Definition ok_items := its (func fargs ok_body).
Definition ok_pre : list item := arguments fargs ++ [Item 12 (KUse 0); Item 13 (KUse 1); Item 11 KOther; Item 10 (KDef 3 (Some 11)); Item 15 (KUse 2); Item 14 (KDef 4 (Some 15)); Item 22 (KUse 3); Item 23 (KUse 4)].
Example C70_applies : exists ins b post, analyze ok_graph ok_items = Ok ins /\ ok_items b = ok_pre ++ Item 21 KOther :: post /\
  result ok_graph ok_items ins (fun _ => false) ok_units 1 = Some (NBin 21 1 (uexpr unit_ab) (NLeaf 23 (VarLeaf 4))) /\
  deletes ok_graph ok_items (fun _ => false) ok_units ins 1 = [10] /\
  forall C un bin val (st st' : state C) f, allocated st -> both un bin val ok_graph ok_items (fun _ => false) ok_units [10] ok_pre st (env st) st' f ->
  eval un bin val (NBin 21 1 (uexpr unit_ab) (NLeaf 23 (VarLeaf 4))) (State f (heap st') (top st')) = eval un bin val (uexpr (unit_at ok_units 1)) st'.
Proof.
  assert (ND : NoDup (ids fargs ok_body)) by (apply nodupb_ok; reflexivity).
  destruct (analyze ok_graph ok_items) as [ins| | |] eqn:E; [|vm_compute in E; discriminate..].
  assert (INS := E). vm_compute in E. injection E as <-.
  eexists. exists 0. eexists. split; [reflexivity|]. split; [vm_compute; reflexivity|]. split; [vm_compute; reflexivity|]. split; [vm_compute; reflexivity|].
  intros C un bin val st st' f A B.
  match type of INS with _ = Ok ?I => set (ins := I) in * end.
  assert (RW : forall k, k = 0 \/ k = 1 \/ unit_at ok_units k = NUnit (NLeaf 0 (ValLeaf [])) None).
  { intros [|[|k]]; auto. right. right. unfold unit_at. destruct k; reflexivity. }
  assert (FT : forall i x k, forwarded_to ok_graph ok_items (fun _ => false) ok_units ins 1 i x k -> i = 22 /\ x = 3 /\ k = 0).
  { intros i x k [[I|[I|[]]] K]; injection I as <- <-; vm_compute in K; intuition lia. }
  replace (NBin 21 1 (uexpr unit_ab) (NLeaf 23 (VarLeaf 4))) with (forwarded ok_graph ok_items ins (fun _ => false) ok_units (length ok_units) 1) by (vm_compute; reflexivity).
  eapply (C70_forward_value_partial ok_graph ok_items (fun _ => false) ok_units (C37_graph_well_formed _ _) (nodup_items _ _ ND)) with (n := 1) (b := 0) (pre := ok_pre) (r := Item 21 KOther) (post := [Item 20 KOther]) (st := st).
  - intros k i x U. destruct (RW k) as [->|[->|R]]; [|discriminate|rewrite R in U; discriminate]. injection U as <- <-. exists 0, (Item 10 (KDef 3 (Some 11))). vm_compute. intuition.
  - intros b c v w x y a HB HC I J K1 K2. assert (b = 0 /\ c = 0) as [-> ->] by (cbn in HB, HC; lia). clear HB HC. vm_compute in I, J.
    repeat (destruct I as [<-|I]; [try discriminate K1; repeat (destruct J as [<-|J]; [try discriminate K2; try reflexivity; cbn in K1, K2; congruence|]); destruct J|]). destruct I.
  - intros u i vs [<-|[<-|[]]] J; cbn in J; intuition discriminate.
  - reflexivity.
  - intros u w [<-|[<-|[]]] [<-|[<-|[]]]; cbn; congruence.
  - exact INS.
  - cbn. lia.
  - cbn. lia.
  - vm_compute. reflexivity.
  - intros i x k F. destruct (FT i x k F) as (-> & -> & ->). split; [|split; [|split]].
    + intros i x [I|[I|[]]]; injection I as <- <-; vm_compute; reflexivity.
    + intros j c [J|[J|[]]]; injection J as <- <-; cbn; intuition congruence.
    + intros i' x' k' F' NE. destruct (FT i' x' k' F') as (_ & _ & ->). congruence.
    + exists (arguments fargs ++ [Item 12 (KUse 0); Item 13 (KUse 1); Item 11 KOther]), (Item 10 (KDef 3 (Some 11))), [Item 15 (KUse 2); Item 14 (KDef 4 (Some 15))], (Item 22 (KUse 3)), [Item 23 (KUse 4)].
      repeat (split; [reflexivity|]). constructor; auto. split; auto. intros y [a Y]. discriminate.
  - exact A.
  - replace (deletes ok_graph ok_items (fun _ => false) ok_units ins 1) with [10] by (vm_compute; reflexivity). exact B.
Qed.
Print Assumptions C70_forward_variable.
Print Assumptions C70_forward_no_effects.
Print Assumptions C70_forward_value_partial.
Print Assumptions C70_other_block_assign_refuted.
Print Assumptions C70_other_block_effect_refuted.
Print Assumptions C70_chain_refuted.
Print Assumptions C70_later_leaf_refuted.
