(** Every run of a function is covered by its graph: see [covx]. *)
From Coq Require Import List Bool Arith Lia Permutation.
From Verif.Flow Require Import Graph Reach ReachProofs Cfg CfgSpec CfgFrame.
Import ListNotations.

(** ** Trees without assignments, and without branches *)
Definition nodef (v : item) : Prop := forall x, kills x v = false.
Lemma nodef_other i : nodef (Item i KOther). Proof. intros x; reflexivity. Qed.
Lemma nodef_leaf i k : nodef (Item i (leaf_kind k)). Proof. intros x; destruct k; reflexivity. Qed.

Definition nd (s s' : st) : Prop := forall b v, In v (its s' b) -> In v (its s b) \/ nodef v.
Lemma nd_refl s : nd s s. Proof. intros b v H; auto. Qed.
Lemma nd_trans s s1 s2 : nd s s1 -> nd s1 s2 -> nd s s2.
Proof. intros A B b v H. destruct (B b v H) as [H1|]; auto. Qed.
Lemma nd_newb s s' : nd s s' -> nd s (newb s').
Proof. intros A b v H. cbn in H. unfold put in H. destruct (Nat.eqb b (sz s')); [destruct H|auto]. Qed.
Lemma nd_goto c s s' : nd s s' -> nd s (goto c s'). Proof. auto. Qed.
Lemma nd_newc s s' : nd s s' -> nd s (newc s'). Proof. intros; now apply nd_goto, nd_newb. Qed.
Lemma nd_edge b c s s' : nd s s' -> nd s (edge b c s'). Proof. auto. Qed.
Lemma nd_push b v s s' : nd s s' -> nodef v -> nd s (pushb b v s').
Proof.
  intros A N c w H. cbn in H. unfold put in H. destruct (Nat.eqb_spec c b) as [->|]; auto. apply in_app_iff in H. destruct H as [H|[<-|[]]]; auto.
Qed.
Lemma nd_insert tc v s s' : nd s s' -> nodef v -> nd s (insert tc v s').
Proof. intros A N. unfold insert. destruct tc as [|[r f] tc]; cbv zeta; apply nd_push; auto. now apply nd_edge, nd_edge, nd_newc. Qed.
Lemma nd_edge_opt b c s s' : nd s s' -> nd s (edge_opt b c s'). Proof. destruct c; auto. Qed.
Lemma nd_jump tc cf d s s' : nd s s' -> nd s (jump tc cf d s').
Proof. intros A. unfold jump. destruct (_ <=? _); [now apply nd_edge_opt|]. destruct nearestFinally; [|now apply nd_edge_opt]. apply nd_edge_opt. destruct tc as [|[r f] tc]; auto. Qed.
Lemma nd_fold lp tc l : Forall (fun e => nodefs e = true -> forall lp tc s, nd s (build e lp tc s)) l -> forallb nodefs l = true ->
  forall s, nd s (fold_left (fun s a => build a lp tc s) l s).
Proof.
  induction 1 as [|e l H _ IH]; intros B s; cbn; [apply nd_refl|]. cbn in B. apply andb_prop in B. destruct B as [B1 B2]. eapply nd_trans; [apply H; auto|auto].
Qed.
Ltac ndstep :=
  match goal with
  | |- nd ?s ?s => apply nd_refl
  | |- nd _ (newb _) => apply nd_newb
  | |- nd _ (newc _) => apply nd_newc
  | |- nd _ (goto _ _) => apply nd_goto
  | |- nd _ (edge _ _ _) => apply nd_edge
  | |- nd _ (pushb _ _ _) => apply nd_push
  | |- nd _ (insert _ _ _) => apply nd_insert
  | |- nd _ (jump _ _ _ _) => apply nd_jump
  | |- nodef _ => first [apply nodef_other|apply nodef_leaf]
  | H : forall lp tc s, nd s (build ?e lp tc s) |- nd _ (build ?e ?lp ?tc ?s) => eapply nd_trans; [|apply (H lp tc s)]
  end.
Ltac bsplit := repeat match goal with H : _ && _ = true |- _ => apply andb_prop in H; destruct H end.
Lemma build_nd e : nodefs e = true -> forall lp tc s, nd s (build e lp tc s).
Proof.
  induction e using node_ind'; intros N lp tc s; cbn [nodefs] in N; try discriminate; bsplit; cbn [build]; cbv zeta.
  - repeat ndstep.
  - apply nd_insert; [|apply nodef_other]. now apply nd_fold.
  - now apply nd_fold.
  - destruct b as [b|]; cbn [Po ob] in *; repeat (match goal with H : ?b = true -> _, K : ?b = true |- _ => specialize (H K) end); repeat ndstep.
  - repeat (match goal with H : ?b = true -> _, K : ?b = true |- _ => specialize (H K) end); repeat ndstep.
  - repeat (match goal with H : ?b = true -> _, K : ?b = true |- _ => specialize (H K) end); repeat ndstep.
  - destruct (findLoop lp l); repeat ndstep.
  - destruct (findLoop lp l); repeat ndstep.
  - destruct v as [v|]; cbn [Po ob] in *; repeat (match goal with H : ?b = true -> _, K : ?b = true |- _ => specialize (H K) end); repeat ndstep.
  - destruct v as [v|]; cbn [Po ob] in *; repeat (match goal with H : ?b = true -> _, K : ?b = true |- _ => specialize (H K) end); repeat ndstep.
Qed.

Scheme exec_m := Minimality for exec Sort Prop with execs_m := Minimality for execs Sort Prop with whiles_m := Minimality for whiles Sort Prop
  with turns_m := Minimality for turns Sort Prop with tries_m := Minimality for tries Sort Prop.
Combined Scheme exec_mut from exec_m, execs_m, whiles_m, turns_m, tries_m.

Lemma exec_nd :
  (forall e l o, exec e l o -> nodefs e = true -> Forall nodef l) /\
  (forall es l o, execs es l o -> forallb nodefs es = true -> Forall nodef l) /\
  (forall lid c b l o, whiles lid c b l o -> nodefs c = true -> nodefs b = true -> Forall nodef l) /\
  (forall lid pre r b l o, turns lid pre r b l o -> Forall nodef pre -> nodefs b = true -> Forall nodef l) /\
  (forall b cs el l o, tries b cs el l o -> True).
Proof.
  apply exec_mut; intros; auto; cbn [nodefs forallb ob] in *; try discriminate; bsplit; repeat (apply Forall_app; split); auto;
    try (repeat constructor; first [apply nodef_other|apply nodef_leaf]).
Qed.

Lemma straight_insert v s : cur (insert [] v s) = cur s. Proof. reflexivity. Qed.
Lemma straight_fold lp l : Forall (fun e => straight e = true -> forall lp s, cur (build e lp [] s) = cur s) l -> forallb straight l = true ->
  forall s, cur (fold_left (fun s a => build a lp [] s) l s) = cur s.
Proof.
  induction 1 as [|e l H _ IH]; intros B s; cbn; auto. cbn in B. apply andb_prop in B. destruct B. rewrite IH; auto.
Qed.
Lemma straight_cur e : straight e = true -> forall lp s, cur (build e lp [] s) = cur s.
Proof.
  induction e using node_ind'; intros N lp s; cbn [straight] in N; try discriminate; bsplit; cbn [build]; cbv zeta; rewrite ?straight_insert; auto.
  - now apply straight_fold.
  - now apply straight_fold.
  - destruct v as [v|]; cbn in *; auto.
  - destruct v as [v|]; cbn in *; auto.
Qed.

Section Cover.
Context (G : graph) (I : nat -> list item).

(** The last assignment of [x] in the run [hist] also comes last on some path to the point after [pre] in block [b]; or
    an assignment of an unknown value does. *)
Definition unknown (d : item) : Prop := exists y, ikind d = KDef y None.
Definition covx (x b : nat) (pre hist : list item) : Prop :=
  forall d, lastdef x hist = Some d -> exists s h d', s < size G /\ trace G s h b /\ lastdef x (ran I h ++ pre) = Some d' /\ (d' = d \/ unknown d').
Definition cov (X : list nat) (b : nat) (pre hist : list item) : Prop := forall x, ~ In x X -> covx x b pre hist.

Lemma lastdef_snoc x l v : lastdef x (l ++ [v]) = if kills x v then Some v else lastdef x l.
Proof. rewrite lastdef_app, lastdef_cons. cbn. destruct (kills x v); auto. Qed.
Lemma covx_item x b pre hist v : covx x b pre hist -> (kills x v = true -> exists s h, s < size G /\ trace G s h b) -> covx x b (pre ++ [v]) (hist ++ [v]).
Proof.
  intros C T d. rewrite lastdef_snoc. destruct (kills x v) eqn:K.
  - intros E; injection E as <-. destruct (T eq_refl) as (s & h & HS & HT). exists s, h, v. rewrite app_assoc, lastdef_snoc, K. auto.
  - intros E. destruct (C d E) as (s & h & d' & HS & HT & L & R). exists s, h, d'. rewrite app_assoc, lastdef_snoc, K. auto.
Qed.
Lemma lastdef_nodefs x l m : Forall nodef m -> lastdef x (l ++ m) = lastdef x l.
Proof. intros F. rewrite lastdef_app. replace (lastdef x m) with (@None item); auto. symmetry. apply lastdef_none. rewrite Forall_forall in F. intros v H. now apply F. Qed.
Lemma covx_nodef x b pre hist m n : covx x b pre hist -> Forall nodef m -> Forall nodef n -> covx x b (pre ++ m) (hist ++ n).
Proof.
  intros C F F' d. rewrite lastdef_nodefs by auto. intros E. destruct (C d E) as (s & h & d' & HS & HT & L & R). exists s, h, d'. rewrite app_assoc, lastdef_nodefs by auto. auto.
Qed.
Lemma covx_edge x b c hist : covx x b (I b) hist -> In c (succs G b) -> covx x c [] hist.
Proof.
  intros C E d L. destruct (C d L) as (s & h & d' & HS & HT & L' & R). exists s, (b :: h), d'. rewrite app_nil_r, ran_cons. split; auto. split; auto. econstructor; eauto.
Qed.
Lemma cov_edge X b c pre hist : cov X b pre hist -> I b = pre -> In c (succs G b) -> cov X c [] hist.
Proof. intros C <- E x HX. eapply covx_edge; eauto. Qed.
Lemma cov_nodef X b pre hist m n : cov X b pre hist -> Forall nodef m -> Forall nodef n -> cov X b (pre ++ m) (hist ++ n).
Proof. intros C F F' x HX. apply covx_nodef; auto. Qed.
(** a block in the graph is on a path: the one that starts there *)
Lemma cov_item X b pre hist v : cov X b pre hist -> b < size G -> cov X b (pre ++ [v]) (hist ++ [v]).
Proof. intros C HB x HX. apply covx_item; auto. intros _. exists b, []. split; auto. constructor. Qed.

Record done (s s' : st) (dg : bool) : Prop := {
  d_sz : sz s' <= size G;
  d_its : forall b, b = cur s \/ sz s <= b -> b < sz s' -> (b = cur s' -> dg = true) -> I b = its s' b;
  d_cur : exists m, I (cur s') = its s' (cur s') ++ m;
  d_suc : forall b c, b < sz s' -> In c (suc s' b) -> In c (succs G b) }.
Lemma done_weak s s' dg : done s s' true -> done s s' dg.
Proof. intros [A B C D]. split; auto. Qed.
Lemma done_sub O s s' sa sb dg dg' : done s s' dg -> grow O sb s' -> cur sb < sz sb -> cur sb = cur sa \/ sz sa <= cur sb ->
  cur sa = cur s \/ sz s <= cur sa -> sz s <= sz sa ->
  (forall b, b = cur sa \/ sz sa <= b -> b < sz sb -> (b = cur sb -> dg' = true) -> ~ O b) ->
  (forall b, b = cur sa \/ sz sa <= b -> b < sz sb -> (b = cur sb -> dg' = true) -> b = cur s' -> dg = true) ->
  done sa sb dg'.
Proof.
  intros [A B C D] Gr C1 C2 C3 S1 H1 H2. pose proof (g_sz _ _ _ Gr). split.
  - lia.
  - intros b Hb Lb Eb. rewrite B; [apply (g_its _ _ _ Gr); auto| | |eauto]; lia.
  - destruct (g_pre _ _ _ Gr (cur sb) C1) as [m E]. destruct (Nat.eq_dec (cur sb) (cur s')) as [Q|Q].
    + destruct C as [m' C]. exists (m ++ m'). rewrite Q, C. rewrite Q in E. now rewrite E, app_assoc.
    + exists m. rewrite B; [exact E|lia|lia|contradiction].
  - intros b c Lb Hc. apply D; [lia|]. apply (g_suc _ _ _ Gr); auto.
Qed.
Lemma done_edge O s s' sk dg b c : done s s' dg -> grow O sk s' -> b < sz sk -> In c (suc sk b) -> In c (succs G b).
Proof. intros D Gr L H. apply (d_suc _ _ _ D); [pose proof (g_sz _ _ _ Gr); lia|]. apply (g_suc _ _ _ Gr); auto. Qed.

(** ** The stacks *)
Fixpoint tc_ok (tc : tcs) : Prop :=
  match tc with
  | [] => True
  | (r, Some f) :: t => t = [] /\ In f (succs G r) /\ I r = []
  | (r, None) :: t => I r = [] /\ tc_ok t /\ match t with (r2, _) :: _ => In r2 (succs G r) | [] => True end
  end.
Record ctx (lids : list nat) (lp : list loopb) (tc : tcs) (n : nat) : Prop := {
  c_lids : map lid lp = lids;
  c_depth : Forall (fun e => depth e <= length tc) lp;
  c_tc : tc_ok tc;
  c_fin : forall r f, In (r, Some f) tc -> f < n }.
Lemma ctx_mono lids lp tc n m : ctx lids lp tc n -> n <= m -> ctx lids lp tc m.
Proof. intros [A B C D] L. split; auto. intros r f H. specialize (D r f H). lia. Qed.
Definition intry (tc : tcs) : bool := match tc with [] => false | _ => true end.

Definition jumps_to (X : list nat) (tc : tcs) (cf dp : nat) (hist : list item) : Prop :=
  match nearestFinally (rev (firstn (length tc - dp) tc)) with
  | Some f => In cf (succs G f) /\ match tc with (r, _) :: _ => cov X r [] hist | [] => False end
  | None => cov X cf [] hist
  end.
Definition post (X : list nat) (lp : list loopb) (tc : tcs) (N : Prop) (hist : list item) (o : outcome) : Prop :=
  match o with
  | Norm => N
  | Brk t => exists e, findLoop lp t = Some e /\ jumps_to X tc (fini e) (depth e) hist
  | Cnt t => exists e, findLoop lp t = Some e /\ jumps_to X tc (next e) (depth e) hist
  | End | Exc => match tc with (r, _) :: _ => cov X r [] hist | [] => True end
  | Part => True
  end.
Lemma post_stop X lp tc N N' hist o : post X lp tc N hist o -> o <> Norm -> post X lp tc N' hist o.
Proof. destruct o; auto. contradiction. Qed.
Definition locd (hist l : list item) : Prop :=
  forall l1 v l2 x, l = l1 ++ v :: l2 -> ikind v = KUse x -> exists b pre suf, b < size G /\ I b = pre ++ v :: suf /\ covx x b pre (hist ++ l1).
Lemma locd_nil hist : locd hist [].
Proof. intros l1 v l2 x H. destruct l1; discriminate. Qed.
Lemma locd_app hist l m : locd hist l -> locd (hist ++ l) m -> locd hist (l ++ m).
Proof.
  intros A B l1 v l2 x H K. destruct (le_lt_dec (length l) (length l1)) as [L|L].
  - assert (E : l1 = l ++ skipn (length l) l1).
    { rewrite <- (firstn_skipn (length l) l1) at 1. f_equal. assert (F : firstn (length l) (l ++ m) = firstn (length l) (l1 ++ v :: l2)) by now rewrite H.
      rewrite !firstn_app, Nat.sub_diag, firstn_all in F. replace (length l - length l1) with 0 in F by lia. cbn in F. rewrite !app_nil_r in F. auto. }
    rewrite E in *. rewrite <- app_assoc in H. apply app_inv_head in H. destruct (B _ v l2 x H K) as (b & pre & suf & R). exists b, pre, suf. rewrite app_assoc. auto.
  - assert (E : l = l1 ++ v :: skipn (S (length l1)) l).
    { assert (F : firstn (length l) (l ++ m) = firstn (length l) (l1 ++ v :: l2)) by now rewrite H. rewrite !firstn_app, Nat.sub_diag, firstn_all in F. cbn in F. rewrite app_nil_r in F.
      rewrite firstn_all2 in F by lia. destruct (length l - length l1) as [|k] eqn:Q; [lia|]. cbn in F. rewrite F at 1. f_equal. f_equal.
      rewrite F. rewrite skipn_app. rewrite skipn_all2 by lia. replace (S (length l1) - length l1) with 1 by lia. reflexivity. }
    apply (A l1 v _ x E K).
Qed.
Lemma locd_one hist v : (forall x, ikind v = KUse x -> exists b pre suf, b < size G /\ I b = pre ++ v :: suf /\ covx x b pre hist) -> locd hist [v].
Proof.
  intros A l1 w l2 x H K. destruct l1 as [|u l1]; [|destruct l1; discriminate]. injection H as <- <-. destruct (A x K) as (b & pre & suf & R). exists b, pre, suf. now rewrite app_nil_r.
Qed.
Lemma locd_none hist l : (forall v x, In v l -> ikind v <> KUse x) -> locd hist l.
Proof. intros A l1 v l2 x -> K. exfalso. eapply A; eauto. apply in_or_app; cbn; auto. Qed.

Lemma insert_ok X lids lp tc v s hist dg : cur s < sz s -> done s (insert tc v s) dg -> (tc <> [] -> dg = true) -> ctx lids lp tc (sz s) ->
  cov X (cur s) (its s (cur s)) hist -> (forall x, ikind v = KUse x -> ~ In x X) ->
  locd hist [v] /\ cov X (cur (insert tc v s)) (its (insert tc v s) (cur (insert tc v s))) (hist ++ [v]) /\
  match tc with (r, _) :: _ => cov X r [] (hist ++ [v]) | [] => True end.
Proof.
  intros C D T Cx H K. unfold insert in *. destruct tc as [|[r f] tc]; cbv zeta in *.
  - csz. rewrite put_eq. pose proof (d_sz _ _ _ D) as Z. cbn in Z. split; [|split; auto].
    + apply locd_one. intros x E. destruct (d_cur _ _ _ D) as [m M]. cbn in M. rewrite put_eq in M. exists (cur s), (its s (cur s)), m. split; [lia|]. split; [now rewrite M, <- app_assoc|]. apply H; eauto.
    + apply cov_item; auto. lia.
  - specialize (T ltac:(discriminate)). subst dg. set (s' := pushb _ _ _) in *. pose proof (d_sz _ _ _ D) as Z. cbn in Z.
    assert (E1 : I (cur s) = its s (cur s)).
    { rewrite (d_its _ _ _ D); [|auto|cbn; lia|auto]. cbn. rewrite !put_ne by lia. auto. }
    assert (E2 : I (sz s) = [v]).
    { rewrite (d_its _ _ _ D); [|cbn; lia|cbn; lia|auto]. cbn. rewrite !put_eq. reflexivity. }
    assert (A1 : In (sz s) (succs G (cur s))).
    { apply (d_suc _ _ _ D); [cbn; lia|]. unfold s'. cbn [suc pushb]. apply edge_mono, edge_in. }
    assert (A2 : In r (succs G (sz s))).
    { apply (d_suc _ _ _ D); [cbn; lia|]. unfold s'. cbn [suc pushb]. apply edge_in. }
    assert (Cv : cov X (sz s) [] hist) by (eapply cov_edge; eauto). assert (Cv' : cov X (sz s) [v] (hist ++ [v])) by (apply (cov_item X (sz s) []); auto; lia).
    split; [|split].
    + apply locd_one. intros x E. exists (sz s), [], []. split; [lia|]. split; [exact E2|]. apply Cv; eauto.
    + unfold s'; cbn. rewrite !put_eq. cbn. exact Cv'.
    + eapply cov_edge; eauto.
Qed.

(** ** The claims, one for each part of the semantics *)
Definition result X lp tc (N : list item -> Prop) hist l o : Prop := locd hist l /\ post X lp tc (N (hist ++ l)) (hist ++ l) o.
Definition after X (s : st) : list item -> Prop := fun h => cov X (cur s) (its s (cur s)) h.
Definition claim (e : node) (l : list item) (o : outcome) : Prop := forall lids lp tc s X hist,
  cur s < sz s -> ok lids (intry tc) X e = true -> ctx lids lp tc (sz s) ->
  done s (build e lp tc s) (jumps e || intry tc) -> cov X (cur s) (its s (cur s)) hist ->
  result X lp tc (after X (build e lp tc s)) hist l o.
Definition claims (es : list node) (l : list item) (o : outcome) : Prop := forall lids lp tc s X hist,
  cur s < sz s -> forallb (ok lids (intry tc) X) es = true -> jumps_last es = true -> ctx lids lp tc (sz s) ->
  done s (fold_left (fun s a => build a lp tc s) es s) (existsb jumps es || intry tc) -> cov X (cur s) (its s (cur s)) hist ->
  result X lp tc (after X (fold_left (fun s a => build a lp tc s) es s)) hist l o.
Definition claimW (lid : nat) (c b : node) (l : list item) (o : outcome) : Prop := forall lids lp tc sc sb X hist fin,
  let lb := cur sc in let lp' := Lp lb fin lid (length tc) :: lp in
  let sc' := build c lp tc sc in let sb' := build b lp' tc sb in
  cur sc < sz sc -> cur sb < sz sb -> its sc lb = [] -> its sb (cur sb) = [] ->
  ok lids (intry tc) X c = true -> ok (lid :: lids) (intry tc) X b = true -> ~ In lid lids ->
  nodefs c = true \/ tc = [] /\ straight c = true -> ctx lids lp tc (sz sc) -> sz sc <= sz sb ->
  done sc sc' true -> done sb sb' true ->
  In fin (succs G (cur sc')) -> In (cur sb) (succs G lb) -> In lb (succs G (cur sb')) ->
  cov X lb [] hist -> result X lp tc (fun h => cov X fin [] h) hist l o.
Definition claimF (lid : nat) (pre : list item) (r : bool) (b : node) (l : list item) (o : outcome) : Prop := forall lids lp tc sb X hist ck fin,
  let lp' := Lp ck fin lid (length tc) :: lp in let sb' := build b lp' tc sb in
  cur sb < sz sb -> its sb (cur sb) = [] -> ok (lid :: lids) (intry tc) X b = true -> ~ In lid lids ->
  (tc <> [] -> r = false) -> ctx lids lp tc (sz sb) -> done sb sb' true ->
  I ck = [] -> In fin (succs G ck) -> In ck (succs G (cur sb')) ->
  (forall h, cov X ck [] h -> cov X (cur sb) [] (h ++ pre)) -> (forall v x, In v pre -> ikind v <> KUse x) ->
  cov X ck [] hist -> result X lp tc (fun h => cov X fin [] h) hist l o.
Definition claimT (b : node) (cs : list (option (nat * nat) * node)) (el : option node) (l : list item) (o : outcome) : Prop :=
  forall lids lp route f tc sb X hist dst,
  let tc' := (route, f) :: tc in let sb' := build b lp tc' sb in
  cur sb < sz sb -> ok lids true X b = true -> forallb (fun '(_, h) => ok lids true X h) cs = true -> ob (ok lids true X) el = true ->
  ctx lids lp tc' (sz sb) -> I route = [] -> done sb sb' true ->
  (forall k v h, nth_error cs k = Some (v, h) -> exists sh, cur sh < sz sh /\ sz sb <= sz sh /\ its sh (cur sh) = catch_items v /\
     done sh (build h lp tc' sh) true /\ In (cur sh) (succs G route) /\ In dst (succs G (cur (build h lp tc' sh)))) ->
  match el with
  | Some e => exists se, cur se < sz se /\ sz sb <= sz se /\ its se (cur se) = [] /\ In (cur se) (succs G (cur sb')) /\ 
      done se (build e lp tc' se) true /\ In dst (succs G (cur (build e lp tc' se)))
  | None => In dst (succs G (cur sb'))
  end ->
  cov X (cur sb) (its sb (cur sb)) hist -> result X lp tc' (fun h => cov X dst [] h) hist l o.

Lemma res_stop X lp tc N N' hist l o : result X lp tc N hist l o -> o <> Norm -> result X lp tc N' hist l o.
Proof. intros [A B] H. split; auto. eapply post_stop; eauto. Qed.
Lemma res_app X lp tc N hist l m o : locd hist l -> result X lp tc N (hist ++ l) m o -> result X lp tc N hist (l ++ m) o.
Proof. intros A [B C]. split; [now apply locd_app|]. now rewrite app_assoc. Qed.
Lemma res_norm X lp tc N hist l : result X lp tc N hist l Norm -> locd hist l /\ N (hist ++ l).
Proof. auto. Qed.
Lemma existsb_last_false : forall l, jumps_last l = true -> forall e es, l = e :: es -> es <> [] -> jumps e = false.
Proof. intros l H e es -> N. destruct es; [contradiction|]. cbn in H. apply andb_prop in H. destruct H as [H _]. now apply negb_true_iff in H. Qed.
Lemma insert_res X lids lp tc v s hist o dg : cur s < sz s -> done s (insert tc v s) dg -> (tc <> [] -> dg = true) -> ctx lids lp tc (sz s) ->
  cov X (cur s) (its s (cur s)) hist -> (forall x, ikind v = KUse x -> ~ In x X) -> ends o \/ o = End ->
  result X lp tc (after X (insert tc v s)) hist [v] o.
Proof.
  intros C D T Cx H K E. destruct (insert_ok X lids lp tc v s hist dg C D T Cx H K) as (A & B & F). split; auto. destruct E as [[->| ->]| ->]; auto.
Qed.
(** a node followed by an instruction of its own *)
Lemma then_insert X lids lp tc v s s1 hist l o : frame tc s s1 -> done s (insert tc v s1) (intry tc) -> ctx lids lp tc (sz s) ->
  result X lp tc (after X s1) hist l Norm -> (forall x, ikind v = KUse x -> ~ In x X) -> ends o \/ o = End ->
  result X lp tc (after X (insert tc v s1)) hist (l ++ [v]) o.
Proof.
  intros (Gr & C & D) Dn Cx R K E. apply res_norm in R. destruct R as [R1 R2]. apply res_app; auto. pose proof (g_sz _ _ _ Gr).
  destruct (insert_frame tc v s1 D) as (Gr' & C' & D'). eapply (insert_res X lids lp tc v s1 _ o (intry tc)); eauto.
  - eapply (done_sub (fun _ => False) s (insert tc v s1)); eauto using grow_refl; lia.
  - destruct tc; [contradiction|auto].
  - eapply ctx_mono; eauto.
Qed.
Lemma done_first tc v s s1 : frame tc s s1 -> done s (insert tc v s1) (intry tc) -> done s s1 (intry tc).
Proof.
  intros (Gr & C & D) Dn. destruct (insert_frame tc v s1 D) as (Gr' & C' & D'). eapply (done_sub (at_cur tc s1) s (insert tc v s1)); eauto.
  - intros b Hb Lb Eb (Ht & ->). subst tc. specialize (Eb eq_refl). discriminate.
  - intros b Hb Lb Eb Hc. destruct tc as [|p tc]; auto.
Qed.

(** ** What the construction of each compound node leaves in the graph *)
Ltac named :=
  csz; match goal with
  | |- context [build ?e ?lp ?tc ?S] =>
      lazymatch S with
      | context [build _ _ _ _] => fail
      | context [catches _ _ _ _ _] => fail
      | _ => idtac
      end;
      let C := fresh "C" in let D := fresh "D" in let Z := fresh "Z" in let s := fresh "s" in let Gr := fresh "Gr" in let E := fresh "E" in
      pose proof (build_frame e lp tc S ltac:(csz; lia)) as (Gr & C & D);
      remember (build e lp tc S) as s eqn:E in *; pose proof (g_sz _ _ _ Gr) as Z; csz
  end.
Ltac cj := repeat match goal with |- _ /\ _ => split end; try lia; auto.
(** solves [done] for a part and edges, from [done] of the whole *)
Ltac part Dn O := eapply (done_sub O _ _ _ _ _ _ Dn); [grows|csz; lia ..| |]; csz; intros; unfold none; lia.
Ltac empty sk := match goal with |- its ?t ?b = [] => transitivity (its sk b); [apply (g_its none sk t); [grows|csz; lia|unfold none; tauto]|csz; rewrite ?put_eq; reflexivity] end.
Ltac emptyo O sk := match goal with |- its ?t ?b = [] => transitivity (its sk b); [apply (g_its O sk t); [grows|csz; lia|lia]|csz; rewrite ?put_eq; reflexivity] end.
Ltac same sk := match goal with |- its ?t ?b = _ => transitivity (its sk b); [apply (g_its none sk t); [grows|csz; lia|unfold none; tauto]|csz; rewrite ?put_ne by lia; reflexivity] end.
Ltac link Dn sk := eapply (done_edge (fun _ => True) _ _ sk _ _ _ Dn); [repeat gstep; auto|csz; lia|].

Lemma if_parts lp tc s c a b dg : cur s < sz s -> done s (build (If c a b) lp tc s) dg ->
  let s1 := build c lp tc s in let s' := build (If c a b) lp tc s in
  done s s1 true /\ its s' (cur s') = [] /\
  (exists sa, cur sa < sz sa /\ sz s <= sz sa /\ its sa (cur sa) = [] /\ In (cur sa) (succs G (cur s1)) /\ done sa (build a lp tc sa) true /\ In (cur s') (succs G (cur (build a lp tc sa)))) /\
  match b with
  | Some b => exists sa, cur sa < sz sa /\ sz s <= sz sa /\ its sa (cur sa) = [] /\ In (cur sa) (succs G (cur s1)) /\ done sa (build b lp tc sa) true /\ In (cur s') (succs G (cur (build b lp tc sa)))
  | None => In (cur s') (succs G (cur s1))
  end.
Proof.
  intros C. cbn [build]. cbv zeta. destruct b as [b|].
  - named. named. named. intros Dn. split; [|split; [|split]].
    + part Dn none.
    + empty (newb s0).
    + exists (newc (newb s0)). rewrite <- E0. csz. rewrite put_eq. cj.
      * link Dn (edge (cur s0) (S (sz s0)) (edge (cur s2) (sz s0) s2)). apply edge_in.
      * part Dn none.
      * link Dn (edge (cur s1) (sz s0) s1). apply edge_in.
    + exists (newc (edge (cur s1) (sz s0) s1)). rewrite <- E1. csz. rewrite put_eq. cj.
      * link Dn (edge (cur s0) (sz s1) (edge (cur s0) (S (sz s0)) (edge (cur s2) (sz s0) s2))). apply edge_in.
      * part Dn none.
      * link Dn (edge (cur s2) (sz s0) s2). apply edge_in.
  - named. named. intros Dn. split; [|split; [|split]].
    + part Dn none.
    + empty (newb s0).
    + exists (newc (newb s0)). rewrite <- E0. csz. rewrite put_eq. cj.
      * link Dn (edge (cur s0) (S (sz s0)) (edge (cur s1) (sz s0) s1)). apply edge_in.
      * part Dn none.
      * link Dn (edge (cur s1) (sz s0) s1). apply edge_in.
    + link Dn (edge (cur s0) (sz s0) (edge (cur s0) (S (sz s0)) (edge (cur s1) (sz s0) s1))). apply edge_in.
Qed.

Lemma tern_parts lp tc s i c a b dg : cur s < sz s -> done s (build (Ternary i c a b) lp tc s) dg ->
  let s' := build (Ternary i c a b) lp tc s in
  exists sc, let s1 := build c lp tc sc in cur sc = cur s /\ cur sc < sz sc /\ sz s <= sz sc /\ its sc (cur sc) = its s (cur s) /\ done sc s1 true /\ its s' (cur s') = [Item i KOther] /\ cur s' < sz s' /\
  (exists sa, cur sa < sz sa /\ sz s <= sz sa /\ its sa (cur sa) = [] /\ In (cur sa) (succs G (cur s1)) /\ done sa (build a lp tc sa) true /\ In (cur s') (succs G (cur (build a lp tc sa)))) /\
  (exists sa, cur sa < sz sa /\ sz s <= sz sa /\ its sa (cur sa) = [] /\ In (cur sa) (succs G (cur s1)) /\ done sa (build b lp tc sa) true /\ In (cur s') (succs G (cur (build b lp tc sa)))).
Proof.
  intros C. cbn [build]. cbv zeta. named. named. named. intros Dn. exists (newb (newb (newb s))). rewrite <- E. csz. rewrite !put_ne by lia.
  split; auto. split; [lia|]. split; [lia|]. split; auto. split; [|split; [|split; [|split]]].
  - part Dn (fun x => x = sz s \/ x = S (sz s) \/ x = S (S (sz s))).
  - rewrite put_eq. assert (X : its s2 (sz s) = []) by (emptyo (fun x => x = cur s) (newb s)). now rewrite X.
  - lia.
  - exists (goto (S (sz s)) (edge (cur s0) (S (S (sz s))) (edge (cur s0) (S (sz s)) s0))). rewrite <- E0. csz.
    assert (X : its s0 (S (sz s)) = []) by (emptyo (fun x => x = cur s) (newb (newb s))). rewrite X. cj.
    + link Dn (edge (cur s0) (S (sz s)) s0). apply edge_in.
    + part Dn (fun x => x = sz s \/ x = S (S (sz s))).
    + link Dn (edge (cur s1) (sz s) s1). apply edge_in.
  - exists (goto (S (S (sz s))) (edge (cur s1) (sz s) s1)). rewrite <- E1. csz.
    assert (X : its s1 (S (S (sz s))) = []) by (emptyo (fun x => x = cur s \/ x = S (sz s)) (newb (newb (newb s)))). rewrite X. cj.
    + link Dn (edge (cur s0) (S (S (sz s))) (edge (cur s0) (S (sz s)) s0)). apply edge_in.
    + part Dn (fun x => x = sz s).
    + link Dn (edge (cur s2) (sz s) s2). apply edge_in.
Qed.

Lemma while_parts lp tc s lid c b dg : cur s < sz s -> done s (build (While lid c b) lp tc s) dg ->
  let s' := build (While lid c b) lp tc s in
  exists sc sb, let lp' := Lp (cur sc) (cur s') lid (length tc) :: lp in let sc' := build c lp tc sc in let sb' := build b lp' tc sb in
  I (cur s) = its s (cur s) /\ In (cur sc) (succs G (cur s)) /\ its s' (cur s') = [] /\
  cur sc < sz sc /\ cur sb < sz sb /\ sz s <= sz sc /\ sz sc <= sz sb /\ its sc (cur sc) = [] /\ its sb (cur sb) = [] /\ done sc sc' true /\ done sb sb' true /\
  In (cur s') (succs G (cur sc')) /\ In (cur sb) (succs G (cur sc)) /\ In (cur sc) (succs G (cur sb')).
Proof.
  intros C. cbn [build]. cbv zeta. named. named. intros Dn. exists (edge (cur s) (S (sz s)) (newc (newb s))), (edge (S (sz s)) (sz s0) (newc (edge (cur s0) (sz s) s0))).
  csz. rewrite <- E. rewrite <- E0. csz. rewrite !put_eq. split; [|split; [|split]].
  - rewrite (d_its _ _ _ Dn) by (csz; lia). same (newb s).
  - link Dn (edge (cur s) (S (sz s)) (newc (newb s))). apply edge_in.
  - empty (newb s).
  - cj.
    + part Dn none.
    + part Dn none.
    + link Dn (edge (cur s0) (sz s) s0). apply edge_in.
    + link Dn (edge (S (sz s)) (sz s0) (newc (edge (cur s0) (sz s) s0))). apply edge_in.
    + link Dn (edge (cur s1) (S (sz s)) s1). apply edge_in.
Qed.

Lemma for_parts lp tc s lid i x r it b dg : cur s < sz s -> done s (build (For lid i x r it b) lp tc s) dg ->
  let s' := build (For lid i x r it b) lp tc s in
  exists si ck nx sb, let lp' := Lp ck (cur s') lid (length tc) :: lp in let si' := build it lp tc si in let sb' := build b lp' tc sb in
  I (cur s) = its s (cur s) /\ In (cur si) (succs G (cur s)) /\ its s' (cur s') = [] /\
  cur si < sz si /\ cur sb < sz sb /\ sz s <= sz si /\ sz s <= sz sb /\ its si (cur si) = [] /\ its sb (cur sb) = [] /\ done si si' true /\ done sb sb' true /\
  In ck (succs G (cur si')) /\ I ck = [] /\ In (cur s') (succs G ck) /\ In nx (succs G ck) /\ nx < size G /\ I nx = [Item i (KDef x None)] /\ In (cur sb) (succs G nx) /\ In ck (succs G (cur sb')).
Proof.
  intros C. cbn [build]. cbv zeta. named. named. intros Dn. pose proof (d_sz _ _ _ Dn) as DZ. csz.
  exists (edge (cur s) (S (sz s)) (newc (newb s))), (sz s0), (S (sz s0)), (edge (S (sz s0)) (S (S (sz s0))) (newc (pushb (S (sz s0)) (Item i (KDef x None)) (edge (sz s0) (S (sz s0)) (newb (edge (sz s0) (sz s) (edge (cur s0) (sz s0) (newb s0)))))))).
  csz. rewrite <- E. csz. rewrite <- E0. csz. rewrite !put_eq. split; [|split; [|split]].
  - rewrite (d_its _ _ _ Dn) by (csz; lia). same (newb s).
  - link Dn (edge (cur s) (S (sz s)) (newc (newb s))). apply edge_in.
  - empty (newb s).
  - cj.
    + part Dn none.
    + part Dn none.
    + link Dn (edge (cur s0) (sz s0) (newb s0)). apply edge_in.
    + rewrite (d_its _ _ _ Dn) by (csz; lia). empty (newb s0).
    + link Dn (edge (sz s0) (sz s) (edge (cur s0) (sz s0) (newb s0))). apply edge_in.
    + link Dn (edge (sz s0) (S (sz s0)) (newb (edge (sz s0) (sz s) (edge (cur s0) (sz s0) (newb s0))))). apply edge_in.
    + rewrite (d_its _ _ _ Dn) by (csz; lia).
      transitivity (its (pushb (S (sz s0)) (Item i (KDef x None)) (edge (sz s0) (S (sz s0)) (newb (edge (sz s0) (sz s) (edge (cur s0) (sz s0) (newb s0)))))) (S (sz s0))).
      * apply (g_its none); [grows|csz; lia|unfold none; tauto].
      * csz. rewrite put_eq, put_eq. reflexivity.
    + link Dn (edge (S (sz s0)) (S (S (sz s0))) (newc (pushb (S (sz s0)) (Item i (KDef x None)) (edge (sz s0) (S (sz s0)) (newb (edge (sz s0) (sz s) (edge (cur s0) (sz s0) (newb s0)))))))). apply edge_in.
    + link Dn (edge (cur s1) (sz s0) s1). apply edge_in.
Qed.

Lemma imp_parts lp tc s lid i j x a z b dg : cur s < sz s -> done s (build (ImpFor lid i j x a z b) lp tc s) dg ->
  let s' := build (ImpFor lid i j x a z b) lp tc s in
  exists sa ck nx sb, let lp' := Lp ck (cur s') lid (length tc) :: lp in let sa' := build a lp tc sa in let sz' := build z lp tc sa' in let sb' := build b lp' tc sb in
  I (cur s) = its s (cur s) /\ In (cur sa) (succs G (cur s)) /\ its s' (cur s') = [] /\
  cur sa < sz sa /\ cur sb < sz sb /\ sz s <= sz sa /\ sz s <= sz sb /\ its sa (cur sa) = [assign_item i x a] /\ its sb (cur sb) = [] /\
  done sa sa' (intry tc) /\ done sa' sz' true /\ done sb sb' true /\
  In ck (succs G (cur sz')) /\ I ck = [] /\ In (cur s') (succs G ck) /\ In ck (succs G nx) /\ nx < size G /\ I nx = [Item j (KDef x None)] /\ In (cur sb) (succs G ck) /\ In ck (succs G (cur sb')).
Proof.
  intros C. cbn [build]. cbv zeta. named. named. named. intros Dn. pose proof (d_sz _ _ _ Dn) as DZ. csz.
  exists (pushb (S (sz s)) (assign_item i x a) (edge (cur s) (S (sz s)) (newc (newb s)))), (sz s1), (S (sz s1)), (edge (sz s1) (S (S (sz s1))) (newc (edge (S (sz s1)) (sz s1) (pushb (S (sz s1)) (Item j (KDef x None)) (newb (edge (sz s1) (sz s) (edge (cur s1) (sz s1) (newb s1)))))))).
  csz. rewrite <- E. rewrite <- E0. csz. rewrite <- E1. csz. rewrite !put_eq. split; [|split; [|split]].
  - rewrite (d_its _ _ _ Dn) by (csz; lia). same (newb s).
  - link Dn (edge (cur s) (S (sz s)) (newc (newb s))). apply edge_in.
  - empty (newb s).
  - cj.
    + eapply (done_sub (at_cur tc s0) _ _ _ _ _ _ Dn); [grows|csz; lia ..| |]; csz.
      * intros b0 Hb Lb Eb (Ht & ->). subst tc. specialize (Eb eq_refl). discriminate.
      * intros. lia.
    + part Dn none.
    + part Dn none.
    + link Dn (edge (cur s1) (sz s1) (newb s1)). apply edge_in.
    + rewrite (d_its _ _ _ Dn) by (csz; lia). empty (newb s1).
    + link Dn (edge (sz s1) (sz s) (edge (cur s1) (sz s1) (newb s1))). apply edge_in.
    + link Dn (edge (S (sz s1)) (sz s1) (pushb (S (sz s1)) (Item j (KDef x None)) (newb (edge (sz s1) (sz s) (edge (cur s1) (sz s1) (newb s1)))))). apply edge_in.
    + rewrite (d_its _ _ _ Dn) by (csz; lia).
      transitivity (its (pushb (S (sz s1)) (Item j (KDef x None)) (newb (edge (sz s1) (sz s) (edge (cur s1) (sz s1) (newb s1))))) (S (sz s1))).
      * apply (g_its none); [grows|csz; lia|unfold none; tauto].
      * csz. rewrite put_eq, put_eq. reflexivity.
    + link Dn (edge (sz s1) (S (S (sz s1))) (newc (edge (S (sz s1)) (sz s1) (pushb (S (sz s1)) (Item j (KDef x None)) (newb (edge (sz s1) (sz s) (edge (cur s1) (sz s1) (newb s1)))))))). apply edge_in.
    + link Dn (edge (cur s2) (sz s1) s2). apply edge_in.
Qed.

Lemma catches_grow lp T route dst cs s : cur s < sz s -> grow none s (catches (fun h s => build h lp T s) route dst cs s).
Proof.
  intros C. destruct (catches_frame T (fun h s => build h lp T s) route dst cs) with (s := s) as [Gr D]; auto.
  apply Forall_forall. intros [v h] _ s' C'. now apply build_frame.
Qed.
Lemma catches_at lp T route dst cs : forall s k v h, cur s < sz s -> route < sz s -> nth_error cs k = Some (v, h) ->
  let s' := catches (fun h s => build h lp T s) route dst cs s in
  exists sh, cur sh < sz sh /\ sz s <= sz sh /\ sz s <= cur sh /\ its sh (cur sh) = catch_items v /\
  grow none (build h lp T sh) s' /\ In (cur sh) (suc s' route) /\ In dst (suc s' (cur (build h lp T sh))).
Proof.
  induction cs as [|[v0 h0] cs IH]; intros s k v h C R H; [destruct k; discriminate|]. cbn [catches]. cbv zeta.
  set (s1 := fold_left _ _ (newc s)). destruct (fold_push (catch_items v0) (sz s) (newc s)) as (E1 & E2 & E3 & E4 & _). fold s1 in E1, E2, E3, E4. cbn in E1, E2, E4. rewrite put_eq in E4.
  assert (Gr1 : grow (fun c => c = sz s) (newc s) s1) by apply grow_push_l. clearbody s1.
  pose proof (build_frame h0 lp T s1 ltac:(lia)) as (Gr & C1 & D1). pose proof (g_sz _ _ _ Gr).
  set (s3 := edge (cur (build h0 lp T s1)) dst (edge route (sz s) (build h0 lp T s1))).
  assert (D3 : cur s3 < sz s3) by (unfold s3; cbn; lia). pose proof (catches_grow lp T route dst cs s3 D3) as Gr3.
  destruct k as [|k]; cbn in H.
  - injection H as -> ->. exists s1. rewrite E2. split; [lia|]. split; [lia|]. split; [lia|]. split; [rewrite E4; reflexivity|]. split; [|split].
    + eapply grow_add; [|exact Gr3|auto]. unfold s3. grows.
    + apply (g_suc _ _ _ Gr3); [unfold s3; cbn; lia|]. unfold s3. apply edge_mono, edge_in.
    + apply (g_suc _ _ _ Gr3); [unfold s3; cbn; lia|]. unfold s3. apply edge_in.
  - assert (Z3 : sz s <= sz s3) by (unfold s3; cbn; lia). destruct (IH s3 k v h D3 ltac:(lia) H) as (sh & A1 & A2 & A3 & A4). exists sh. split; auto. split; [lia|]. split; [lia|]. exact A4.
Qed.

Ltac cnamed :=
  csz; match goal with
  | |- context [catches (fun h s => build h ?lp ?T s) ?r ?d ?cs ?S] =>
      lazymatch S with context [build _ _ _ _] => fail | _ => idtac end;
      let D := fresh "D" in let Z := fresh "Z" in let HC := fresh "HC" in let t := fresh "s" in let Gr := fresh "Gr" in let EC := fresh "EC" in
      pose proof (catch_cur lp T r d cs S ltac:(csz; lia)) as (Z & D);
      pose proof (catches_grow lp T r d cs S ltac:(csz; lia)) as Gr;
      pose proof (fun k v h => catches_at lp T r d cs S k v h ltac:(csz; lia) ltac:(csz; lia)) as HC; cbv zeta in HC;
      remember (catches (fun h s => build h lp T s) r d cs S) as t eqn:EC in *; clear EC; csz
  end.
Lemma try_parts lp tc s b cs el fin dg : cur s < sz s -> done s (build (Try b cs el fin) lp tc s) dg -> (fin <> None -> tc = []) ->
  let s' := build (Try b cs el fin) lp tc s in
  exists route f sb dst, let tc' := (route, f) :: tc in let sb' := build b lp tc' sb in
  cur sb = cur s /\ its sb (cur sb) = its s (cur s) /\ cur sb < sz sb /\ sz s <= sz sb /\ I route = [] /\ its s' (cur s') = [] /\ done sb sb' true /\
  (forall k v h, nth_error cs k = Some (v, h) -> exists sh, cur sh < sz sh /\ sz sb <= sz sh /\ its sh (cur sh) = catch_items v /\
     done sh (build h lp tc' sh) true /\ In (cur sh) (succs G route) /\ In dst (succs G (cur (build h lp tc' sh)))) /\
  match el with
  | Some e => exists se, cur se < sz se /\ sz sb <= sz se /\ its se (cur se) = [] /\ In (cur se) (succs G (cur sb')) /\ 
      done se (build e lp tc' se) true /\ In dst (succs G (cur (build e lp tc' se)))
  | None => In dst (succs G (cur sb'))
  end /\
  match fin with
  | None => f = None /\ dst = cur s' /\ match tc with (r2, _) :: _ => In r2 (succs G route) | [] => True end
  | Some ff => exists sf, f = Some (cur sf) /\ dst = cur sf /\ cur sf < sz sb /\ cur sf < sz sf /\ sz s <= sz sf /\ its sf (cur sf) = [] /\
      done sf (build ff lp tc sf) true /\ In (cur s') (succs G (cur (build ff lp tc sf))) /\ In (cur sf) (succs G route)
  end.
Proof.
  intros C Dn TF. cbv zeta. revert Dn. cbn [build]. cbv zeta. destruct el as [el|], fin as [ff|].
  - rewrite (TF ltac:(discriminate)). clear TF. named. cnamed. named. named. intros Dn. pose proof (d_sz _ _ _ Dn) as DZ. csz.
    exists (sz s), (Some (S (S (S (sz s))))), (newb (newb (newb (newb s)))), (S (S (S (sz s)))). rewrite <- E. csz. rewrite ?put_ne by lia.
    split; auto. split; auto. split; [lia|]. split; [lia|]. split; [|split; [|split; [|split; [|split]]]].
    + rewrite (d_its _ _ _ Dn) by (csz; lia). emptyo (fun x => x = cur s \/ x = (S (S (sz s))) \/ x = (S (S (S (sz s))))) (newb s).
    + emptyo (fun x => x = cur s \/ x = (S (S (sz s))) \/ x = (S (S (S (sz s))))) (newb (newb s)).
    + part Dn (fun x => x = (S (S (sz s))) \/ x = (S (S (S (sz s))))).
    + intros k v h HN. destruct (HC k v h HN) as (sh & A1 & A2 & A3 & A4 & A5 & A6 & A7). exists sh. csz. pose proof (g_sz _ _ _ A5) as A8.
      match type of A5 with grow _ (build h ?l ?t sh) _ => pose proof (build_frame h l t sh A1) as (GH & CH & DH); remember (build h l t sh) as sh' eqn:EH in * end. pose proof (g_sz _ _ _ GH) as A9.
      split; [exact A1|]. split; [lia|]. split; [exact A4|]. split; [|split].
      * clear EH. part Dn (fun x => x = (S (S (sz s))) \/ x = (S (S (S (sz s))))).
      * link Dn s1. exact A6.
      * link Dn s1. exact A7.
    + exists (goto (S (S (sz s))) s1). rewrite <- E0. csz. assert (X : its s1 (S (S (sz s))) = []) by (emptyo (fun x => x = cur s) (newb (newb (newb s)))). split; [lia|]. split; [lia|]. split; [exact X|]. split; [|split].
      * link Dn (edge (cur s0) (S (S (sz s))) s0). apply edge_in.
      * part Dn (fun x => x = (S (S (S (sz s))))).
      * link Dn (edge (cur s2) (S (S (S (sz s)))) s2). apply edge_in.
    + exists (goto (S (S (S (sz s)))) (edge (cur s2) (S (S (S (sz s)))) s2)). rewrite <- E1. csz. assert (X : its s2 (S (S (S (sz s)))) = []) by (emptyo (fun x => x = cur s \/ x = (S (S (sz s)))) (newb (newb (newb (newb s))))).
      split; auto. split; auto. split; [lia|]. split; [lia|]. split; [lia|]. split; [exact X|]. split; [|split].
      * part Dn none.
      * link Dn (edge (cur s3) (S (sz s)) s3). apply edge_in.
      * link Dn (edge (sz s) (S (S (S (sz s)))) (edge (cur s3) (S (sz s)) s3)). apply edge_in.
  - clear TF. named. cnamed. named. destruct tc as [|[r2 f2] tc].
    + intros Dn. pose proof (d_sz _ _ _ Dn) as DZ. csz.
    exists (sz s), None, (newb (newb (newb s))), (S (sz s)). rewrite <- E. csz. rewrite ?put_ne by lia.
    split; auto. split; auto. split; [lia|]. split; [lia|]. split; [|split; [|split; [|split; [|split]]]].
    * rewrite (d_its _ _ _ Dn) by (csz; lia). emptyo (fun x => x = cur s \/ x = (S (S (sz s)))) (newb s).
    * emptyo (fun x => x = cur s \/ x = (S (S (sz s)))) (newb (newb s)).
    * part Dn (fun x => x = (S (S (sz s)))).
    * intros k v h HN. destruct (HC k v h HN) as (sh & A1 & A2 & A3 & A4 & A5 & A6 & A7). exists sh. csz. pose proof (g_sz _ _ _ A5) as A8.
      match type of A5 with grow _ (build h ?l ?t sh) _ => pose proof (build_frame h l t sh A1) as (GH & CH & DH); remember (build h l t sh) as sh' eqn:EH in * end. pose proof (g_sz _ _ _ GH) as A9.
      split; [exact A1|]. split; [lia|]. split; [exact A4|]. split; [|split].
      -- clear EH. part Dn (fun x => x = (S (S (sz s)))).
      -- link Dn s1. exact A6.
      -- link Dn s1. exact A7.
    * exists (goto (S (S (sz s))) s1). rewrite <- E0. csz. assert (X : its s1 (S (S (sz s))) = []) by (emptyo (fun x => x = cur s) (newb (newb (newb s)))). split; [lia|]. split; [lia|]. split; [exact X|]. split; [|split].
      -- link Dn (edge (cur s0) (S (S (sz s))) s0). apply edge_in.
      -- part Dn none.
      -- link Dn (edge (cur s2) (S (sz s)) s2). apply edge_in.
    * auto.
    + intros Dn. pose proof (d_sz _ _ _ Dn) as DZ. csz.
    exists (sz s), None, (newb (newb (newb s))), (S (sz s)). rewrite <- E. csz. rewrite ?put_ne by lia.
    split; auto. split; auto. split; [lia|]. split; [lia|]. split; [|split; [|split; [|split; [|split]]]].
    * rewrite (d_its _ _ _ Dn) by (csz; lia). emptyo (fun x => x = cur s \/ x = (S (S (sz s)))) (newb s).
    * emptyo (fun x => x = cur s \/ x = (S (S (sz s)))) (newb (newb s)).
    * part Dn (fun x => x = (S (S (sz s)))).
    * intros k v h HN. destruct (HC k v h HN) as (sh & A1 & A2 & A3 & A4 & A5 & A6 & A7). exists sh. csz. pose proof (g_sz _ _ _ A5) as A8.
      match type of A5 with grow _ (build h ?l ?t sh) _ => pose proof (build_frame h l t sh A1) as (GH & CH & DH); remember (build h l t sh) as sh' eqn:EH in * end. pose proof (g_sz _ _ _ GH) as A9.
      split; [exact A1|]. split; [lia|]. split; [exact A4|]. split; [|split].
      -- clear EH. part Dn (fun x => x = (S (S (sz s)))).
      -- link Dn s1. exact A6.
      -- link Dn s1. exact A7.
    * exists (goto (S (S (sz s))) s1). rewrite <- E0. csz. assert (X : its s1 (S (S (sz s))) = []) by (emptyo (fun x => x = cur s) (newb (newb (newb s)))). split; [lia|]. split; [lia|]. split; [exact X|]. split; [|split].
      -- link Dn (edge (cur s0) (S (S (sz s))) s0). apply edge_in.
      -- part Dn none.
      -- link Dn (edge (cur s2) (S (sz s)) s2). apply edge_in.
    * split; auto. split; auto. link Dn (edge (sz s) r2 (edge (cur s2) (S (sz s)) s2)). apply edge_in.
  - rewrite (TF ltac:(discriminate)). clear TF. named. cnamed. named. intros Dn. pose proof (d_sz _ _ _ Dn) as DZ. csz.
    exists (sz s), (Some (S (S (sz s)))), (newb (newb (newb s))), (S (S (sz s))). rewrite <- E. csz. rewrite ?put_ne by lia.
    split; auto. split; auto. split; [lia|]. split; [lia|]. split; [|split; [|split; [|split; [|split]]]].
    + rewrite (d_its _ _ _ Dn) by (csz; lia). emptyo (fun x => x = cur s \/ x = (S (S (sz s)))) (newb s).
    + emptyo (fun x => x = cur s \/ x = (S (S (sz s)))) (newb (newb s)).
    + part Dn (fun x => x = (S (S (sz s)))).
    + intros k v h HN. destruct (HC k v h HN) as (sh & A1 & A2 & A3 & A4 & A5 & A6 & A7). exists sh. csz. pose proof (g_sz _ _ _ A5) as A8.
      match type of A5 with grow _ (build h ?l ?t sh) _ => pose proof (build_frame h l t sh A1) as (GH & CH & DH); remember (build h l t sh) as sh' eqn:EH in * end. pose proof (g_sz _ _ _ GH) as A9.
      split; [exact A1|]. split; [lia|]. split; [exact A4|]. split; [|split].
      * clear EH. part Dn (fun x => x = (S (S (sz s)))).
      * link Dn s1. exact A6.
      * link Dn s1. exact A7.
    + link Dn (edge (cur s0) (S (S (sz s))) s0). apply edge_in.
    + exists (goto (S (S (sz s))) s1). rewrite <- E0. csz. assert (X : its s1 (S (S (sz s))) = []) by (emptyo (fun x => x = cur s) (newb (newb (newb s)))).
      split; auto. split; auto. split; [lia|]. split; [lia|]. split; [lia|]. split; [exact X|]. split; [|split].
      * part Dn none.
      * link Dn (edge (cur s2) (S (sz s)) s2). apply edge_in.
      * link Dn (edge (sz s) (S (S (sz s))) (edge (cur s2) (S (sz s)) s2)). apply edge_in.
  - clear TF. named. cnamed. destruct tc as [|[r2 f2] tc].
    + intros Dn. pose proof (d_sz _ _ _ Dn) as DZ. csz.
    exists (sz s), None, (newb (newb s)), (S (sz s)). rewrite <- E. csz. rewrite ?put_ne by lia.
    split; auto. split; auto. split; [lia|]. split; [lia|]. split; [|split; [|split; [|split; [|split]]]].
    * rewrite (d_its _ _ _ Dn) by (csz; lia). emptyo (fun x => x = cur s) (newb s).
    * emptyo (fun x => x = cur s) (newb (newb s)).
    * part Dn none.
    * intros k v h HN. destruct (HC k v h HN) as (sh & A1 & A2 & A3 & A4 & A5 & A6 & A7). exists sh. csz. pose proof (g_sz _ _ _ A5) as A8.
      match type of A5 with grow _ (build h ?l ?t sh) _ => pose proof (build_frame h l t sh A1) as (GH & CH & DH); remember (build h l t sh) as sh' eqn:EH in * end. pose proof (g_sz _ _ _ GH) as A9.
      split; [exact A1|]. split; [lia|]. split; [exact A4|]. split; [|split].
      -- clear EH. part Dn none.
      -- link Dn s1. exact A6.
      -- link Dn s1. exact A7.
    * link Dn (edge (cur s0) (S (sz s)) s0). apply edge_in.
    * auto.
    + intros Dn. pose proof (d_sz _ _ _ Dn) as DZ. csz.
    exists (sz s), None, (newb (newb s)), (S (sz s)). rewrite <- E. csz. rewrite ?put_ne by lia.
    split; auto. split; auto. split; [lia|]. split; [lia|]. split; [|split; [|split; [|split; [|split]]]].
    * rewrite (d_its _ _ _ Dn) by (csz; lia). emptyo (fun x => x = cur s) (newb s).
    * emptyo (fun x => x = cur s) (newb (newb s)).
    * part Dn none.
    * intros k v h HN. destruct (HC k v h HN) as (sh & A1 & A2 & A3 & A4 & A5 & A6 & A7). exists sh. csz. pose proof (g_sz _ _ _ A5) as A8.
      match type of A5 with grow _ (build h ?l ?t sh) _ => pose proof (build_frame h l t sh A1) as (GH & CH & DH); remember (build h l t sh) as sh' eqn:EH in * end. pose proof (g_sz _ _ _ GH) as A9.
      split; [exact A1|]. split; [lia|]. split; [exact A4|]. split; [|split].
      -- clear EH. part Dn none.
      -- link Dn s1. exact A6.
      -- link Dn s1. exact A7.
    * link Dn (edge (cur s0) (S (sz s)) s0). apply edge_in.
    * split; auto. split; auto. link Dn (edge (sz s) r2 s1). apply edge_in.
Qed.

(** ** Runs and the graph *)
Lemma result_map X lp tc (N N' : list item -> Prop) hist l o : result X lp tc N hist l o -> (o = Norm -> N (hist ++ l) -> N' (hist ++ l)) -> result X lp tc N' hist l o.
Proof. intros [A B] H. split; auto. destruct o; cbn in *; auto. Qed.
Lemma its_final tc s s1 : frame tc s s1 -> done s s1 true -> I (cur s1) = its s1 (cur s1).
Proof. intros (Gr & C & D) Dn. apply (d_its _ _ _ Dn); auto. Qed.
Lemma leave X tc s s1 c h : frame tc s s1 -> done s s1 true -> after X s1 h -> In c (succs G (cur s1)) -> cov X c [] h.
Proof. intros F Dn A E. eapply cov_edge; [exact A|eapply its_final; eauto|exact E]. Qed.
Lemma cov_skip X b c h : cov X b [] h -> I b = [] -> In c (succs G b) -> cov X c [] h.
Proof. intros. eapply cov_edge; eauto. Qed.
Lemma seq_done tc s s1 s' dg : frame tc s s1 -> frame tc s1 s' -> done s s' dg -> (intry tc = true -> dg = true) -> done s s1 (intry tc).
Proof.
  intros (Gr & C & D) (Gr' & C' & D') Dn T. eapply (done_sub (at_cur tc s1) s s'); eauto.
  - intros b Hb Lb Eb (Ht & ->). subst tc. specialize (Eb eq_refl). discriminate.
  - intros b Hb Lb Eb Hc. apply T. destruct C' as [C'|C']; [|lia]. apply Eb. congruence.
Qed.
Lemma rest_done tc s s1 s' dg : frame tc s s1 -> frame tc s1 s' -> done s s' dg -> done s1 s' dg.
Proof.
  intros (Gr & C & D) (Gr' & C' & D') Dn. pose proof (g_sz _ _ _ Gr). eapply (done_sub none s s'); eauto using grow_refl; unfold none; auto; lia.
Qed.
Lemma branch a m o lids lp tc X hist n sa dst : claim a m o -> ok lids (intry tc) X a = true -> ctx lids lp tc n -> n <= sz sa -> cur sa < sz sa ->
  done sa (build a lp tc sa) true -> In dst (succs G (cur (build a lp tc sa))) -> cov X (cur sa) (its sa (cur sa)) hist ->
  result X lp tc (fun h => cov X dst [] h) hist m o.
Proof.
  intros H O Cx L C Dn E Cv. eapply result_map; [apply (H lids lp tc sa X hist); auto|].
  - eapply ctx_mono; eauto.
  - now apply done_weak.
  - intros _ A. eapply leave; eauto. now apply build_frame.
Qed.
Lemma branch0 a m o lids lp tc X hist n sa dst : claim a m o -> ok lids (intry tc) X a = true -> ctx lids lp tc n -> n <= sz sa -> cur sa < sz sa ->
  done sa (build a lp tc sa) true -> In dst (succs G (cur (build a lp tc sa))) -> its sa (cur sa) = [] -> cov X (cur sa) [] hist ->
  result X lp tc (fun h => cov X dst [] h) hist m o.
Proof. intros H O Cx L C Dn E E0 Cv. eapply branch; eauto. now rewrite E0. Qed.

Lemma find_none_lid lp i : ~ In i (map lid lp) -> find (fun e => Nat.eqb (lid e) i) (rev lp) = None.
Proof.
  intros H. destruct (find _ _) as [e|] eqn:E; auto. exfalso. apply find_some in E. destruct E as [E1 E2]. apply Nat.eqb_eq in E2. apply H. rewrite <- E2. apply in_map. now apply in_rev.
Qed.
Lemma find_snoc {A} (f : A -> bool) l x : find f (l ++ [x]) = match find f l with Some y => Some y | None => if f x then Some x else None end.
Proof. induction l as [|y l IH]; cbn; auto. destruct (f y); auto. Qed.
Lemma findLoop_this lids lp tc n c f i t : ctx lids lp tc n -> ~ In i lids -> hits i t -> findLoop (Lp c f i (length tc) :: lp) t = Some (Lp c f i (length tc)).
Proof.
  intros Cx NI [->| ->]; cbn [findLoop hd_error]; auto. cbn [rev]. rewrite find_snoc, find_none_lid by (now rewrite (c_lids _ _ _ _ Cx)). cbn. now rewrite Nat.eqb_refl.
Qed.
Lemma findLoop_other lp c f i d t e : ~ hits i t -> findLoop (Lp c f i d :: lp) t = Some e -> findLoop lp t = Some e.
Proof.
  unfold hits. intros NH. destruct t as [j|]; [|exfalso; auto]. cbn [findLoop rev]. rewrite find_snoc. cbn [lid]. destruct (find _ _); auto.
  destruct (Nat.eqb_spec i j) as [->|]; [exfalso; auto|discriminate].
Qed.
Lemma ctx_loop lids lp tc n m c f i : ctx lids lp tc n -> n <= m -> ctx (i :: lids) (Lp c f i (length tc) :: lp) tc m.
Proof.
  intros [A B C D] L. split.
  - cbn. now rewrite A.
  - constructor; auto.
  - exact C.
  - intros r f' H. specialize (D r f' H). lia.
Qed.
Lemma jumps_self X tc cf h : jumps_to X tc cf (length tc) h -> cov X cf [] h.
Proof. unfold jumps_to. rewrite Nat.sub_diag. auto. Qed.
Lemma body b m o lids lp tc X hist n sb i ck fin : let lp' := Lp ck fin i (length tc) :: lp in
  claim b m o -> ok (i :: lids) (intry tc) X b = true -> ~ In i lids -> ctx lids lp tc n -> n <= sz sb -> cur sb < sz sb ->
  done sb (build b lp' tc sb) true -> In ck (succs G (cur (build b lp' tc sb))) -> its sb (cur sb) = [] -> cov X (cur sb) [] hist ->
  locd hist m /\ (leaves i o -> forall N, post X lp tc N (hist ++ m) o) /\ (forall t, hits i t -> o = Brk t -> cov X fin [] (hist ++ m)) /\
  (again i o -> cov X ck [] (hist ++ m)).
Proof.
  intros lp' H O NI Cx L C Dn E E0 Cv. destruct (branch0 b m o (i :: lids) lp' tc X hist (sz sb) sb ck H O) as [R1 R2]; auto.
  { eapply ctx_loop; eauto. } split; [exact R1|]. split; [|split].
  - intros LV N. destruct o as [|t|t| | |]; cbn in LV, R2 |- *; auto; try contradiction.
    + destruct R2 as (e & F & J). exists e. split; auto. eapply findLoop_other; eauto.
    + destruct R2 as (e & F & J). exists e. split; auto. eapply findLoop_other; eauto.
  - intros t HT ->. cbn in R2. destruct R2 as (e & F & J). unfold lp' in F. rewrite (findLoop_this lids lp tc n ck fin i t Cx NI HT) in F. injection F as <-. now apply jumps_self in J.
  - intros [->|(t & HT & ->)]; cbn in R2; auto. destruct R2 as (e & F & J). unfold lp' in F. rewrite (findLoop_this lids lp tc n ck fin i t Cx NI HT) in F. injection F as <-. now apply jumps_self in J.
Qed.
End Cover.
