(** Building the graph only adds to it: what a node's construction leaves alone, which instructions
    it adds, and that the graph stays well-formed. *)
From Coq Require Import List Bool Arith Lia Permutation.
From Verif.Flow Require Import Graph Reach ReachProofs Cfg CfgSpec.
Import ListNotations.

(** Induction on trees. *)
Definition Po (P : node -> Prop) (a : option node) : Prop := match a with Some a => P a | None => True end.
Section Ind.
Context (P : node -> Prop).
Context (HLeaf : forall i k, P (Leaf i k)) (HOp : forall i l, Forall P l -> P (Op i l)) (HAssign : forall i x e, P e -> P (Assign i x e)).
Context (HSeries : forall l, Forall P l -> P (Series l)) (HIf : forall c a b, P c -> P a -> Po P b -> P (If c a b)).
Context (HWhile : forall l c b, P c -> P b -> P (While l c b)) (HFor : forall l i x r it b, P it -> P b -> P (For l i x r it b)).
Context (HImp : forall l i j x a z b, P a -> P z -> P b -> P (ImpFor l i j x a z b)).
Context (HTry : forall b cs el fin, P b -> Forall (fun c => P (snd c)) cs -> Po P el -> Po P fin -> P (Try b cs el fin)).
Context (HTern : forall i c a b, P c -> P a -> P b -> P (Ternary i c a b)).
Context (HBreak : forall i l, P (Break i l)) (HCont : forall i l, P (Continue i l)).
Context (HRet : forall i v, Po P v -> P (Return i v)) (HThrow : forall i v, Po P v -> P (Throw i v)).
Fixpoint node_ind' (e : node) : P e :=
  let lst := fix go l : Forall P l := match l with [] => Forall_nil _ | e :: l => Forall_cons e (node_ind' e) (go l) end in
  let op := fun a => match a return Po P a with Some a => node_ind' a | None => I end in
  match e with
  | Leaf i k => HLeaf i k
  | Op i l => HOp i l (lst l)
  | Assign i x e => HAssign i x e (node_ind' e)
  | Series l => HSeries l (lst l)
  | If c a b => HIf c a b (node_ind' c) (node_ind' a) (op b)
  | While l c b => HWhile l c b (node_ind' c) (node_ind' b)
  | For l i x r it b => HFor l i x r it b (node_ind' it) (node_ind' b)
  | ImpFor l i j x a z b => HImp l i j x a z b (node_ind' a) (node_ind' z) (node_ind' b)
  | Try b cs el fin =>
      HTry b cs el fin (node_ind' b)
        ((fix go (l : list (option (nat * nat) * node)) : Forall (fun c => P (snd c)) l :=
            match l with [] => Forall_nil _ | c :: l => Forall_cons c (node_ind' (snd c)) (go l) end) cs) (op el) (op fin)
  | Ternary i c a b => HTern i c a b (node_ind' c) (node_ind' a) (node_ind' b)
  | Break i l => HBreak i l
  | Continue i l => HCont i l
  | Return i v => HRet i v (op v)
  | Throw i v => HThrow i v (op v)
  end.
End Ind.

(** [s'] has the blocks of [s]; only those in [O] have more instructions. *)
Record grow (O : nat -> Prop) (s s' : st) : Prop := {
  g_sz : sz s <= sz s';
  g_its : forall b, b < sz s -> ~ O b -> its s' b = its s b;
  g_pre : forall b, b < sz s -> exists m, its s' b = its s b ++ m;
  g_suc : forall b c, b < sz s -> In c (suc s b) -> In c (suc s' b) }.

Lemma grow_refl O s : grow O s s.
Proof. split; auto. intros b _. exists []. now rewrite app_nil_r. Qed.
Lemma grow_trans (O O1 O2 : nat -> Prop) s s1 s2 : grow O1 s s1 -> grow O2 s1 s2 -> (forall b, b < sz s -> O1 b -> O b) -> (forall b, b < sz s -> O2 b -> O b) -> grow O s s2.
Proof.
  intros [A1 A2 A3 A4] [B1 B2 B3 B4] H1 H2. split.
  - lia.
  - intros b Hb N. rewrite B2, A2; auto; try lia; intros F; apply N; auto.
  - intros b Hb. destruct (A3 b Hb) as [m E]. destruct (B3 b ltac:(lia)) as [n E']. exists (m ++ n). now rewrite E', E, app_assoc.
  - intros b c Hb HI. apply B4; [lia|auto].
Qed.
Lemma grow_add (O O2 : nat -> Prop) s s1 s2 : grow O s s1 -> grow O2 s1 s2 -> (forall b, b < sz s -> O2 b -> O b) -> grow O s s2.
Proof. intros A B H. eapply grow_trans; eauto. Qed.
Lemma put_eq {A} (f : nat -> A) b v : put f b v b = v.
Proof. unfold put. now rewrite Nat.eqb_refl. Qed.
Lemma put_ne {A} (f : nat -> A) b c v : c <> b -> put f b v c = f c.
Proof. unfold put. intros H. now rewrite (proj2 (Nat.eqb_neq c b) H). Qed.

Definition none : nat -> Prop := fun _ => False.
Definition at_cur (tc : tcs) (s : st) : nat -> Prop := fun b => tc = [] /\ b = cur s.
Lemma grow_newb s : grow none s (newb s).
Proof.
  split; cbn; auto.
  - intros b Hb _. rewrite put_ne; auto; lia.
  - intros b Hb. exists []. rewrite put_ne, app_nil_r; auto; lia.
  - intros b c Hb H. rewrite put_ne; auto; lia.
Qed.
Lemma grow_goto b s : grow none s (goto b s).
Proof. split; cbn; auto. intros c _. exists []. now rewrite app_nil_r. Qed.
Lemma grow_newc s : grow none s (newc s).
Proof. eapply grow_trans; [apply grow_newb|apply grow_goto|unfold none; tauto|unfold none; tauto]. Qed.
Lemma edge_in b c s : In c (suc (edge b c s) b).
Proof.
  unfold edge. cbn. rewrite put_eq. destruct (memb c (suc s b)) eqn:E; [|left; auto]. apply DomProofs.memb_In, E.
Qed.
Lemma edge_mono b c s b' c' : In c' (suc s b') -> In c' (suc (edge b c s) b').
Proof.
  unfold edge; cbn. unfold put. destruct (Nat.eqb_spec b' b) as [->|]; auto. intros H. destruct (memb c (suc s b)); auto. now right.
Qed.
Lemma grow_edge b c s : grow none s (edge b c s).
Proof. split; auto. - intros b' _. exists []. cbn. now rewrite app_nil_r. - intros b' c' _. apply edge_mono. Qed.
Lemma grow_edge_opt b c s : grow none s (edge_opt b c s).
Proof. destruct c; [apply grow_edge|apply grow_refl]. Qed.
Lemma grow_pushb b v s : grow (fun c => c = b) s (pushb b v s).
Proof.
  split; cbn; auto.
  - intros c _ H. now rewrite put_ne.
  - intros c _. destruct (Nat.eq_dec c b) as [->|N]; [rewrite put_eq; eauto|rewrite put_ne by auto; exists []; now rewrite app_nil_r].
Qed.

Definition frame (tc : tcs) (s s' : st) : Prop := grow (at_cur tc s) s s' /\ (cur s' = cur s \/ sz s <= cur s') /\ cur s' < sz s'.

Ltac gstep :=
  match goal with
  | |- grow _ ?s ?s => apply grow_refl
  | |- grow _ _ (newb _) => eapply grow_add; [|apply grow_newb|]
  | |- grow _ _ (newc _) => eapply grow_add; [|apply grow_newc|]
  | |- grow _ _ (goto _ _) => eapply grow_add; [|apply grow_goto|]
  | |- grow _ _ (edge _ _ _) => eapply grow_add; [|apply grow_edge|]
  | |- grow _ _ (edge_opt _ _ _) => eapply grow_add; [|apply grow_edge_opt|]
  | |- grow _ _ (pushb _ _ _) => eapply grow_add; [|apply grow_pushb|]
  | G : grow _ _ ?s |- grow _ _ ?s => eapply grow_add; [|apply G|]
  end.
Ltac gside := unfold none, at_cur in *; cbn [sz cur newb newc goto edge pushb] in *; intros; repeat match goal with H : _ /\ _ |- _ => destruct H end; subst; try discriminate; try tauto; try (split; auto; fail); try lia; try (exfalso; lia).
Ltac grows := repeat gstep; gside.
Lemma cur_edge_opt b c s : cur (edge_opt b c s) = cur s /\ sz (edge_opt b c s) = sz s /\ its (edge_opt b c s) = its s.
Proof. destruct c; auto. Qed.
Lemma insert_frame tc v s : cur s < sz s -> frame tc s (insert tc v s).
Proof.
  intros C. unfold insert. destruct tc as [|[r f] tc].
  - split; [|cbn; auto]. grows.
  - split; [|cbn; lia]. cbv zeta. grows.
Qed.
Lemma jump_frame tc cf d s : cur s < sz s -> grow none s (jump tc cf d s) /\ cur (jump tc cf d s) = cur s /\ sz (jump tc cf d s) = sz s /\ its (jump tc cf d s) = its s.
Proof.
  intros C. unfold jump. destruct (_ <=? _); [|destruct nearestFinally].
  - destruct (cur_edge_opt (cur s) cf s) as (-> & -> & ->). split; auto. apply grow_edge_opt.
  - destruct tc as [|[r f] tc].
    + destruct (cur_edge_opt n cf s) as (-> & -> & ->). split; auto. apply grow_edge_opt.
    + destruct (cur_edge_opt n cf (edge (cur s) r s)) as (-> & -> & ->). cbn. split; auto. grows.
  - destruct (cur_edge_opt (cur s) cf s) as (-> & -> & ->). split; auto. apply grow_edge_opt.
Qed.
Lemma frame_trans tc s s1 s2 : frame tc s s1 -> frame tc s1 s2 -> frame tc s s2.
Proof.
  intros (G1 & C1 & D1) (G2 & C2 & D2). pose proof (g_sz _ _ _ G1). split; [|split; auto; lia].
  eapply grow_trans; [exact G1|exact G2|auto|]. unfold at_cur. intros b Hb (T & ->). split; auto. lia.
Qed.
Lemma frame_refl tc s : cur s < sz s -> frame tc s s.
Proof. split; auto. apply grow_refl. Qed.
Lemma jframe tc' tc cf d s : cur s < sz s -> frame tc' s (jump tc cf d s).
Proof. intros C. destruct (jump_frame tc cf d s C) as (G & E1 & E2 & _). split; [|rewrite E1, E2; auto]. grows. Qed.

Lemma fold_frame tc (f : node -> st -> st) l : Forall (fun e => forall s, cur s < sz s -> frame tc s (f e s)) l ->
  forall s, cur s < sz s -> frame tc s (fold_left (fun s a => f a s) l s).
Proof.
  induction 1 as [|e l H _ IH]; intros s C; cbn; [now apply frame_refl|]. pose proof (H s C) as F. eapply frame_trans; [exact F|]. apply IH. apply F.
Qed.
Lemma fold_push l b : forall s, let s' := fold_left (fun s v => pushb b v s) l s in
  sz s' = sz s /\ cur s' = cur s /\ suc s' = suc s /\ its s' b = its s b ++ l /\ (forall c, c <> b -> its s' c = its s c).
Proof.
  induction l as [|v l IH]; intros s; cbn; [rewrite app_nil_r; auto|]. destruct (IH (pushb b v s)) as (-> & -> & -> & E & N). cbn in *. repeat split; auto.
  - rewrite E, put_eq, <- app_assoc. reflexivity.
  - intros c Hc. rewrite N, put_ne; auto.
Qed.
Lemma grow_push_l l b s : grow (fun c => c = b) s (fold_left (fun s v => pushb b v s) l s).
Proof.
  destruct (fold_push l b s) as (E1 & E2 & E3 & E4 & E5). split; [lia| | |].
  - intros c _ N. auto.
  - intros c _. destruct (Nat.eq_dec c b) as [->|N]; eauto. exists []. now rewrite app_nil_r, E5.
  - intros c d _ H. now rewrite E3.
Qed.
Lemma catches_frame tc (f : node -> st -> st) route dst cs : Forall (fun c => forall s, cur s < sz s -> frame tc s (f (snd c) s)) cs ->
  forall s, cur s < sz s -> grow none s (catches f route dst cs s) /\ cur (catches f route dst cs s) < sz (catches f route dst cs s).
Proof.
  induction 1 as [|[v h] cs H _ IH]; intros s C; cbn [catches]; [split; auto; apply grow_refl|]. cbv zeta.
  set (s1 := fold_left _ _ (newc s)). destruct (fold_push (catch_items v) (sz s) (newc s)) as (E1 & E2 & E3 & E4 & E5). fold s1 in E1, E2, E3, E4, E5. cbn in E1, E2.
  assert (G1 : grow (fun c => c = sz s) (newc s) s1) by apply grow_push_l. clearbody s1.
  destruct (H s1 ltac:(lia)) as (G2 & C2 & D2). cbn [snd] in *. set (s2 := f h s1) in *. clearbody s2.
  destruct (IH (edge (cur s2) dst (edge route (sz s) s2)) D2) as (G3 & D3). split; auto.
  pose proof (g_sz _ _ _ G2) as S2. grows.
Qed.

Ltac csz := cbn [sz cur its suc newb newc goto edge pushb] in *.
(** One sub-node: its state is named and its frame recorded. *)
Ltac bstep :=
  csz; match goal with
  | |- context [build ?e ?lp ?tc ?S] =>
      lazymatch S with
      | context [build _ _ _ _] => fail
      | context [catches _ _ _ _ _] => fail
      | _ => idtac
      end;
      let F := fresh "F" in let G := fresh "G" in let C := fresh "C" in let D := fresh "D" in let Z := fresh "Z" in let s := fresh "s" in
      match goal with H : forall lp tc s, cur s < sz s -> frame tc s (build e lp tc s) |- _ => pose proof (H lp tc S) as F end;
      csz; specialize (F ltac:(lia)); remember (build e lp tc S) as s eqn:E in *; clear E; destruct F as (G & C & D); csz; pose proof (g_sz _ _ _ G) as Z; csz
  end.
Ltac cstep :=
  csz; match goal with
  | |- context [catches (fun h s => build h ?lp ?T s) ?r ?d ?cs ?S] =>
      lazymatch S with context [build _ _ _ _] => fail | _ => idtac end;
      let GC := fresh "GC" in let DC := fresh "DC" in let Z := fresh "Z" in let K := fresh "K" in let t := fresh "s" in
      pose proof (catches_frame T (fun h s => build h lp T s) r d cs) as K;
      specialize (K ltac:(match goal with H : Forall _ cs |- _ => eapply Forall_impl; [|exact H] end; intros [? ?] ?; cbn [snd] in *; auto) S ltac:(csz; lia));
      destruct K as (GC & DC);
      remember (catches (fun h s => build h lp T s) r d cs S) as t eqn:E in *; clear E; csz; pose proof (g_sz _ _ _ GC) as Z; csz
  end.
Lemma build_frame e : forall lp tc s, cur s < sz s -> frame tc s (build e lp tc s).
Proof.
  induction e using node_ind'; intros lp tc s C; cbn [build]; cbv zeta.
  - now apply insert_frame.
  - eapply frame_trans; [|apply insert_frame].
    + apply (fold_frame tc (fun a s => build a lp tc s)); auto. eapply Forall_impl; [|exact H]. auto.
    + apply (fold_frame tc (fun a s => build a lp tc s)); auto. eapply Forall_impl; [|exact H]. auto.
  - specialize (IHe lp tc s C). eapply frame_trans; [exact IHe|]. apply insert_frame, IHe.
  - apply (fold_frame tc (fun a s => build a lp tc s)); auto. eapply Forall_impl; [|exact H]. auto.
  - destruct b as [b|]; cbn [Po] in *; repeat bstep; (split; [|csz; lia]); grows.
  - repeat bstep. split; [|csz; lia]. grows.
  - repeat bstep. split; [|csz; lia]. grows.
  - repeat bstep. split; [|csz; lia]. grows.
  - destruct el as [el|], fin as [fin|], tc as [|[r f] tc]; cbn [Po] in *; bstep; cstep; repeat bstep; (split; [|csz; lia]); grows.
  - repeat bstep. split; [|csz; lia]. grows.
  - destruct (findLoop lp l); [|now apply insert_frame]. eapply frame_trans; [apply (jframe tc tc (Some (fini l0)) (depth l0) s C)|]. apply insert_frame, (jframe tc tc _ _ s C).
  - destruct (findLoop lp l); [|now apply insert_frame]. eapply frame_trans; [apply (jframe tc tc (Some (next l0)) (depth l0) s C)|]. apply insert_frame, (jframe tc tc _ _ s C).
  - assert (F : frame tc s (match v with Some v => build v lp tc s | None => s end)) by (destruct v; cbn in *; [auto|now apply frame_refl]).
    pose proof F as (_ & _ & D). eapply frame_trans; [exact F|]. eapply frame_trans; [apply (jframe tc tc None 0 _ D)|]. apply insert_frame, (jframe tc tc _ _ _ D).
  - assert (F : frame tc s (match v with Some v => build v lp tc s | None => s end)) by (destruct v; cbn in *; [auto|now apply frame_refl]).
    pose proof F as (_ & _ & D). eapply frame_trans; [exact F|]. now apply insert_frame.
Qed.

(** ** The instructions of the graph *)
Definition all (s : st) : list item := concat (map (its s) (seq 0 (sz s))).
Lemma all_ext s s' : sz s = sz s' -> its s = its s' -> all s = all s'.
Proof. unfold all. intros -> ->. auto. Qed.
Lemma all_newb s : all (newb s) = all s.
Proof.
  unfold all, newb. cbn [sz its]. rewrite seq_S, map_app, concat_app. cbn. rewrite put_eq. cbn. rewrite app_nil_r. f_equal.
  apply map_ext_in. intros b Hb. apply in_seq in Hb. rewrite put_ne; auto; lia.
Qed.
Lemma all_push b v s : b < sz s -> Permutation (all (pushb b v s)) (all s ++ [v]).
Proof.
  intros Hb. unfold all, pushb. cbn [sz its]. replace (sz s) with (b + (1 + (sz s - S b))) by lia. rewrite !seq_app, !map_app, !concat_app. cbn [seq map concat Nat.add].
  rewrite put_eq.
  rewrite (map_ext_in (put (its s) b (its s b ++ [v])) (its s) (seq 0 b)) by (intros c Hc; apply in_seq in Hc; rewrite put_ne; auto; lia).
  rewrite (map_ext_in (put (its s) b (its s b ++ [v])) (its s) (seq (b + 1) _)) by (intros c Hc; apply in_seq in Hc; rewrite put_ne; auto; lia).
  rewrite !app_nil_r, <- !app_assoc. apply Permutation_app_head, Permutation_app_head. apply Permutation_app_comm.
Qed.
Lemma all_goto b s : all (goto b s) = all s. Proof. reflexivity. Qed.
Lemma all_newc s : all (newc s) = all s. Proof. apply all_newb. Qed.
Lemma all_edge b c s : all (edge b c s) = all s. Proof. reflexivity. Qed.
Lemma all_insert tc v s : cur s < sz s -> Permutation (all (insert tc v s)) (all s ++ [v]).
Proof.
  intros C. unfold insert. destruct tc as [|[r f] tc]; cbv zeta; [now apply all_push|]. rewrite all_push by (cbn; lia). now rewrite !all_edge, all_newc.
Qed.
Lemma all_jump tc cf d s : cur s < sz s -> all (jump tc cf d s) = all s.
Proof. intros C. destruct (jump_frame tc cf d s C) as (_ & _ & E1 & E2). now apply all_ext. Qed.
Lemma all_push_l l b : forall s, b < sz s -> Permutation (all (fold_left (fun s v => pushb b v s) l s)) (all s ++ l).
Proof.
  induction l as [|v l IH]; intros s Hb; cbn [fold_left]; [now rewrite app_nil_r|]. rewrite IH by auto. rewrite all_push by auto. now rewrite <- app_assoc.
Qed.

Definition adds (f : st -> st) (l : list item) : Prop := forall s, cur s < sz s -> Permutation (all (f s)) (all s ++ l).
Lemma adds_fold lp tc l : Forall (fun e => forall lp tc, adds (build e lp tc) (own e)) l -> adds (fun s => fold_left (fun s a => build a lp tc s) l s) (flat_map own l).
Proof.
  induction 1 as [|e l H _ IH]; intros s C; cbn [fold_left flat_map]; [now rewrite app_nil_r|]. rewrite IH by apply build_frame, C. rewrite (H lp tc s C). now rewrite <- app_assoc.
Qed.
Lemma catch_cur lp T route dst cs s : cur s < sz s -> sz s <= sz (catches (fun h s => build h lp T s) route dst cs s) /\ cur (catches (fun h s => build h lp T s) route dst cs s) < sz (catches (fun h s => build h lp T s) route dst cs s).
Proof.
  intros C. destruct (catches_frame T (fun h s => build h lp T s) route dst cs) with (s := s) as [G D]; auto; [|split; auto; apply G].
  apply Forall_forall. intros [v h] _ s' C'. now apply build_frame.
Qed.
Lemma adds_catches lp T route dst cs : Forall (fun c => forall lp tc, adds (build (snd c) lp tc) (own (snd c))) cs ->
  adds (catches (fun h s => build h lp T s) route dst cs) (flat_map (fun '(v, h) => catch_items v ++ own h) cs).
Proof.
  induction 1 as [|[v h] cs H _ IH]; intros s C; cbn [catches flat_map]; [now rewrite app_nil_r|]. cbv zeta.
  set (s1 := fold_left _ _ (newc s)). destruct (fold_push (catch_items v) (sz s) (newc s)) as (E1 & E2 & _). fold s1 in E1, E2. cbn in E1, E2.
  assert (P : Permutation (all s1) (all s ++ catch_items v)) by (unfold s1; rewrite all_push_l by (cbn; lia); now rewrite all_newc). clearbody s1.
  pose proof (build_frame h lp T s1 ltac:(lia)) as (_ & _ & D). rewrite IH by (csz; lia). rewrite !all_edge. cbn [snd] in H. rewrite (H lp T s1) by lia. rewrite P, <- !app_assoc. reflexivity.
Qed.
Ltac astep :=
  match goal with
  | |- context [all (goto ?b ?s)] => rewrite (all_goto b s)
  | |- context [all (newb ?s)] => rewrite (all_newb s)
  | |- context [all (newc ?s)] => rewrite (all_newc s)
  | |- context [all (edge ?b ?c ?s)] => rewrite (all_edge b c s)
  | |- context [all (pushb ?b ?v ?s)] => rewrite (all_push b v s) by (csz; lia)
  | P : Permutation (all ?s) _ |- context [all ?s] => rewrite P
  end.
Ltac pstep :=
  csz; match goal with
  | |- context [build ?e ?lp ?tc ?S] =>
      lazymatch S with
      | context [build _ _ _ _] => fail
      | context [catches _ _ _ _ _] => fail
      | _ => idtac
      end;
      let C := fresh "C" in let D := fresh "D" in let Z := fresh "Z" in let P := fresh "P" in let s := fresh "s" in let G := fresh "G" in
      pose proof (build_frame e lp tc S ltac:(csz; lia)) as (G & C & D);
      match goal with H : forall lp tc, adds (build e lp tc) _ |- _ => pose proof (H lp tc S ltac:(csz; lia)) as P end;
      remember (build e lp tc S) as s eqn:E in *; clear E; pose proof (g_sz _ _ _ G) as Z; clear G; repeat (rewrite ?all_goto, ?all_newb, ?all_newc, ?all_edge in P); csz
  end.
Ltac pcstep :=
  csz; match goal with
  | |- context [catches (fun h s => build h ?lp ?T s) ?r ?d ?cs ?S] =>
      lazymatch S with context [build _ _ _ _] => fail | _ => idtac end;
      let D := fresh "D" in let Z := fresh "Z" in let P := fresh "P" in let t := fresh "s" in
      pose proof (catch_cur lp T r d cs S ltac:(csz; lia)) as (Z & D);
      match goal with H : Forall _ cs |- _ => pose proof (adds_catches lp T r d cs H S ltac:(csz; lia)) as P end;
      remember (catches (fun h s => build h lp T s) r d cs S) as t eqn:E in *; clear E; repeat (rewrite ?all_goto, ?all_newb, ?all_newc, ?all_edge in P); csz
  end.
Lemma build_adds e : forall lp tc, adds (build e lp tc) (own e).
Proof.
  induction e using node_ind'; intros lp tc s C; cbn [build own]; cbv zeta.
  - now apply all_insert.
  - rewrite all_insert by (apply (fold_frame tc (fun a s => build a lp tc s)); auto; apply Forall_forall; intros; now apply build_frame).
    rewrite (adds_fold lp tc l H s C). now rewrite <- app_assoc.
  - rewrite all_insert by now apply build_frame. rewrite (IHe lp tc s C). now rewrite <- app_assoc.
  - apply (adds_fold lp tc l H s C).
  - destruct b as [b|]; cbn [Po opt] in *; repeat pstep; repeat astep; rewrite ?app_nil_r, <- ?app_assoc; reflexivity.
  - repeat pstep; repeat astep; rewrite ?app_nil_r, <- ?app_assoc; reflexivity.
  - repeat pstep; repeat astep. rewrite ?app_nil_r, <- ?app_assoc; reflexivity.
  - repeat pstep; repeat astep; rewrite ?app_nil_r, <- ?app_assoc; reflexivity.
  - destruct el as [el|], fin as [fin|], tc as [|[r f] tc]; cbn [Po opt] in *; pstep; pcstep; repeat pstep; repeat astep; rewrite ?app_nil_r, <- ?app_assoc; reflexivity.
  - repeat pstep; repeat astep; rewrite ?app_nil_r, <- ?app_assoc; reflexivity.
  - destruct (findLoop lp l); [|now apply all_insert]. destruct (jump_frame tc (Some (fini l0)) (depth l0) s C) as (_ & E1 & E2 & _). rewrite all_insert by lia. now rewrite all_jump.
  - destruct (findLoop lp l); [|now apply all_insert]. destruct (jump_frame tc (Some (next l0)) (depth l0) s C) as (_ & E1 & E2 & _). rewrite all_insert by lia. now rewrite all_jump.
  - destruct v as [v|]; cbn [Po opt] in *.
    + pose proof (build_frame v lp tc s C) as (_ & _ & D). destruct (jump_frame tc None 0 _ D) as (_ & E1 & E2 & _). rewrite all_insert by lia. rewrite all_jump by lia. rewrite (H lp tc s C). now rewrite <- app_assoc.
    + destruct (jump_frame tc None 0 s C) as (_ & E1 & E2 & _). rewrite all_insert by lia. now rewrite all_jump.
  - destruct v as [v|]; cbn [Po opt] in *.
    + pose proof (build_frame v lp tc s C) as (_ & _ & D). rewrite all_insert by lia. rewrite (H lp tc s C). now rewrite <- app_assoc.
    + now apply all_insert.
Qed.

(** ** The graph is well-formed *)
Definition swf (s : st) : Prop := 0 < sz s /\ forall b c, In c (suc s b) -> 0 < c < sz s /\ b < sz s.
Definition lpv (lp : list loopb) (n : nat) : Prop := Forall (fun e => 0 < next e < n /\ 0 < fini e < n) lp.
Definition tcv (tc : tcs) (n : nat) : Prop := Forall (fun '(r, f) => 0 < r < n /\ match f with Some f => 0 < f < n | None => True end) tc.
Lemma lpv_mono lp n m : lpv lp n -> n <= m -> lpv lp m.
Proof. intros H L. eapply Forall_impl; [|exact H]. cbn. intros; lia. Qed.
Lemma tcv_mono tc n m : tcv tc n -> n <= m -> tcv tc m.
Proof. intros H L. eapply Forall_impl; [|exact H]. intros [r [f|]]; cbn; intros; lia. Qed.
Lemma wf_edge b c s : swf s -> b < sz s -> 0 < c < sz s -> swf (edge b c s).
Proof.
  intros [H1 H2] Hb Hc. split; auto. cbn. intros b' c' H. unfold put in H. destruct (Nat.eqb_spec b' b) as [->|]; auto.
  destruct (memb c (suc s b)); auto. destruct H as [<-|H]; auto. 
Qed.
Lemma wf_newb s : swf s -> swf (newb s).
Proof.
  intros [H1 H2]. split; cbn; [lia|]. intros b c H. unfold put in H. destruct (Nat.eqb_spec b (sz s)) as [->|]; [destruct H|]. apply H2 in H. lia.
Qed.
Lemma wf_goto b s : swf s -> swf (goto b s). Proof. auto. Qed.
Lemma wf_newc s : swf s -> swf (newc s). Proof. intros; now apply wf_goto, wf_newb. Qed.
Lemma wf_push b v s : swf s -> swf (pushb b v s). Proof. auto. Qed.
Lemma wf_edge_opt b c s : swf s -> b < sz s -> match c with Some c => 0 < c < sz s | None => True end -> swf (edge_opt b c s).
Proof. destruct c; auto. apply wf_edge. Qed.
Lemma wf_insert tc v s : swf s -> cur s < sz s -> tcv tc (sz s) -> swf (insert tc v s).
Proof.
  intros H C T. unfold insert. destruct tc as [|[r f] tc]; cbv zeta; [auto|]. apply Forall_inv in T. cbn in T. pose proof (proj1 H).
  apply wf_push, wf_edge; csz; try lia; apply wf_edge; csz; try lia; now apply wf_newc.
Qed.
Lemma nearest_in l f : nearestFinally l = Some f -> exists r, In (r, Some f) l.
Proof. induction l as [|[r [f'|]] l IH]; cbn; [discriminate| |]. - intros H; injection H as ->. eauto. - intros H. destruct (IH H) as [r' HI]. eauto. Qed.
Lemma wf_jump tc cf d s : swf s -> cur s < sz s -> tcv tc (sz s) -> match cf with Some c => 0 < c < sz s | None => True end -> swf (jump tc cf d s).
Proof.
  intros H C T K. unfold jump. destruct (_ <=? _); [now apply wf_edge_opt|]. destruct nearestFinally as [f|] eqn:E; [|now apply wf_edge_opt].
  apply nearest_in in E. destruct E as [r HI]. rewrite <- in_rev in HI. assert (HI2 : In (r, Some f) tc). { rewrite <- (firstn_skipn (length tc - d) tc). apply in_or_app; auto. }
  pose proof T as T'. unfold tcv in T'. rewrite Forall_forall in T'. specialize (T' _ HI2). cbn in T'. destruct tc as [|[r' f'] tc]; [destruct HI2|]. apply Forall_inv in T. cbn in T.
  apply wf_edge_opt; csz; try lia; auto. now apply wf_edge.
Qed.
Definition keeps (tc : tcs) (f : st -> st) (n : nat) : Prop := forall s, n <= sz s -> tcv tc (sz s) -> cur s < sz s -> swf s -> swf (f s).
Definition Wf (e : node) : Prop := forall lp tc s, lpv lp (sz s) -> tcv tc (sz s) -> cur s < sz s -> swf s -> swf (build e lp tc s).
Lemma wf_fold lp tc l : Forall Wf l -> forall s, lpv lp (sz s) -> tcv tc (sz s) -> cur s < sz s -> swf s -> swf (fold_left (fun s a => build a lp tc s) l s).
Proof.
  induction 1 as [|e l H _ IH]; intros s L T C W; cbn; auto. pose proof (build_frame e lp tc s C) as (G & _ & D). pose proof (g_sz _ _ _ G).
  apply IH; auto; [eapply lpv_mono|eapply tcv_mono]; eauto.
Qed.
Lemma wf_push_l l b : forall s, swf s -> swf (fold_left (fun s v => pushb b v s) l s).
Proof. induction l; cbn; auto. Qed.
Lemma wf_catches lp T route dst cs : Forall (fun c => Wf (snd c)) cs ->
  forall s, lpv lp (sz s) -> tcv T (sz s) -> route < sz s -> 0 < dst < sz s -> cur s < sz s -> swf s -> swf (catches (fun h s => build h lp T s) route dst cs s).
Proof.
  induction 1 as [|[v h] cs H _ IH]; intros s L TT R DD C W; cbn [catches]; auto. cbv zeta.
  set (s1 := fold_left _ _ (newc s)). destruct (fold_push (catch_items v) (sz s) (newc s)) as (E1 & E2 & _). fold s1 in E1, E2. cbn in E1, E2.
  assert (W1 : swf s1) by (apply wf_push_l; now apply wf_newc). clearbody s1.
  pose proof (build_frame h lp T s1 ltac:(lia)) as (G & _ & D). pose proof (g_sz _ _ _ G). cbn [snd] in H.
  assert (W2 : swf (build h lp T s1)) by (apply H; auto; try lia; [eapply lpv_mono|eapply tcv_mono]; eauto; lia). destruct W as [W0 _].
  apply IH; csz; auto; try lia; try (eapply lpv_mono; eauto; lia); try (eapply tcv_mono; eauto; lia). apply wf_edge; csz; try lia. apply wf_edge; csz; try lia. auto.
Qed.
Ltac wside := csz; first [lia | assumption | eapply lpv_mono; [eassumption|csz; lia] | eapply tcv_mono; [eassumption|csz; lia]
  | (constructor; [csz; cbn; lia|]); wside | idtac ].
Ltac wprim := repeat match goal with
  | |- swf (goto _ _) => apply wf_goto
  | |- swf (newb _) => apply wf_newb
  | |- swf (newc _) => apply wf_newc
  | |- swf (pushb _ _ _) => apply wf_push
  | |- swf (edge _ _ _) => apply wf_edge
  end; csz; try lia; try assumption.
Ltac wstep :=
  csz; match goal with
  | |- context [build ?e ?lp ?tc ?S] =>
      lazymatch S with
      | context [build _ _ _ _] => fail
      | context [catches _ _ _ _ _] => fail
      | _ => idtac
      end;
      let C := fresh "C" in let D := fresh "D" in let Z := fresh "Z" in let P := fresh "P" in let s := fresh "s" in let G := fresh "G" in
      pose proof (build_frame e lp tc S ltac:(csz; lia)) as (G & C & D);
      assert (P : swf (build e lp tc S)) by (match goal with H : Wf e |- _ => apply H end; [wside|wside|csz; lia|wprim]);
      remember (build e lp tc S) as s eqn:E in *; clear E; pose proof (g_sz _ _ _ G) as Z; clear G; csz
  end.
Ltac wcstep :=
  csz; match goal with
  | |- context [catches (fun h s => build h ?lp ?T s) ?r ?d ?cs ?S] =>
      lazymatch S with context [build _ _ _ _] => fail | _ => idtac end;
      let D := fresh "D" in let Z := fresh "Z" in let P := fresh "P" in let t := fresh "s" in
      pose proof (catch_cur lp T r d cs S ltac:(csz; lia)) as (Z & D);
      assert (P : swf (catches (fun h s => build h lp T s) r d cs S)) by (apply wf_catches; [assumption|wside|wside|csz; lia|csz; lia|csz; lia|wprim]);
      remember (catches (fun h s => build h lp T s) r d cs S) as t eqn:E in *; clear E; csz
  end.
Lemma find_in {A} (f : A -> bool) l x : find f l = Some x -> In x l. Proof. intros H. now apply find_some in H. Qed.
Lemma findLoop_in lp l e : findLoop lp l = Some e -> In e lp.
Proof. unfold findLoop. destruct l; [intros H; apply find_in in H; now apply in_rev|]. destruct lp; cbn; [discriminate|]. intros H; injection H as ->; auto. Qed.
Lemma build_wf e : Wf e.
Proof.
  induction e using node_ind'; intros lp tc s L T C W; cbn [build]; cbv zeta; pose proof (proj1 W) as W0.
  - now apply wf_insert.
  - assert (FR : frame tc s (fold_left (fun s a => build a lp tc s) l s)) by (apply (fold_frame tc (fun a s => build a lp tc s)); auto; apply Forall_forall; intros; now apply build_frame).
    destruct FR as (G & _ & D). apply wf_insert; auto; [now apply wf_fold|]. eapply tcv_mono; eauto. apply G.
  - pose proof (build_frame e lp tc s C) as (G & _ & D). apply wf_insert; auto. eapply tcv_mono; eauto. apply G.
  - now apply wf_fold.
  - destruct b as [b|]; cbn [Po] in *; repeat wstep; wprim.
  - repeat wstep; wprim.
  - repeat wstep; wprim.
  - repeat wstep; wprim.
  - destruct el as [el|], fin as [fin|], tc as [|[r f] tc]; cbn [Po] in *; try (assert (Tr : 0 < r < sz s) by (apply Forall_inv in T; cbn in T; tauto)); wstep; wcstep; repeat wstep; wprim.
  - repeat wstep; wprim.
  - destruct (findLoop lp l) as [l0|] eqn:F; [|now apply wf_insert]. destruct (jump_frame tc (Some (fini l0)) (depth l0) s C) as (_ & E1 & E2 & _).
    apply findLoop_in in F. unfold lpv in L. rewrite Forall_forall in L. specialize (L _ F). apply wf_insert; rewrite ?E1, ?E2; auto. apply wf_jump; auto; lia.
  - destruct (findLoop lp l) as [l0|] eqn:F; [|now apply wf_insert]. destruct (jump_frame tc (Some (next l0)) (depth l0) s C) as (_ & E1 & E2 & _).
    apply findLoop_in in F. unfold lpv in L. rewrite Forall_forall in L. specialize (L _ F). apply wf_insert; rewrite ?E1, ?E2; auto. apply wf_jump; auto; lia.
  - assert (X : swf (match v with Some v => build v lp tc s | None => s end) /\ frame tc s (match v with Some v => build v lp tc s | None => s end)).
    { destruct v as [v|]; cbn [Po] in *; split; auto; [now apply build_frame|now apply frame_refl]. }
    destruct X as (X & G & _ & D). pose proof (g_sz _ _ _ G). destruct (jump_frame tc None 0 _ D) as (_ & E1 & E2 & _). apply wf_insert; rewrite ?E1, ?E2; auto.
    + apply wf_jump; auto. eapply tcv_mono; eauto.
    + eapply tcv_mono; eauto.
  - assert (X : swf (match v with Some v => build v lp tc s | None => s end) /\ frame tc s (match v with Some v => build v lp tc s | None => s end)).
    { destruct v as [v|]; cbn [Po] in *; split; auto; [now apply build_frame|now apply frame_refl]. }
    destruct X as (X & G & _ & D). pose proof (g_sz _ _ _ G). apply wf_insert; auto. eapply tcv_mono; eauto.
Qed.
