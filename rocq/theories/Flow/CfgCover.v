(** Every run of a function is covered by its graph: the induction on runs. *)
From Coq Require Import List Bool Arith Lia Permutation.
From Verif.Flow Require Import Graph Reach ReachProofs Cfg CfgSpec CfgFrame CfgProofs.
Import ListNotations.

(** Trees without jumps do not jump. *)
Lemma exec_calm :
  (forall e l o, exec e l o -> calm e = true -> forall t, o <> Brk t /\ o <> Cnt t) /\
  (forall es l o, execs es l o -> forallb calm es = true -> forall t, o <> Brk t /\ o <> Cnt t) /\
  (forall lid c b l o, whiles lid c b l o -> True) /\
  (forall lid pre r b l o, turns lid pre r b l o -> True) /\
  (forall b cs el l o, tries b cs el l o -> True).
Proof.
  apply exec_mut; intros; auto; cbn [calm forallb ob] in *; try discriminate; bsplit; auto; try (split; discriminate).
  all: match goal with H : ends _ |- _ => destruct H as [->| ->]; split; discriminate end.
Qed.

Section Cover.
Context (G : graph) (I : nat -> list item).
Local Notation claim := (CfgProofs.claim G I).
Local Notation claims := (CfgProofs.claims G I).
Local Notation claimW := (CfgProofs.claimW G I).
Local Notation claimF := (CfgProofs.claimF G I).
Local Notation claimT := (CfgProofs.claimT G I).
Local Notation result := (CfgProofs.result G I).
Local Notation post := (CfgProofs.post G I).
Local Notation cov := (CfgProofs.cov G I).
Local Notation done := (CfgProofs.done G I).
Local Notation after := (CfgProofs.after G I).
Local Notation ctx := (CfgProofs.ctx G I).
Local Notation locd := (CfgProofs.locd G I).

Lemma fold_build_frame lp tc es s : cur s < sz s -> frame tc s (fold_left (fun s a => build a lp tc s) es s).
Proof. intros C. apply (fold_frame tc (fun a s => build a lp tc s)); auto. apply Forall_forall. intros e _ s' C'. now apply build_frame. Qed.
Lemma not_jumps l : existsb jumps l = false -> jumps_last l = true.
Proof. induction l as [|e [|e' l] IH]; cbn; auto. intros H. apply orb_false_iff in H. destruct H as [-> H]. cbn. now apply IH. Qed.
Lemma no_use i X : forall x, ikind (Item i KOther) = KUse x -> ~ In x X.
Proof. discriminate. Qed.
Ltac ob := cbn [ok ob] in *; repeat match goal with
  | H : _ && _ = true |- _ => apply andb_prop in H; destruct H
  | H : negb _ = true |- _ => apply negb_true_iff in H
  end.
Ltac neg := repeat match goal with H : memb _ _ = false |- _ => apply not_true_iff_false in H; rewrite DomProofs.memb_In in H end.

Lemma c_part e : claim e [] Part.
Proof. intros lids lp tc s X hist C O Cx Dn Cv. split; [apply locd_nil|exact Logic.I]. Qed.
Lemma c_leaf i k : claim (Leaf i k) [Item i (leaf_kind k)] Norm.
Proof.
  intros lids lp tc s X hist C O Cx Dn Cv. cbn [build] in *. eapply insert_res; eauto.
  - cbn. destruct tc; auto; contradiction.
  - intros x E HX. destruct k; try discriminate. injection E as ->. cbn in O. apply negb_true_iff in O. apply DomProofs.memb_In in HX. congruence.
  - left; left; auto.
Qed.
Lemma c_op i args l o : claims args l Norm -> ends o -> claim (Op i args) (l ++ [Item i KOther]) o.
Proof.
  intros H E lids lp tc s X hist C O Cx Dn Cv. ob. cbn [build jumps orb] in *. pose proof (fold_build_frame lp tc args s C) as F.
  eapply then_insert; eauto using no_use. apply (H lids lp tc s X hist); auto using not_jumps. rewrite H1. eapply done_first; eauto.
Qed.
Lemma c_op_stop i args l o : claims args l o -> o <> Norm -> claim (Op i args) l o.
Proof.
  intros H E lids lp tc s X hist C O Cx Dn Cv. ob. cbn [build jumps orb] in *. pose proof (fold_build_frame lp tc args s C) as F.
  eapply res_stop; [|exact E]. apply (H lids lp tc s X hist); auto using not_jumps. rewrite H1. eapply done_first; eauto.
Qed.
Lemma c_assign i x rhs l o : claim rhs l Norm -> ends o -> claim (Assign i x rhs) (l ++ [Item i (KDef x (Some (nid rhs)))]) o.
Proof.
  intros H E lids lp tc s X hist C O Cx Dn Cv. ob. cbn [build jumps orb] in *. pose proof (build_frame rhs lp tc s C) as F.
  eapply then_insert; eauto; [|discriminate]. apply (H lids lp tc s X hist); auto. rewrite H1. eapply done_first; eauto.
Qed.
Lemma c_assign_stop i x rhs l o : claim rhs l o -> o <> Norm -> claim (Assign i x rhs) l o.
Proof.
  intros H E lids lp tc s X hist C O Cx Dn Cv. ob. cbn [build jumps orb] in *. pose proof (build_frame rhs lp tc s C) as F.
  eapply res_stop; [|exact E]. apply (H lids lp tc s X hist); auto. rewrite H1. eapply done_first; eauto.
Qed.
Lemma c_series es l o : claims es l o -> claim (Series es) l o.
Proof. intros H lids lp tc s X hist C O Cx Dn Cv. ob. apply (H lids lp tc s X hist); auto. Qed.
Lemma cs_nil : claims [] [] Norm.
Proof. intros lids lp tc s X hist C O J Cx Dn Cv. split; [apply locd_nil|]. cbn. unfold CfgProofs.after. now rewrite app_nil_r. Qed.
Lemma first_done e es lp tc s : cur s < sz s -> jumps_last (e :: es) = true ->
  done s (fold_left (fun s a => build a lp tc s) (e :: es) s) (existsb jumps (e :: es) || intry tc) -> done s (build e lp tc s) (jumps e || intry tc).
Proof.
  intros C J Dn. pose proof (build_frame e lp tc s C) as F. destruct es as [|e' es].
  - cbn in *. now rewrite orb_false_r in Dn.
  - assert (JE : jumps e = false) by (eapply existsb_last_false; eauto; discriminate). rewrite JE. eapply (seq_done G I tc s); [exact F| |exact Dn|].
    + cbn. apply (fold_build_frame lp tc (e' :: es)). apply F.
    + intros ->. now rewrite orb_true_r.
Qed.
Lemma cs_cons e es l m o : claim e l Norm -> claims es m o -> claims (e :: es) (l ++ m) o.
Proof.
  intros H1 H2 lids lp tc s X hist C O J Cx Dn Cv. pose proof (build_frame e lp tc s C) as F. pose proof (first_done e es lp tc s C J Dn) as D1. cbn [forallb] in O. ob.
  destruct (H1 lids lp tc s X hist) as [R1 R2]; auto. apply res_app; auto. cbn [fold_left] in *.
  apply (H2 lids lp tc (build e lp tc s) X (hist ++ l)); auto.
  - apply F.
  - destruct es; auto. cbn in J. apply andb_prop in J. apply J.
  - eapply ctx_mono; [exact Cx|]. destruct F as (Gr & _). apply (g_sz _ _ _ Gr).
  - assert (D : done (build e lp tc s) (fold_left (fun s a => build a lp tc s) es (build e lp tc s)) (existsb jumps (e :: es) || intry tc)).
    { eapply (rest_done G I tc s); eauto. apply fold_build_frame. apply F. }
    destruct es as [|e' es].
    + split.
      * apply (d_sz _ _ _ _ _ D).
      * cbn [fold_left]. intros b Hb Lb Eb. apply (d_its _ _ _ _ _ D); auto. cbn in *. intros Q. rewrite (Eb Q). now rewrite orb_true_r.
      * apply (d_cur _ _ _ _ _ D).
      * apply (d_suc _ _ _ _ _ D).
    + assert (JE : jumps e = false) by (eapply existsb_last_false; eauto; discriminate). cbn [existsb] in D. now rewrite JE in D.
Qed.
Lemma cs_stop e es l o : claim e l o -> o <> Norm -> claims (e :: es) l o.
Proof.
  intros H1 E lids lp tc s X hist C O J Cx Dn Cv. pose proof (first_done e es lp tc s C J Dn) as D1. cbn [forallb] in O. ob.
  eapply res_stop; [|exact E]. apply (H1 lids lp tc s X hist); auto.
Qed.

(** ** Branches *)
Lemma c_if_stop c a b l o : claim c l o -> o <> Norm -> claim (If c a b) l o.
Proof.
  intros H E lids lp tc s X hist C O Cx Dn Cv. ob. destruct (if_parts G I lp tc s c a b _ C Dn) as (D1 & _). eapply res_stop; [|exact E].
  apply (H lids lp tc s X hist); auto. now apply done_weak.
Qed.
Lemma c_if_true c a b l m o : claim c l Norm -> claim a m o -> claim (If c a b) (l ++ m) o.
Proof.
  intros H H' lids lp tc s X hist C O Cx Dn Cv. ob. destruct (if_parts G I lp tc s c a b _ C Dn) as (D1 & E1 & (sa & A1 & A2 & A3 & A4 & A5 & A6) & _).
  destruct (H lids lp tc s X hist) as [R1 R2]; auto using done_weak. apply res_app; auto. cbn in R2. eapply result_map; [eapply (branch0 G I a m o lids lp tc X (hist ++ l) (sz s) sa (cur (build (If c a b) lp tc s))); eauto|].
  - eapply (leave G I X tc s (build c lp tc s)); eauto. now apply build_frame.
  - intros _. unfold CfgProofs.after. now rewrite E1.
Qed.
Lemma c_if_false c a b l m o : claim c l Norm -> claim b m o -> claim (If c a (Some b)) (l ++ m) o.
Proof.
  intros H H' lids lp tc s X hist C O Cx Dn Cv. ob. destruct (if_parts G I lp tc s c a (Some b) _ C Dn) as (D1 & E1 & _ & (sa & A1 & A2 & A3 & A4 & A5 & A6)).
  destruct (H lids lp tc s X hist) as [R1 R2]; auto using done_weak. apply res_app; auto. cbn in R2. eapply result_map; [eapply (branch0 G I b m o lids lp tc X (hist ++ l) (sz s) sa (cur (build (If c a (Some b)) lp tc s))); eauto|].
  - eapply (leave G I X tc s (build c lp tc s)); eauto. now apply build_frame.
  - intros _. unfold CfgProofs.after. now rewrite E1.
Qed.
Lemma c_if_none c a l : claim c l Norm -> claim (If c a None) l Norm.
Proof.
  intros H lids lp tc s X hist C O Cx Dn Cv. ob. destruct (if_parts G I lp tc s c a None _ C Dn) as (D1 & E1 & _ & E2).
  destruct (H lids lp tc s X hist) as [R1 R2]; auto using done_weak. split; auto. unfold CfgProofs.after. cbn [CfgProofs.post] in *. rewrite E1. eapply (leave G I X tc s (build c lp tc s)); eauto. now apply build_frame.
Qed.
Lemma c_tern_stop i c a b l o : claim c l o -> o <> Norm -> claim (Ternary i c a b) l o.
Proof.
  intros H E lids lp tc s X hist C O Cx Dn Cv. ob. destruct (tern_parts G I lp tc s i c a b _ C Dn) as (sc & B1 & B2 & B3 & B4 & D1 & _). eapply res_stop; [|exact E].
  apply (H lids lp tc sc X hist); auto using done_weak.
  - eapply ctx_mono; eauto.
  - now rewrite B4, B1.
Qed.
Lemma tern_value X lp tc s' i hist l : cur s' < sz s' -> sz s' <= size G -> its s' (cur s') = [Item i KOther] -> result X lp tc (fun h => cov X (cur s') [] h) hist l Norm ->
  result X lp tc (after X s') hist (l ++ [Item i KOther]) Norm.
Proof.
  intros C Z E [A B]. split.
  - apply locd_app; auto. apply locd_none. intros v x [<-|[]]. discriminate.
  - cbn in *. unfold CfgProofs.after. rewrite E, app_assoc. apply (cov_item G I X (cur s') []); auto. lia.
Qed.
Lemma c_tern_true i c a b l m : claim c l Norm -> claim a m Norm -> claim (Ternary i c a b) (l ++ m ++ [Item i KOther]) Norm.
Proof.
  intros H H' lids lp tc s X hist C O Cx Dn Cv. ob. destruct (tern_parts G I lp tc s i c a b _ C Dn) as (sc & B1 & B2 & B3 & B4 & D1 & E1 & L1 & (sa & A1 & A2 & A3 & A4 & A5 & A6) & _).
  destruct (H lids lp tc sc X hist) as [R1 R2]; auto using done_weak; [eapply ctx_mono; eauto|now rewrite B4, B1|]. apply res_app; auto. cbn in R2.
  eapply (tern_value X lp tc); [exact L1|apply (d_sz _ _ _ _ _ Dn)|exact E1|]. eapply (branch0 G I a m Norm lids lp tc X (hist ++ l) (sz s) sa (cur (build (Ternary i c a b) lp tc s))); eauto. eapply (leave G I X tc sc (build c lp tc sc)); eauto. now apply build_frame.
Qed.
Lemma c_tern_false i c a b l m : claim c l Norm -> claim b m Norm -> claim (Ternary i c a b) (l ++ m ++ [Item i KOther]) Norm.
Proof.
  intros H H' lids lp tc s X hist C O Cx Dn Cv. ob. destruct (tern_parts G I lp tc s i c a b _ C Dn) as (sc & B1 & B2 & B3 & B4 & D1 & E1 & L1 & _ & (sa & A1 & A2 & A3 & A4 & A5 & A6)).
  destruct (H lids lp tc sc X hist) as [R1 R2]; auto using done_weak; [eapply ctx_mono; eauto|now rewrite B4, B1|]. apply res_app; auto. cbn in R2.
  eapply (tern_value X lp tc); [exact L1|apply (d_sz _ _ _ _ _ Dn)|exact E1|]. eapply (branch0 G I b m Norm lids lp tc X (hist ++ l) (sz s) sa (cur (build (Ternary i c a b) lp tc s))); eauto. eapply (leave G I X tc sc (build c lp tc sc)); eauto. now apply build_frame.
Qed.
Lemma c_tern_true_stop i c a b l m o : claim c l Norm -> claim a m o -> o <> Norm -> claim (Ternary i c a b) (l ++ m) o.
Proof.
  intros H H' NE lids lp tc s X hist C O Cx Dn Cv. ob. destruct (tern_parts G I lp tc s i c a b _ C Dn) as (sc & B1 & B2 & B3 & B4 & D1 & E1 & L1 & (sa & A1 & A2 & A3 & A4 & A5 & A6) & _).
  destruct (H lids lp tc sc X hist) as [R1 R2]; auto using done_weak; [eapply ctx_mono; eauto|now rewrite B4, B1|]. apply res_app; auto. cbn in R2.
  eapply res_stop; [|exact NE]. eapply (branch0 G I a m o lids lp tc X (hist ++ l) (sz s) sa (cur (build (Ternary i c a b) lp tc s))); eauto. eapply (leave G I X tc sc (build c lp tc sc)); eauto. now apply build_frame.
Qed.
Lemma c_tern_false_stop i c a b l m o : claim c l Norm -> claim b m o -> o <> Norm -> claim (Ternary i c a b) (l ++ m) o.
Proof.
  intros H H' NE lids lp tc s X hist C O Cx Dn Cv. ob. destruct (tern_parts G I lp tc s i c a b _ C Dn) as (sc & B1 & B2 & B3 & B4 & D1 & E1 & L1 & _ & (sa & A1 & A2 & A3 & A4 & A5 & A6)).
  destruct (H lids lp tc sc X hist) as [R1 R2]; auto using done_weak; [eapply ctx_mono; eauto|now rewrite B4, B1|]. apply res_app; auto. cbn in R2.
  eapply res_stop; [|exact NE]. eapply (branch0 G I b m o lids lp tc X (hist ++ l) (sz s) sa (cur (build (Ternary i c a b) lp tc s))); eauto. eapply (leave G I X tc sc (build c lp tc sc)); eauto. now apply build_frame.
Qed.

(** ** Loops *)
Lemma to_nil X s hist l o lp tc b : its s (cur s) = [] -> b = cur s -> result X lp tc (fun h => cov X b [] h) hist l o -> result X lp tc (after X s) hist l o.
Proof. intros E -> R. eapply result_map; [exact R|]. intros _. unfold CfgProofs.after. now rewrite E. Qed.
Lemma c_while lid c b l o : claimW lid c b l o -> claim (While lid c b) l o.
Proof.
  intros H lids lp tc s X hist C O Cx Dn Cv. ob. neg.
  destruct (while_parts G I lp tc s lid c b _ C Dn) as (sc & sb & A1 & A2 & A3 & A4 & A5 & A6 & A7 & A8 & A9 & A10 & A11 & A12 & A13 & A14).
  eapply to_nil; [exact A3|reflexivity|].
  apply (H lids lp tc sc sb X hist); auto.
  - match goal with H : nodefs c || _ = true |- _ => apply orb_prop in H; destruct H as [H|H]; [auto|apply andb_prop in H; destruct H as [Q1 Q2]] end. right. split; auto. destruct tc; auto; discriminate.
  - eapply ctx_mono; eauto.
  - eapply cov_edge; eauto.
Qed.
Lemma w_cond lids lp tc sc c l X hist bd : claim c l Norm -> exec c l Norm -> cur sc < sz sc -> its sc (cur sc) = [] -> ok lids (intry tc) X c = true ->
  nodefs c = true \/ tc = [] /\ straight c = true -> ctx lids lp tc (sz sc) -> done sc (build c lp tc sc) true -> In bd (succs G (cur sc)) -> cov X (cur sc) [] hist ->
  locd hist l /\ (forall fin, In fin (succs G (cur (build c lp tc sc))) -> cov X fin [] (hist ++ l)) /\ cov X bd [] (hist ++ l).
Proof.
  intros H Ex C E O N Cx Dn Eb Cv. pose proof (build_frame c lp tc sc C) as F. destruct (H lids lp tc sc X hist) as [R1 R2]; auto using done_weak; [now rewrite E|]. cbn in R2.
  assert (L : forall fin, In fin (succs G (cur (build c lp tc sc))) -> cov X fin [] (hist ++ l)) by (intros fin; eapply leave; eauto).
  split; auto. split; auto. destruct N as [N|[-> N]].
  - pose proof (build_nd c N lp tc sc) as Nd. assert (EI : I (cur sc) = its (build c lp tc sc) (cur sc)). { apply (d_its _ _ _ _ _ Dn); auto. destruct F as (Gr & _). pose proof (g_sz _ _ _ Gr). lia. }
    eapply cov_edge; [eapply cov_nodef; [exact Cv| |]|exact EI|exact Eb].
    + apply Forall_forall. intros v HV. destruct (Nd _ _ HV) as [Q|]; auto. now rewrite E in Q.
    + eapply (proj1 exec_nd); eauto.
  - apply L. rewrite (straight_cur c N). exact Eb.
Qed.
Lemma cw_stop lid c b l o : claim c l o -> o <> Norm -> claimW lid c b l o.
Proof.
  intros H NE lids lp tc sc sb X hist fin lb lp' sc' sb' A1 A2 A3 A4 A5 A6 A7 A8 A9 A10 A11 A12 A13 A14 A15 Cv. eapply res_stop; [|exact NE].
  apply (H lids lp tc sc X hist); auto using done_weak. fold lb. now rewrite A3.
Qed.
Lemma cw_exit lid c b l : exec c l Norm -> claim c l Norm -> claimW lid c b l Norm.
Proof.
  intros Ex H lids lp tc sc sb X hist fin lb lp' sc' sb' A1 A2 A3 A4 A5 A6 A7 A8 A9 A10 A11 A12 A13 A14 A15 Cv.
  destruct (w_cond lids lp tc sc c l X hist (cur sb)) as (R1 & R2 & R3); auto. split; auto. cbn. auto.
Qed.
Lemma cw_leave lid c b l m o : exec c l Norm -> claim c l Norm -> claim b m o -> leaves lid o -> claimW lid c b (l ++ m) o.
Proof.
  intros Ex H H' LV lids lp tc sc sb X hist fin lb lp' sc' sb' A1 A2 A3 A4 A5 A6 A7 A8 A9 A10 A11 A12 A13 A14 A15 Cv.
  destruct (w_cond lids lp tc sc c l X hist (cur sb)) as (R1 & R2 & R3); auto. apply res_app; auto.
  destruct (body G I b m o lids lp tc X (hist ++ l) (sz sc) sb lid lb fin) as (B1 & B2 & B3 & B4); auto. split; auto.
Qed.
Lemma cw_break lid c b l m t : exec c l Norm -> claim c l Norm -> claim b m (Brk t) -> hits lid t -> claimW lid c b (l ++ m) Norm.
Proof.
  intros Ex H H' HT lids lp tc sc sb X hist fin lb lp' sc' sb' A1 A2 A3 A4 A5 A6 A7 A8 A9 A10 A11 A12 A13 A14 A15 Cv.
  destruct (w_cond lids lp tc sc c l X hist (cur sb)) as (R1 & R2 & R3); auto. apply res_app; auto.
  destruct (body G I b m (Brk t) lids lp tc X (hist ++ l) (sz sc) sb lid lb fin) as (B1 & B2 & B3 & B4); auto. split; auto. cbn. eapply B3; eauto.
Qed.
Lemma cw_next lid c b l m o k o' : exec c l Norm -> claim c l Norm -> claim b m o -> again lid o -> claimW lid c b k o' -> claimW lid c b (l ++ m ++ k) o'.
Proof.
  intros Ex H H' AG IH lids lp tc sc sb X hist fin lb lp' sc' sb' A1 A2 A3 A4 A5 A6 A7 A8 A9 A10 A11 A12 A13 A14 A15 Cv.
  destruct (w_cond lids lp tc sc c l X hist (cur sb)) as (R1 & R2 & R3); auto. apply res_app; auto.
  destruct (body G I b m o lids lp tc X (hist ++ l) (sz sc) sb lid lb fin) as (B1 & B2 & B3 & B4); auto. apply res_app; auto.
  apply (IH lids lp tc sc sb X ((hist ++ l) ++ m) fin); auto.
Qed.

Lemma cf_exit lid pre r b : claimF lid pre r b [] Norm.
Proof.
  intros lids lp tc sb X hist ck fin lp' sb' A1 A2 A3 A4 A5 A6 A7 A8 A9 A10 A11 A12 Cv. split; [apply locd_nil|]. cbn. rewrite app_nil_r. eapply cov_skip; eauto.
Qed.
Lemma cf_raise lid pre b : claimF lid pre true b [] Exc.
Proof.
  intros lids lp tc sb X hist ck fin lp' sb' A1 A2 A3 A4 A5 A6 A7 A8 A9 A10 A11 A12 Cv. split; [apply locd_nil|]. cbn. destruct tc as [|[r f] tc]; auto. specialize (A5 ltac:(discriminate)). discriminate.
Qed.
Lemma cf_leave lid pre r b m o : claim b m o -> leaves lid o -> claimF lid pre r b (pre ++ m) o.
Proof.
  intros H LV lids lp tc sb X hist ck fin lp' sb' A1 A2 A3 A4 A5 A6 A7 A8 A9 A10 A11 A12 Cv. apply res_app; [now apply locd_none|].
  destruct (body G I b m o lids lp tc X (hist ++ pre) (sz sb) sb lid ck fin) as (B1 & B2 & B3 & B4); auto. split; auto.
Qed.
Lemma cf_break lid pre r b m t : claim b m (Brk t) -> hits lid t -> claimF lid pre r b (pre ++ m) Norm.
Proof.
  intros H HT lids lp tc sb X hist ck fin lp' sb' A1 A2 A3 A4 A5 A6 A7 A8 A9 A10 A11 A12 Cv. apply res_app; [now apply locd_none|].
  destruct (body G I b m (Brk t) lids lp tc X (hist ++ pre) (sz sb) sb lid ck fin) as (B1 & B2 & B3 & B4); auto. split; auto. cbn. eapply B3; eauto.
Qed.
Lemma cf_next lid pre r b m o k o' : claim b m o -> again lid o -> claimF lid pre r b k o' -> claimF lid pre r b (pre ++ m ++ k) o'.
Proof.
  intros H AG IH lids lp tc sb X hist ck fin lp' sb' A1 A2 A3 A4 A5 A6 A7 A8 A9 A10 A11 A12 Cv. apply res_app; [now apply locd_none|].
  destruct (body G I b m o lids lp tc X (hist ++ pre) (sz sb) sb lid ck fin) as (B1 & B2 & B3 & B4); auto. apply res_app; auto.
  apply (IH lids lp tc sb X ((hist ++ pre) ++ m) ck fin); auto.
Qed.

Lemma c_for_stop lid i x r it b l o : claim it l o -> o <> Norm -> claim (For lid i x r it b) l o.
Proof.
  intros H NE lids lp tc s X hist C O Cx Dn Cv. ob. neg.
  destruct (for_parts G I lp tc s lid i x r it b _ C Dn) as (si & ck & nx & sb & A1 & A2 & A3 & A4 & A5 & A6 & A7 & A8 & A9 & A10 & A11 & A12 & A13 & A14 & A15 & A16 & A17 & A18 & A19).
  eapply res_stop; [|exact NE]. apply (H lids lp tc si X hist); auto using done_weak.
  - eapply ctx_mono; eauto.
  - rewrite A8. eapply cov_edge; eauto.
Qed.
Lemma c_for lid i x r it b l m o : claim it l Norm -> claimF lid [Item i (KDef x None)] r b m o -> claim (For lid i x r it b) (l ++ m) o.
Proof.
  intros H H' lids lp tc s X hist C O Cx Dn Cv. ob. neg.
  destruct (for_parts G I lp tc s lid i x r it b _ C Dn) as (si & ck & nx & sb & A1 & A2 & A3 & A4 & A5 & A6 & A7 & A8 & A9 & A10 & A11 & A12 & A13 & A14 & A15 & A16 & A17 & A18 & A19).
  destruct (H lids lp tc si X hist) as [R1 R2]; auto using done_weak; [eapply ctx_mono; eauto|rewrite A8; eapply cov_edge; eauto|]. cbn in R2. apply res_app; auto.
  eapply to_nil; [exact A3|reflexivity|]. apply (H' lids lp tc sb X (hist ++ l) ck (cur (build (For lid i x r it b) lp tc s))); auto.
  - intros T. match goal with H : negb (intry tc) || negb r = true |- _ => destruct tc; [contradiction|cbn in H; now apply negb_true_iff] end.
  - eapply ctx_mono; eauto.
  - intros h Ch. eapply cov_edge; [|exact A17|exact A18]. apply (cov_item G I X nx []); auto. eapply cov_skip; eauto.
  - intros v y [<-|[]]. discriminate.
  - eapply (leave G I X tc si (build it lp tc si)); eauto. now apply build_frame.
Qed.

(** Counted loops: the graph assigns the variable before the bounds are computed, so it is not covered there. *)
Lemma weaken_stop x X lp tc N N' h o : post (x :: X) lp tc N h o -> o <> Norm -> (forall t, o <> Brk t /\ o <> Cnt t) -> tc = [] \/ o = Part -> post X lp tc N' h o.
Proof.
  intros P NE NJ T. destruct o as [|t|t| | |]; cbn in *; auto; try contradiction.
  - destruct (NJ t). contradiction.
  - destruct (NJ t). contradiction.
  - destruct T as [->|]; [auto|discriminate].
  - destruct T as [->|]; [auto|discriminate].
Qed.
Lemma leaf_ends e l o : exec e l o -> leafb e = true -> o = Norm \/ o = Part.
Proof. intros E. destruct E; try discriminate; auto. Qed.
Lemma leaf_only a z tc o e l : negb (intry tc) || leafb a && leafb z = true -> exec e l o -> e = a \/ e = z -> o <> Norm -> tc = [] \/ o = Part.
Proof.
  intros H Ex E NE. destruct tc as [|p tc]; auto. cbn in H. apply andb_prop in H. destruct H as [H1 H2]. right. destruct (leaf_ends e l o Ex) as [|]; auto; [destruct E as [->| ->]; auto|contradiction].
Qed.
Lemma cov_less X x b i a hist : cov X b [] hist -> cov (x :: X) b [Item i (KDef x a)] hist.
Proof.
  intros H y HY d L. destruct (H y ltac:(cbn in HY; tauto) d L) as (s & h & d' & S1 & S2 & S3 & S4). exists s, h, d'. split; auto. split; auto. split; auto.
  rewrite app_nil_r in S3. rewrite lastdef_snoc. cbn. destruct (Nat.eqb_spec y x) as [->|]; auto. exfalso. apply HY. now left.
Qed.
Lemma cov_counter X x ck nx j hist : cov (x :: X) ck [] hist -> nx < size G -> In ck (succs G nx) -> I nx = [Item j (KDef x None)] -> cov X ck [] hist.
Proof.
  intros H L E EI y HY. destruct (Nat.eq_dec y x) as [->|NE].
  - intros d _. exists nx, [nx], (Item j (KDef x None)). split; auto. split; [econstructor; [constructor|auto]|]. split; [|right; eexists; reflexivity].
    rewrite ran_cons. cbn. rewrite EI. cbn. unfold lastdef. cbn. rewrite Nat.eqb_refl. reflexivity.
  - apply H. cbn. intuition.
Qed.
Lemma cov_turn X x ck nx bd j h : cov X ck [] h -> I ck = [] -> In bd (succs G ck) -> nx < size G -> In ck (succs G nx) -> I nx = [Item j (KDef x None)] -> cov X bd [] (h ++ [Item j (KDef x None)]).
Proof.
  intros H E1 E2 L E3 E4 y HY d. rewrite lastdef_snoc. cbn. destruct (Nat.eqb_spec y x) as [->|NE].
  - intros Q; injection Q as <-. exists nx, [ck; nx], (Item j (KDef x None)). split; auto. split; [econstructor; [econstructor; [constructor|auto]|auto]|]. split; [|auto].
    rewrite !ran_cons, E1, E4. unfold lastdef. cbn. rewrite Nat.eqb_refl. reflexivity.
  - intros Q. eapply (cov_skip G I X ck bd h); eauto.
Qed.
Lemma c_imp_stop1 lid i j x a z b l o : exec a l o -> claim a l o -> o <> Norm -> claim (ImpFor lid i j x a z b) l o.
Proof.
  intros Ex H NE lids lp tc s X hist C O Cx Dn Cv. ob. neg.
  destruct (imp_parts G I lp tc s lid i j x a z b _ C Dn) as (sa & ck & nx & sb & A1 & A2 & A3 & A4 & A5 & A6 & A7 & A8 & A9 & A10 & A11 & A12 & A13 & A14 & A15 & A16 & A17 & A18 & A19 & A20).
  destruct (H lids lp tc sa (x :: X) hist) as [R1 R2]; auto.
  - eapply ctx_mono; eauto.
  - match goal with H : jumps a = false |- _ => rewrite H end. exact A10.
  - rewrite A8. apply cov_less. eapply cov_edge; eauto.
  - split; auto. eapply weaken_stop; eauto.
    + eapply (proj1 exec_calm); eauto.
    + eapply leaf_only; eauto.
Qed.
Lemma c_imp_stop2 lid i j x a z b l m o : claim a l Norm -> exec z m o -> claim z m o -> o <> Norm -> claim (ImpFor lid i j x a z b) (l ++ m) o.
Proof.
  intros H Ex H' NE lids lp tc s X hist C O Cx Dn Cv. ob. neg.
  destruct (imp_parts G I lp tc s lid i j x a z b _ C Dn) as (sa & ck & nx & sb & A1 & A2 & A3 & A4 & A5 & A6 & A7 & A8 & A9 & A10 & A11 & A12 & A13 & A14 & A15 & A16 & A17 & A18 & A19 & A20).
  pose proof (build_frame a lp tc sa A4) as (Gr & F1 & F2). pose proof (g_sz _ _ _ Gr).
  destruct (H lids lp tc sa (x :: X) hist) as [R1 R2]; auto.
  - eapply ctx_mono; eauto.
  - match goal with H : jumps a = false |- _ => rewrite H end. exact A10.
  - rewrite A8. apply cov_less. eapply cov_edge; eauto.
  - apply res_app; auto. destruct (H' lids lp tc (build a lp tc sa) (x :: X) (hist ++ l)) as [R3 R4]; auto using done_weak.
    + eapply ctx_mono; eauto. lia.
    + split; auto. eapply weaken_stop; eauto.
      * eapply (proj1 exec_calm); eauto.
      * eapply leaf_only; eauto.
Qed.
Lemma c_imp lid i j x a z b l m k o : claim a l Norm -> claim z m Norm -> claimF lid [Item j (KDef x None)] false b k o -> claim (ImpFor lid i j x a z b) (l ++ m ++ k) o.
Proof.
  intros H H' HF lids lp tc s X hist C O Cx Dn Cv. ob. neg.
  destruct (imp_parts G I lp tc s lid i j x a z b _ C Dn) as (sa & ck & nx & sb & A1 & A2 & A3 & A4 & A5 & A6 & A7 & A8 & A9 & A10 & A11 & A12 & A13 & A14 & A15 & A16 & A17 & A18 & A19 & A20).
  pose proof (build_frame a lp tc sa A4) as (Gr & F1 & F2). pose proof (g_sz _ _ _ Gr).
  destruct (H lids lp tc sa (x :: X) hist) as [R1 R2]; auto.
  - eapply ctx_mono; eauto.
  - match goal with H : jumps a = false |- _ => rewrite H end. exact A10.
  - rewrite A8. apply cov_less. eapply cov_edge; eauto.
  - apply res_app; auto. destruct (H' lids lp tc (build a lp tc sa) (x :: X) (hist ++ l)) as [R3 R4]; auto using done_weak.
    + eapply ctx_mono; eauto. lia.
    + apply res_app; auto. eapply to_nil; [exact A3|reflexivity|].
      apply (HF lids lp tc sb X ((hist ++ l) ++ m) ck (cur (build (ImpFor lid i j x a z b) lp tc s))); auto.
      * eapply ctx_mono; eauto.
      * intros h Ch. eapply cov_turn; eauto.
      * intros v y [<-|[]]. discriminate.
      * eapply (cov_counter X x ck nx j); eauto. eapply (leave G I (x :: X) tc (build a lp tc sa) (build z lp tc (build a lp tc sa))); eauto. now apply build_frame.
Qed.

(** ** Jumps *)
Lemma firstn_In {A} n (l : list A) x : In x (firstn n l) -> In x l.
Proof. intros H. rewrite <- (firstn_skipn n l). apply in_or_app. auto. Qed.
Lemma found lids lp tc n t : ctx lids lp tc n -> match t with None => match lids with [] => false | _ => true end | Some l => memb l lids end = true -> exists e, findLoop lp t = Some e.
Proof.
  intros Cx H. pose proof (c_lids _ _ _ _ _ _ Cx) as E. destruct t as [l|]; cbn [findLoop].
  - apply DomProofs.memb_In in H. rewrite <- E in H. apply in_map_iff in H. destruct H as (e & E1 & E2). destruct (find _ (rev lp)) as [e'|] eqn:F; eauto.
    exfalso. apply in_rev in E2. pose proof (find_none _ _ F e E2) as Q. cbn in Q. rewrite E1, Nat.eqb_refl in Q. discriminate.
  - destruct lp; cbn in *; [subst; discriminate|eauto].
Qed.
Lemma jumped lids lp tc s X hist i cf dp : cur s < sz s -> ctx lids lp tc (sz s) -> done s (insert tc (Item i KOther) (jump tc (Some cf) dp s)) true ->
  cov X (cur s) (its s (cur s)) hist -> CfgProofs.jumps_to G I X tc cf dp hist.
Proof.
  intros C Cx Dn Cv. destruct (jump_frame tc (Some cf) dp s C) as (Gr & J1 & J2 & J3). pose proof (jframe tc tc (Some cf) dp s C) as JF.
  assert (C1 : cur (jump tc (Some cf) dp s) < sz (jump tc (Some cf) dp s)) by lia.
  destruct (insert_frame tc (Item i KOther) (jump tc (Some cf) dp s) C1) as (Gr' & F1 & F2).
  assert (EI : exists m, I (cur s) = its s (cur s) ++ m /\ Forall nodef m).
  { pose proof (g_sz _ _ _ Gr'). exists (match tc with [] => [Item i KOther] | _ => [] end). rewrite (d_its _ _ _ _ _ Dn); [|auto|lia|auto]. unfold insert. destruct tc as [|[r f] tc]; cbv zeta; csz.
    - rewrite J1, put_eq, J3. split; auto. constructor; [apply nodef_other|constructor].
    - rewrite !put_ne by lia. rewrite J3, app_nil_r. auto. }
  assert (K : forall c, In c (suc (jump tc (Some cf) dp s) (cur s)) -> cov X c [] hist).
  { intros c Hc. destruct EI as (m & E1 & E2). eapply cov_edge; [|exact E1|].
    - rewrite <- (app_nil_r hist). eapply cov_nodef; eauto.
    - pose proof (g_sz _ _ _ Gr'). apply (d_suc _ _ _ _ _ Dn); [lia|]. apply (g_suc _ _ _ Gr'); [lia|auto]. }
  unfold CfgProofs.jumps_to. unfold jump in K at 1. destruct (Nat.leb_spec (length tc) dp) as [L|L].
  - replace (length tc - dp) with 0 by lia. cbn. apply K. cbn [edge_opt]. apply edge_in.
  - destruct (nearestFinally (rev (firstn (length tc - dp) tc))) as [f|] eqn:NF.
    + assert (NI := nearest_in _ _ NF). destruct NI as (r' & NI). apply in_rev in NI. apply firstn_In in NI. pose proof (c_fin _ _ _ _ _ _ Cx r' f NI) as LF.
      destruct tc as [|[r g] tc]; [destruct NI|]. split.
      * pose proof (g_sz _ _ _ Gr'). apply (d_suc _ _ _ _ _ Dn); [lia|]. apply (g_suc _ _ _ Gr'); [lia|]. unfold jump. rewrite (proj2 (Nat.leb_gt _ _) L), NF. cbn [edge_opt]. apply edge_in.
      * apply K. cbn [edge_opt]. apply edge_mono, edge_in.
    + apply K. cbn [edge_opt]. apply edge_in.
Qed.
Lemma c_break i t : claim (Break i t) [] (Brk t).
Proof.
  intros lids lp tc s X hist C O Cx Dn Cv. split; [apply locd_nil|]. rewrite app_nil_r. destruct (found lids lp tc (sz s) t Cx) as (e & F); [cbn in O; destruct t; exact O|].
  exists e. split; auto. cbn [build jumps orb] in Dn. rewrite F in Dn. eapply jumped; eauto.
Qed.
Lemma c_continue i t : claim (Continue i t) [] (Cnt t).
Proof.
  intros lids lp tc s X hist C O Cx Dn Cv. split; [apply locd_nil|]. rewrite app_nil_r. destruct (found lids lp tc (sz s) t Cx) as (e & F); [cbn in O; destruct t; exact O|].
  exists e. split; auto. cbn [build jumps orb] in Dn. rewrite F in Dn. eapply jumped; eauto.
Qed.
Lemma c_return i : claim (Return i None) [Item i KOther] End.
Proof.
  intros lids lp tc s X hist C O Cx Dn Cv. cbn [build jumps orb] in *. destruct (jump_frame tc None 0 s C) as (Gr & J1 & J2 & J3).
  pose proof (jframe tc tc None 0 s C) as F.
  apply (then_insert G I X lids lp tc (Item i KOther) s (jump tc None 0 s) hist [] End); auto; try discriminate. split; [apply locd_nil|]. cbn. rewrite app_nil_r. unfold CfgProofs.after. now rewrite J1, J3.
Qed.
Lemma c_return_value i v l : claim v l Norm -> claim (Return i (Some v)) (l ++ [Item i KOther]) End.
Proof.
  intros H lids lp tc s X hist C O Cx Dn Cv. ob. cbn [build jumps orb] in *. pose proof (build_frame v lp tc s C) as F.
  assert (C1 : cur (build v lp tc s) < sz (build v lp tc s)) by apply F.
  destruct (jump_frame tc None 0 (build v lp tc s) C1) as (Gr & J1 & J2 & J3). pose proof (jframe tc tc None 0 (build v lp tc s) C1) as F'.
  assert (F'' := frame_trans _ _ _ _ F F'). eapply (then_insert G I X lids lp tc); eauto using no_use. pose proof (done_first G I tc (Item i KOther) s _ F'' Dn) as D1.
  eapply result_map; [apply (H lids lp tc s X hist); auto|].
  - match goal with H : jumps v = false |- _ => rewrite H end. eapply (seq_done G I tc s); eauto.
  - intros _. unfold CfgProofs.after. now rewrite J1, J3.
Qed.
Lemma c_return_stop i v l o : claim v l o -> o <> Norm -> claim (Return i (Some v)) l o.
Proof.
  intros H NE lids lp tc s X hist C O Cx Dn Cv. ob. cbn [build jumps orb] in *. pose proof (build_frame v lp tc s C) as F.
  assert (C1 : cur (build v lp tc s) < sz (build v lp tc s)) by apply F.
  pose proof (jframe tc tc None 0 (build v lp tc s) C1) as F'. assert (F'' := frame_trans _ _ _ _ F F'). pose proof (done_first G I tc (Item i KOther) s _ F'' Dn) as D1.
  eapply res_stop; [|exact NE]. apply (H lids lp tc s X hist); auto.
  match goal with H : jumps v = false |- _ => rewrite H end. eapply (seq_done G I tc s); eauto.
Qed.
Lemma c_throw i : claim (Throw i None) [Item i KOther] Exc.
Proof.
  intros lids lp tc s X hist C O Cx Dn Cv. cbn [build jumps orb] in *. eapply insert_res; eauto using no_use.
  - destruct tc; auto; contradiction.
  - left; right; auto.
Qed.
Lemma c_throw_value i v l : claim v l Norm -> claim (Throw i (Some v)) (l ++ [Item i KOther]) Exc.
Proof.
  intros H lids lp tc s X hist C O Cx Dn Cv. ob. cbn [build jumps orb] in *. pose proof (build_frame v lp tc s C) as F.
  eapply (then_insert G I X lids lp tc); eauto using no_use; [|left; right; auto]. apply (H lids lp tc s X hist); auto.
  match goal with H : jumps v = false |- _ => rewrite H end. eapply done_first; eauto.
Qed.
Lemma c_throw_stop i v l o : claim v l o -> o <> Norm -> claim (Throw i (Some v)) l o.
Proof.
  intros H NE lids lp tc s X hist C O Cx Dn Cv. ob. cbn [build jumps orb] in *. pose proof (build_frame v lp tc s C) as F.
  eapply res_stop; [|exact NE]. apply (H lids lp tc s X hist); auto. match goal with H : jumps v = false |- _ => rewrite H end. eapply done_first; eauto.
Qed.

(** ** Exception handlers *)
Lemma ct_stop b cs el l o : claim b l o -> o <> Norm -> claimT b cs el l o.
Proof.
  intros H NE lids lp route f tc sb X hist dst tc' sb' A1 A2 A3 A4 A5 A6 A7 A8 A9 Cv. eapply res_stop; [|exact NE]. apply (H lids lp tc' sb X hist); auto using done_weak.
Qed.
Lemma ct_norm b cs l : claim b l Norm -> claimT b cs None l Norm.
Proof.
  intros H lids lp route f tc sb X hist dst tc' sb' A1 A2 A3 A4 A5 A6 A7 A8 A9 Cv. eapply (branch G I b l Norm lids lp tc' X hist (sz sb) sb); eauto.
Qed.
Lemma ct_else b cs e l m o : claim b l Norm -> claim e m o -> claimT b cs (Some e) (l ++ m) o.
Proof.
  intros H H' lids lp route f tc sb X hist dst tc' sb' A1 A2 A3 A4 A5 A6 A7 A8 (se & B1 & B2 & B3 & B4 & B5 & B6) Cv.
  destruct (branch G I b l Norm lids lp tc' X hist (sz sb) sb (cur se)) as [R1 R2]; auto. apply res_app; auto.
  eapply (branch0 G I e m o lids lp tc' X (hist ++ l) (sz sb) se); eauto.
Qed.
Lemma ct_catch b cs el l k v h m o : claim b l Exc -> nth_error cs k = Some (v, h) -> claim h m o -> claimT b cs el (l ++ catch_items v ++ m) o.
Proof.
  intros H K H' lids lp route f tc sb X hist dst tc' sb' A1 A2 A3 A4 A5 A6 A7 A8 A9 Cv. destruct (A8 k v h K) as (sh & B1 & B2 & B3 & B4 & B5 & B6).
  destruct (H lids lp tc' sb X hist) as [R1 R2]; auto using done_weak. cbn in R2. apply res_app; auto. apply res_app.
  - apply locd_none. intros w y. destruct v as [[i x]|]; cbn; [intros [<-|[]]; discriminate|tauto].
  - pose proof (d_sz _ _ _ _ _ B4) as Z. pose proof (build_frame h lp tc' sh B1) as (Gr & _). pose proof (g_sz _ _ _ Gr).
    eapply (branch G I h m o lids lp tc' X _ (sz sb) sh); eauto.
    + rewrite forallb_forall in A3. apply (A3 (v, h)). eapply nth_error_In; eauto.
    + rewrite B3. assert (Cs : cov X (cur sh) [] (hist ++ l)) by (eapply cov_skip; eauto). destruct v as [[i x]|]; cbn [catch_items].
      * apply (cov_item G I X (cur sh) []); auto. lia.
      * now rewrite app_nil_r.
Qed.
Lemma nearest_skip l r : nearestFinally (l ++ [(r, None)]) = nearestFinally l.
Proof. induction l as [|[q [f|]] l IH]; cbn; auto. Qed.
Lemma jumps_out X tc route cf dp h : dp <= length tc -> I route = [] -> match tc with (r2, _) :: _ => In r2 (succs G route) | [] => True end ->
  CfgProofs.jumps_to G I X ((route, None) :: tc) cf dp h -> CfgProofs.jumps_to G I X tc cf dp h.
Proof.
  intros L E R. unfold CfgProofs.jumps_to. cbn [length]. replace (S (length tc) - dp) with (S (length tc - dp)) by lia. cbn [firstn rev]. rewrite nearest_skip.
  destruct (nearestFinally _) as [f|] eqn:NF; auto. intros (A & B). split; auto. destruct tc as [|[r2 f2] tc]; [rewrite firstn_nil in NF; discriminate|]. eapply cov_skip; eauto.
Qed.
Lemma ctx_none lids lp tc n m r : ctx lids lp tc n -> n <= m -> I r = [] -> match tc with (r2, _) :: _ => In r2 (succs G r) | [] => True end -> ctx lids lp ((r, None) :: tc) m.
Proof.
  intros [A B C D] L E R. split.
  - exact A.
  - eapply Forall_impl; [|exact B]. cbn. intros; lia.
  - split; auto. 
  - intros r' f [H|H]; [discriminate|]. specialize (D r' f H). lia.
Qed.
Lemma c_try b cs el l o : claimT b cs el l o -> claim (Try b cs el None) l o.
Proof.
  intros H lids lp tc s X hist C O Cx Dn Cv. ob. destruct (try_parts G I lp tc s b cs el None _ C Dn ltac:(congruence)) as (route & f & sb & dst & A1 & A2 & A3 & A4 & A5 & A6 & A7 & A8 & A9 & -> & A10 & A11).
  assert (Cx' : ctx lids lp ((route, None) :: tc) (sz sb)) by (eapply ctx_none; eauto).
  destruct (H lids lp route None tc sb X hist dst) as [R1 R2]; auto.
  - rewrite A2, A1. exact Cv.
  - split; auto. pose proof (c_depth _ _ _ _ _ _ Cx) as Dp. rewrite Forall_forall in Dp. destruct o as [|t|t| | |]; cbn [CfgProofs.post] in R2 |- *; auto.
    + unfold CfgProofs.after. rewrite A6, <- A10. exact R2.
    + destruct R2 as (e & F & J). exists e. split; auto. eapply jumps_out; eauto. apply Dp. eapply findLoop_in; eauto.
    + destruct R2 as (e & F & J). exists e. split; auto. eapply jumps_out; eauto. apply Dp. eapply findLoop_in; eauto.
    + destruct tc as [|[r2 f2] tc]; auto. eapply cov_skip; eauto.
    + destruct tc as [|[r2 f2] tc]; auto. eapply cov_skip; eauto.
Qed.
Lemma ctx_some lids lp n m r f : ctx lids lp [] n -> f < m -> I r = [] -> In f (succs G r) -> ctx lids lp [(r, Some f)] m.
Proof.
  intros [A B C D] L E R. split.
  - exact A.
  - eapply Forall_impl; [|exact B]. cbn. intros; lia.
  - split; auto. 
  - intros r' f' [H|H]; [congruence|destruct H].
Qed.
(** where the finally part starts, and what is known there *)
Lemma at_finally b cs el ff l o lids lp s X hist dg : claimT b cs el l o -> cur s < sz s -> ok lids false X (Try b cs el (Some ff)) = true -> ctx lids lp [] (sz s) ->
  done s (build (Try b cs el (Some ff)) lp [] s) dg -> cov X (cur s) (its s (cur s)) hist ->
  locd hist l /\ (o <> Part -> exists sf, cur sf < sz sf /\ sz s <= sz sf /\ its sf (cur sf) = [] /\ done sf (build ff lp [] sf) true /\ 
    In (cur (build (Try b cs el (Some ff)) lp [] s)) (succs G (cur (build ff lp [] sf))) /\
    cov X (cur sf) [] (hist ++ l) /\ its (build (Try b cs el (Some ff)) lp [] s) (cur (build (Try b cs el (Some ff)) lp [] s)) = [] /\
    match o with
    | Brk t => exists e, findLoop lp t = Some e /\ depth e = 0 /\ In (fini e) (succs G (cur sf))
    | Cnt t => exists e, findLoop lp t = Some e /\ depth e = 0 /\ In (next e) (succs G (cur sf))
    | _ => True
    end).
Proof.
  intros H C O Cx Dn Cv. ob. destruct (try_parts G I lp [] s b cs el (Some ff) _ C Dn ltac:(auto)) as (route & f & sb & dst & A1 & A2 & A3 & A4 & A5 & A6 & A7 & A8 & A9 & sf & -> & B1 & B2 & B3 & B4 & B5 & B6 & B7 & B8).
  assert (Cx' : ctx lids lp [(route, Some (cur sf))] (sz sb)) by (eapply ctx_some; eauto).
  destruct (H lids lp route (Some (cur sf)) [] sb X hist dst) as [R1 R2]; auto.
  { rewrite A2, A1. exact Cv. } split; auto. intros NP. exists sf. split; auto. split; auto. split; auto. split; auto. split; auto.
  assert (Z : forall e t, findLoop lp t = Some e -> depth e = 0). { intros e t F. pose proof (c_depth _ _ _ _ _ _ Cx) as Dp. rewrite Forall_forall in Dp. specialize (Dp e (findLoop_in _ _ _ F)). cbn in Dp. lia. }
  assert (Q : cov X (cur sf) [] (hist ++ l) /\ match o with
    | Brk t => exists e, findLoop lp t = Some e /\ depth e = 0 /\ In (fini e) (succs G (cur sf))
    | Cnt t => exists e, findLoop lp t = Some e /\ depth e = 0 /\ In (next e) (succs G (cur sf))
    | _ => True
    end).
  { destruct o as [|t|t| | |]; cbn [CfgProofs.post] in R2 |- *; auto; try contradiction.
    - split; auto. now rewrite <- B1.
    - destruct R2 as (e & F & J). unfold CfgProofs.jumps_to in J. rewrite (Z e t F) in J. cbn in J. destruct J as [J1 J2]. split; [eapply cov_skip; eauto|]. exists e. eauto.
    - destruct R2 as (e & F & J). unfold CfgProofs.jumps_to in J. rewrite (Z e t F) in J. cbn in J. destruct J as [J1 J2]. split; [eapply cov_skip; eauto|]. exists e. eauto.
    - split; auto. eapply cov_skip; eauto.
    - split; auto. eapply cov_skip; eauto. }
  destruct Q as [Q1 Q2]. auto.
Qed.
Lemma not_intry tc : intry tc = false -> tc = [].
Proof. destruct tc; auto; discriminate. Qed.
Lemma c_try_part b cs el f l : claimT b cs el l Part -> claim (Try b cs el (Some f)) l Part.
Proof.
  intros H lids lp tc s X hist C O Cx Dn Cv. assert (T : tc = []) by (apply not_intry; ob; assumption). subst tc.
  destruct (at_finally b cs el f l Part lids lp s X hist _ H C O Cx Dn Cv) as [R _]. split; auto. exact Logic.I.
Qed.
Lemma c_finally b cs el f l o m : claimT b cs el l o -> o <> Part -> claim f m Norm -> claim (Try b cs el (Some f)) (l ++ m) o.
Proof.
  intros H NP H' lids lp tc s X hist C O Cx Dn Cv. assert (T : tc = []) by (apply not_intry; ob; assumption). subst tc.
  destruct (at_finally b cs el f l o lids lp s X hist _ H C O Cx Dn Cv) as [R (sf & A1 & A2 & A3 & A4 & A5 & A6 & A7 & A8)]; auto. apply res_app; auto.
  ob. match goal with H : straight f = true |- _ => pose proof (straight_cur f H lp sf) as SC end. pose proof (build_frame f lp [] sf A1) as F.
  destruct (H' lids lp [] sf X (hist ++ l)) as [R1 R2]; auto using done_weak; [eapply ctx_mono; eauto|now rewrite A3|]. cbn in R2.
  assert (LV : forall c, In c (succs G (cur (build f lp [] sf))) -> cov X c [] ((hist ++ l) ++ m)) by (intros c; eapply (leave G I X [] sf); eauto).
  split; auto. rewrite SC in *. destruct o as [|t|t| | |]; cbn [CfgProofs.post]; auto.
  - unfold CfgProofs.after. rewrite A7. auto.
  - destruct A8 as (e & F1 & F2 & F3). exists e. split; auto. unfold CfgProofs.jumps_to. cbn. auto.
  - destruct A8 as (e & F1 & F2 & F3). exists e. split; auto. unfold CfgProofs.jumps_to. cbn. auto.
Qed.
Lemma c_finally_stop b cs el f l o m o' : claimT b cs el l o -> o <> Part -> claim f m o' -> o' <> Norm -> claim (Try b cs el (Some f)) (l ++ m) o'.
Proof.
  intros H NP H' NE lids lp tc s X hist C O Cx Dn Cv. assert (T : tc = []) by (apply not_intry; ob; assumption). subst tc.
  destruct (at_finally b cs el f l o lids lp s X hist _ H C O Cx Dn Cv) as [R (sf & A1 & A2 & A3 & A4 & A5 & A6 & A7 & A8)]; auto. apply res_app; auto. ob.
  eapply res_stop; [|exact NE]. apply (H' lids lp [] sf X (hist ++ l)); auto using done_weak; [eapply ctx_mono; eauto|now rewrite A3].
Qed.

Theorem covered :
  (forall e l o, exec e l o -> claim e l o) /\ (forall es l o, execs es l o -> claims es l o) /\
  (forall lid c b l o, whiles lid c b l o -> claimW lid c b l o) /\
  (forall lid pre r b l o, turns lid pre r b l o -> claimF lid pre r b l o) /\
  (forall b cs el l o, tries b cs el l o -> claimT b cs el l o).
Proof.
  apply exec_mut; intros.
  - apply c_part.
  - apply c_leaf.
  - now apply c_op.
  - now apply c_op_stop.
  - now apply c_assign.
  - now apply c_assign_stop.
  - now apply c_series.
  - now apply c_if_stop.
  - now apply c_if_true.
  - now apply c_if_false.
  - now apply c_if_none.
  - now apply c_tern_stop.
  - now apply c_tern_true.
  - now apply c_tern_true_stop.
  - now apply c_tern_false.
  - now apply c_tern_false_stop.
  - now apply c_while.
  - now apply c_for_stop.
  - now apply c_for.
  - now apply c_imp_stop1.
  - now apply c_imp_stop2.
  - now apply c_imp.
  - now apply c_try.
  - now apply c_try_part.
  - now apply c_finally.
  - eapply c_finally_stop; eauto.
  - apply c_break.
  - apply c_continue.
  - apply c_return.
  - now apply c_return_value.
  - now apply c_return_stop.
  - apply c_throw.
  - now apply c_throw_value.
  - now apply c_throw_stop.
  - apply cs_nil.
  - now apply cs_cons.
  - now apply cs_stop.
  - now apply cw_stop.
  - now apply cw_exit.
  - now apply cw_leave.
  - eapply cw_break; eauto.
  - eapply cw_next; eauto.
  - apply cf_exit.
  - apply cf_raise.
  - now apply cf_leave.
  - eapply cf_break; eauto.
  - eapply cf_next; eauto.
  - now apply ct_stop.
  - now apply ct_norm.
  - now apply ct_else.
  - eapply ct_catch; eauto.
Qed.
End Cover.
