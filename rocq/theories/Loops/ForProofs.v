From Coq Require Import List ZArith Lia Bool.
From Verif.Common Require Import Int64.
From Verif.Loops Require Import ForModel ForSpec.
Import ListNotations.
Local Open Scope Z_scope.

Section Proofs.
Context {st V ref addr X : Type}.
Context (len_of : ref -> st -> Z) (ptr_of : ref -> st -> addr) (load : addr -> Z -> st -> V).
Context (setz : Z -> st -> st) (setv : V -> st -> st) (value_error : X).
Local Notation stmt := (stmt (st := st) (X := X)).
Local Notation exec := (exec len_of ptr_of load setz setv value_error).

(** ** Range loops *)

Lemma range_done a b k g s : k <> 0 ->
  let i := match g with RStart => a | RAt i => w64 (i + k) end in
  resume_range (st := st) a b k g s = if imp_done k b i then None else Some (i, RAt i).
Proof.
  intros Hk. unfold resume_range, imp_done. destruct g; cbn zeta; destruct (0 <? k);
    repeat match goal with |- context [?x <? ?y] => destruct (Z.ltb_spec x y) | |- context [?x <=? ?y] => destruct (Z.leb_spec x y) end; auto; lia.
Qed.

Definition at_gen (a k : Z) (g : rgen) : Z := match g with RStart => a | RAt i => w64 (i + k) end.

Lemma flow_imp (body : stmt) a b k g s s' o : k <> 0 -> for_flow (resume_range a b k) setz body g s s' o -> imp_for setz body k b (at_gen a k g) s s' o.
Proof.
  intros Hk H. induction H as [g s E|g s i g' s1 o s2 o2 E B O F IH|g s i g' s1 E B|g s i g' s1 x E B];
    rewrite range_done in E by assumption; fold (at_gen a k g) in E; destruct (imp_done k b (at_gen a k g)) eqn:D; try discriminate.
  - now constructor.
  - injection E as <- <-. eapply if_next; eauto.
  - injection E as <- <-. now apply if_break.
  - injection E as <- <-. now apply if_exit.
Qed.

Lemma imp_flow (body : stmt) a b k i s s' o : k <> 0 -> imp_for setz body k b i s s' o ->
  forall g, at_gen a k g = i -> for_flow (resume_range a b k) setz body g s s' o.
Proof.
  intros Hk H. induction H as [i s D|i s s1 o s2 o2 D B O F IH|i s s1 D B|i s s1 x D B]; intros g Eg;
    pose proof (range_done a b k g s Hk) as E; fold (at_gen a k g) in E; cbn zeta in E; rewrite Eg, D in E.
  - now constructor.
  - eapply ff_next; eauto.
  - eapply ff_break; eauto.
  - eapply ff_exit; eauto.
Qed.

Lemma range_imp (body : stmt) a b k s s' o : k <> 0 -> for_flow (resume_range a b k) setz body RStart s s' o <-> imp_for setz body k b a s s' o.
Proof. intros Hk. split; [now apply flow_imp|]. intros H. eapply imp_flow; eauto. Qed.

(** ** List loops *)

Lemma list_flow_imp (body : stmt) n p i0 g s s' o : 0 <= n <= max64 -> 0 <= i0 <= n -> g = LAt (i0 - 1) n p ->
  for_flow (resume_list len_of ptr_of load) setv body g s s' o -> imp_for (fun i s => setv (load p i s) s) body 1 n i0 s s' o.
Proof.
  intros Hn Hi Eg H. revert i0 Hi Eg.
  assert (R : forall i0 s, 0 <= i0 <= n -> resume_list len_of ptr_of load (LAt (i0 - 1) n p) s = if imp_done 1 n i0 then None else Some (load p i0 s, LAt i0 n p)).
  { intros i0 t Hi. unfold resume_list, imp_done. replace (i0 - 1 + 1) with i0 by lia. rewrite w64_id by (unfold in64, min64, max64 in *; lia). cbn.
    destruct (Z.ltb_spec i0 n), (Z.leb_spec n i0); auto; lia. }
  induction H as [g s E|g s a g' s1 o s2 o2 E B O F IH|g s a g' s1 E B|g s a g' s1 x E B]; intros i0 Hi ->;
    rewrite R in E by assumption; destruct (imp_done 1 n i0) eqn:D; try discriminate.
  - now constructor.
  - injection E as <- <-. unfold imp_done in D. cbn in D. apply Z.leb_gt in D. assert (W : w64 (i0 + 1) = i0 + 1) by (apply w64_id; unfold in64, min64, max64 in *; lia).
    eapply if_next; eauto; [unfold imp_done; cbn; now apply Z.leb_gt|]. rewrite W. apply IH; [lia|]. f_equal. lia.
  - injection E as <- <-. now apply if_break.
  - injection E as <- <-. now apply if_exit.
Qed.

Lemma list_imp_flow (body : stmt) n p i0 s s' o : 0 <= n <= max64 -> 0 <= i0 <= n ->
  imp_for (fun i s => setv (load p i s) s) body 1 n i0 s s' o -> for_flow (resume_list len_of ptr_of load) setv body (LAt (i0 - 1) n p) s s' o.
Proof.
  intros Hn Hi H. revert Hi.
  assert (R : forall i0 s, 0 <= i0 <= n -> resume_list len_of ptr_of load (LAt (i0 - 1) n p) s = if imp_done 1 n i0 then None else Some (load p i0 s, LAt i0 n p)).
  { intros j t Hi. unfold resume_list, imp_done. replace (j - 1 + 1) with j by lia. rewrite w64_id by (unfold in64, min64, max64 in *; lia). cbn.
    destruct (Z.ltb_spec j n), (Z.leb_spec n j); auto; lia. }
  induction H as [i s D|i s s1 o s2 o2 D B O F IH|i s s1 D B|i s s1 x D B]; intros Hi; specialize (R i s Hi); rewrite D in R.
  - now constructor.
  - assert (D' := D). unfold imp_done in D'. cbn in D'. apply Z.leb_gt in D'. assert (W : w64 (i + 1) = i + 1) by (apply w64_id; unfold in64, min64, max64 in *; lia).
    rewrite W in IH. eapply ff_next; eauto. replace i with (i + 1 - 1) at 1 by lia. apply IH. lia.
  - eapply ff_break; eauto.
  - eapply ff_exit; eauto.
Qed.

(** The first resumption reads length and pointer; so the generator could have started with them. *)
Lemma list_start (body : stmt) r s s' o : for_flow (resume_list len_of ptr_of load) setv body (LStart r) s s' o <->
  for_flow (resume_list len_of ptr_of load) setv body (LAt (0 - 1) (len_of r s) (ptr_of r s)) s s' o.
Proof.
  assert (R : resume_list len_of ptr_of load (LStart r) s = resume_list len_of ptr_of load (LAt (0 - 1) (len_of r s) (ptr_of r s)) s).
  { unfold resume_list. replace (w64 (0 - 1 + 1)) with 0 by reflexivity. reflexivity. }
  split; intros H; inversion H; subst; (rewrite R in * || rewrite <- R in * ); [constructor|eapply ff_next|eapply ff_break|eapply ff_exit|constructor|eapply ff_next|eapply ff_break|eapply ff_exit]; eauto.
Qed.

Lemma list_imp (body : stmt) r s s' o : 0 <= len_of r s <= max64 ->
  for_flow (resume_list len_of ptr_of load) setv body (LStart r) s s' o <->
  imp_for (fun i t => setv (load (ptr_of r s) i t) t) body 1 (len_of r s) 0 s s' o.
Proof.
  intros Hn. rewrite list_start. split; intros H; [eapply list_flow_imp|apply list_imp_flow]; eauto; lia.
Qed.

(** ** The rewriting *)

Lemma eval_one a s s1 v : eval_args (st := st) (X := X) [a] s s1 v <->
  (exists z, v = Val [z] /\ eval_arg a s s1 (Val z)) \/ (exists x, v = Fail x /\ eval_arg a s s1 (Fail x)).
Proof.
  split.
  - intros H. inversion H as [|? ? ? ? ? ? ? E1 E2|? ? ? ? ? E|? ? ? ? ? ? ? E1 E2]; subst; [inversion E2; subst| |inversion E2]; eauto.
  - intros [(z & -> & E)|(x & -> & E)]; [|now apply ea_fail]. eapply ea_cons; eauto. constructor.
Qed.

Lemma eval_cons a l s s2 v : eval_args (st := st) (X := X) (a :: l) s s2 v <->
  (exists s1 z w, eval_arg a s s1 (Val z) /\ eval_args l s1 s2 w /\ v = match w with Val zs => Val (z :: zs) | Fail x => Fail x end) \/
  (exists x, v = Fail x /\ eval_arg a s s2 (Fail x)).
Proof.
  split.
  - intros H. inversion H as [|? ? ? ? ? ? ? E1 E2|? ? ? ? ? E|? ? ? ? ? ? ? E1 E2]; subst; [left|right; eauto|left].
    + eexists _, _, (Val _). eauto.
    + eexists _, _, (Fail _). eauto.
  - intros [(s1 & z & w & E1 & E2 & ->)|(x & -> & E)]; [|now apply ea_fail]. destruct w; [eapply ea_cons|eapply ea_fail2]; eauto.
Qed.

Lemma eval_two a b s s2 v : eval_args (st := st) (X := X) [a; b] s s2 v <->
  (exists s1 y z, v = Val [y; z] /\ eval_arg a s s1 (Val y) /\ eval_arg b s1 s2 (Val z)) \/
  (exists s1 y x, v = Fail x /\ eval_arg a s s1 (Val y) /\ eval_arg b s1 s2 (Fail x)) \/
  (exists x, v = Fail x /\ eval_arg a s s2 (Fail x)).
Proof.
  rewrite eval_cons. split.
  - intros [(s1 & z & w & E1 & E2 & ->)|(x & -> & E)]; [|eauto]. apply eval_one in E2. destruct E2 as [(y & -> & E2)|(x & -> & E2)]; [left|right; left]; eauto 8.
  - intros [(s1 & y & z & -> & E1 & E2)|[(s1 & y & x & -> & E1 & E2)|(x & -> & E)]]; [left|left|right; eauto].
    + exists s1, y, (Val [z]). split; [assumption|]. split; [apply eval_one; eauto|reflexivity].
    + exists s1, y, (Fail x). split; [assumption|]. split; [apply eval_one; eauto|reflexivity].
Qed.

Lemma eval_const a b k s s2 v : eval_args (st := st) (X := X) [a; b; AConst k] s s2 v <->
  exists w, eval_args [a; b] s s2 w /\ v = match w with Val zs => Val (zs ++ [k]) | Fail x => Fail x end.
Proof.
  split.
  - intros H. apply eval_cons in H. destruct H as [(s1 & z & w & E1 & E2 & ->)|(x & -> & E)].
    + apply eval_cons in E2. destruct E2 as [(s3 & y & u & E2 & E3 & ->)|(x & -> & E2)].
      * apply eval_one in E3. destruct E3 as [(q & -> & [-> E3])|(x & -> & [_ E3])]; [|discriminate]. injection E3 as ->.
        exists (Val [z; y]). split; [apply eval_two; left; eauto 8|reflexivity].
      * exists (Fail x). split; [apply eval_two; right; left; eauto 8|reflexivity].
    + exists (Fail x). split; [apply eval_two; right; right; eauto|reflexivity].
  - intros (w & H & ->). apply eval_two in H. destruct H as [(s1 & y & z & -> & E1 & E2)|[(s1 & y & x & -> & E1 & E2)|(x & -> & E)]]; apply eval_cons.
    + left. exists s1, y, (Val [z; k]). split; [assumption|]. split; [|reflexivity]. apply eval_cons. left. exists s2, z, (Val [k]). split; [assumption|].
      split; [apply eval_one; left; exists k; cbn; auto|reflexivity].
    + left. exists s1, y, (Fail x). split; [assumption|]. split; [|reflexivity]. apply eval_cons. right. eauto.
    + right. eauto.
Qed.

Lemma imp_range2 a b k (body : stmt) s s' o : k <> 0 ->
  exec (ImpFor a k b body) s s' o <->
  (exists s1 i n, eval_args [a; b] s s1 (Val [i; n]) /\ for_flow (resume_range i n k) setz body RStart s1 s' o) \/
  (exists x, o = Exit x /\ eval_args [a; b] s s' (Fail x)).
Proof.
  intros Hk. split.
  - intros H. inversion H; subst.
    + left. eexists _, _, _. split; [apply eval_two; left; eauto 8|]. now apply range_imp.
    + right. eexists. split; [reflexivity|]. apply eval_two. right. right. eauto.
    + right. eexists. split; [reflexivity|]. apply eval_two. right. left. eauto 8.
  - intros [(s1 & i & n & E & F)|(x & -> & E)]; apply eval_two in E.
    + destruct E as [(s2 & y & z & E & E1 & E2)|[(? & ? & ? & E & _)|(? & E & _)]]; try discriminate. injection E as -> ->.
      eapply x_imp; eauto. now apply range_imp.
    + destruct E as [(? & ? & ? & E & _)|[(s2 & y & z & E & E1 & E2)|(z & E & E1)]]; try discriminate; injection E as ->; [eapply x_imp_fail2; eauto|now apply x_imp_fail].
Qed.

Lemma range_args zs a b k : range_new value_error zs = Some (Val (a, b, k)) ->
  k <> 0 /\ (zs = [b] /\ a = 0 /\ k = 1 \/ zs = [a; b] /\ k = 1 \/ zs = [a; b; k]).
Proof.
  destruct zs as [|x [|y [|z [|? ?]]]]; cbn; try discriminate; intros E.
  - injection E as <- <- <-. split; [lia|auto].
  - injection E as <- <- <-. split; [lia|auto].
  - destruct (Z.eqb_spec z 0); [discriminate|]. injection E as <- <- <-. auto.
Qed.

Theorem lower_ok (f : flow) s s' o : (forall e body t t1 r, f = ForList e body -> e t t1 (Val r) -> 0 <= len_of r t1 <= max64) ->
  exec (lower f) s s' o <-> exec f s s' o.
Proof.
  intros Hl. destruct f as [args body|e body|? ? ? ?|? ?]; cbn [lower]; try reflexivity.
  2:{ split; intros H; inversion H as [| | |? ? ? ? ? ? ? E F|? ? ? ? ? E| | | |? ? ? ? ? ? ? E F|? ? ? ? ? E]; subst.
      - eapply x_list; eauto. apply list_imp; eauto.
      - now apply x_list_fail.
      - eapply x_implist; eauto. apply list_imp; eauto.
      - now apply x_implist_fail. }
  destruct args as [|a1 [|a2 [|a3 [|? ?]]]]; try reflexivity.
  - (* one argument *)
    rewrite imp_range2 by lia. split.
    + intros [(s1 & i & n & E & F)|(x & -> & E)]; apply eval_two in E.
      * destruct E as [(s2 & y & z & E & [-> E1] & E2)|[(? & ? & ? & E & _)|(? & E & _)]]; try discriminate. injection E as -> ->. injection E1 as ->.
        eapply x_range; [apply eval_one; left; eauto|reflexivity|exact F].
      * destruct E as [(? & ? & ? & E & _)|[(s2 & y & z & E & [-> E1] & E2)|(z & _ & [_ E1])]]; try discriminate. injection E as ->.
        apply x_range_fail. apply eval_one. eauto.
    + intros H. inversion H as [? ? ? ? ? ? ? ? ? ? E N F|? ? ? ? ? ? E N|? ? ? ? ? E| | | | | | |]; subst; apply eval_one in E.
      * destruct E as [(z & E & E1)|(? & E & _)]; [|discriminate]. injection E as ->. injection N as <- <- <-.
        left. eexists _, _, _. split; [|exact F]. apply eval_two. left. eexists _, _, _. split; [reflexivity|]. split; [cbn; eauto|assumption].
      * destruct E as [(z & E & E1)|(? & E & _)]; [|discriminate]. injection E as ->. discriminate.
      * destruct E as [(z & E & E1)|(? & E & E1)]; [discriminate|]. injection E as ->. right. eexists. split; [reflexivity|]. apply eval_two. right. left.
        eexists _, _, _. split; [reflexivity|]. split; [cbn; eauto|assumption].
  - (* two *)
    rewrite imp_range2 by lia. split.
    + intros [(s1 & i & n & E & F)|(x & -> & E)]; [|now apply x_range_fail]. eapply x_range; eauto. reflexivity.
    + intros H. inversion H as [? ? ? ? ? ? ? ? ? ? E N F|? ? ? ? ? ? E N|? ? ? ? ? E| | | | | | |]; subst; [left| |right; eauto].
      * assert (E' := E). apply eval_two in E'. destruct E' as [(? & ? & ? & E' & _)|[(? & ? & ? & E' & _)|(? & E' & _)]]; try discriminate. injection E' as ->.
        injection N as <- <- <-. eauto.
      * apply eval_two in E. destruct E as [(? & ? & ? & E & _)|[(? & ? & ? & E & _)|(? & E & _)]]; try discriminate. injection E as ->. discriminate.
  - (* three *)
    destruct a3 as [k|e]; [|reflexivity]. destruct (Z.eqb_spec k 0) as [K|K]; [reflexivity|]. rewrite imp_range2 by assumption. split.
    + intros [(s1 & i & n & E & F)|(x & -> & E)].
      * eapply x_range; [apply eval_const; eexists; split; [exact E|reflexivity]|cbn; apply Z.eqb_neq in K; rewrite K; reflexivity|exact F].
      * apply x_range_fail. apply eval_const. exists (Fail x). auto.
    + intros H. inversion H as [? ? ? ? ? ? ? ? ? ? E N F|? ? ? ? ? ? E N|? ? ? ? ? E| | | | | | |]; subst; apply eval_const in E; destruct E as (w & E & Ew).
      * left. assert (E' := E). apply eval_two in E'. destruct E' as [(? & y & z & -> & _)|[(? & ? & ? & -> & _)|(? & -> & _)]]; try discriminate. injection Ew as ->.
        cbn in N. apply Z.eqb_neq in K. rewrite K in N. injection N as <- <- <-. eauto.
      * apply eval_two in E. destruct E as [(? & ? & ? & -> & _)|[(? & ? & ? & -> & _)|(? & -> & _)]]; try discriminate. injection Ew as ->.
        cbn in N. apply Z.eqb_neq in K. rewrite K in N. discriminate.
      * right. destruct w as [zs|y]; [discriminate|]. injection Ew as ->. eauto.
  - destruct a3; reflexivity.
Qed.

(** ** Elements *)

Lemma not_done k b i : k <> 0 -> imp_done k b i = false <-> before b k i.
Proof.
  intros Hk. unfold imp_done, before. destruct (Z.ltb_spec 0 k); [destruct (Z.leb_spec b i)|destruct (Z.leb_spec i b)]; split; try discriminate; try lia; auto.
Qed.

Lemma is_range_cons a b k x l : is_range a b k (x :: l) -> x = a /\ before b k a /\ is_range (a + k) b k l.
Proof.
  intros [H1 H2]. destruct (H1 O x eq_refl) as [E B]. replace (a + Z.of_nat 0 * k) with a in E by lia. subst x. split; [reflexivity|]. split; [assumption|]. split.
  - intros n y Hy. destruct (H1 (S n) y Hy) as [-> By]. split; [lia|assumption].
  - replace (a + k + Z.of_nat (length l) * k) with (a + Z.of_nat (length (a :: l)) * k); [assumption|]. cbn [length]. lia.
Qed.

Lemma imp_runs (body : stmt) b k : k <> 0 -> in64 b -> forall l a s s' o, is_range a b k l -> in64 a -> in64 (a + Z.of_nat (length l) * k) ->
  imp_for setz body k b a s s' o <-> runs setz body l s s' o.
Proof.
  intros Hk Hb. induction l as [|x l IH]; intros a s s' o R Ha He.
  - destruct R as [_ R]. cbn [length] in R. replace (a + Z.of_nat 0 * k) with a in R by lia. rewrite <- not_done in R by assumption.
    split; intros H; inversion H; subst; try congruence; [constructor|]. apply if_done. now destruct (imp_done k b a).
  - apply is_range_cons in R. destruct R as (-> & B & R). apply not_done in B; [|assumption].
    assert (En : w64 (a + k) = a + k).
    { apply w64_id. unfold in64 in *. cbn [length] in He. replace (a + Z.of_nat (S (length l)) * k) with (a + k + Z.of_nat (length l) * k) in He by lia.
      apply not_done in B; [|assumption]. destruct B as [[B1 B2]|[B1 B2]]; nia. }
    assert (IH' : forall t t' o, imp_for setz body k b (a + k) t t' o <-> runs setz body l t t' o).
    { intros. apply IH; auto.
      - rewrite <- En. apply w64_in.
      - cbn [length] in He. replace (a + k + Z.of_nat (length l) * k) with (a + Z.of_nat (S (length l)) * k) by lia. exact He. }
    split; intros H; inversion H; subst; try congruence.
    + eapply r_next; eauto. apply IH'. rewrite <- En. assumption.
    + now apply r_break.
    + now apply r_exit.
    + eapply if_next; eauto. rewrite En. now apply IH'.
    + now apply if_break.
    + now apply if_exit.
Qed.

(** ** Lists that keep their place *)

Lemma py_imp (body : stmt) r n p : 0 <= n <= max64 ->
  (forall s s1 v o, len_of r s = n -> ptr_of r s = p -> body (setv v s) s1 o -> len_of r s1 = n /\ ptr_of r s1 = p) ->
  forall i s s' o, 0 <= i <= n -> len_of r s = n -> ptr_of r s = p ->
  imp_for (fun i t => setv (load p i t) t) body 1 n i s s' o <-> py_list len_of ptr_of load setv body r i s s' o.
Proof.
  intros Hn K i s s' o Hi L P. split; intros H.
  - revert Hi L P. induction H as [i s D|i s s1 o s2 o2 D B O F IH|i s s1 D B|i s s1 x D B]; intros Hi L P; unfold imp_done in D; cbn in D;
      (apply Z.leb_le in D || apply Z.leb_gt in D).
    + constructor. lia.
    + destruct (K _ _ _ _ L P B) as [L1 P1]. assert (W : w64 (i + 1) = i + 1) by (apply w64_id; unfold in64, min64, max64 in *; lia). rewrite W in *.
      eapply p_next; [lia|rewrite P; exact B|assumption|]. apply IH; auto. lia.
    + apply p_break; [lia|]. rewrite P. exact B.
    + apply p_exit; [lia|]. rewrite P. exact B.
  - revert Hi L P. induction H as [i s D|i s s1 o s2 o2 D B O F IH|i s s1 D B|i s s1 x D B]; intros Hi L P.
    + constructor. unfold imp_done. cbn. apply Z.leb_le. lia.
    + rewrite P in B. destruct (K _ _ _ _ L P B) as [L1 P1]. assert (W : w64 (i + 1) = i + 1) by (apply w64_id; unfold in64, min64, max64 in *; lia).
      eapply if_next; eauto; [unfold imp_done; cbn; apply Z.leb_gt; lia|]. rewrite W. apply IH; auto. lia.
    + rewrite P in B. apply if_break; [unfold imp_done; cbn; apply Z.leb_gt; lia|exact B].
    + rewrite P in B. apply if_exit; [unfold imp_done; cbn; apply Z.leb_gt; lia|exact B].
Qed.
End Proofs.
