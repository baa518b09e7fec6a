(** Proofs about universal functions. *)
From Coq Require Import List ZArith Lia Bool Permutation.
From Verif.Common Require Import Result Int64.
From Verif.Nd Require Import Spec Model Grid Copy Reshape Views IndexModel Index LoopModel Loop LoopAll UfuncModel.
Import ListNotations.
Local Open Scope Z_scope.

(** ** Broadcasting two shapes *)

Lemma zip_spec t1 : forall t2, length t1 = length t2 ->
  (exists r, broadcast_zip t1 t2 = Ok r /\ length r = length t1 /\
     forall i a b d, nth_error t1 i = Some a -> nth_error t2 i = Some b -> nth_error r i = Some d ->
       (a = d \/ b = d) /\ (a = 1 \/ a = d) /\ (b = 1 \/ b = d)) \/
  (broadcast_zip t1 t2 = Raise ValueError /\
   exists i a b, nth_error t1 i = Some a /\ nth_error t2 i = Some b /\ a <> 1 /\ b <> 1 /\ a <> b).
Proof.
  induction t1 as [|a t1 IH]; intros [|b t2] L; try discriminate.
  - left. exists []. repeat split; destruct i; discriminate.
  - cbn [broadcast_zip]. destruct (IH t2) as [(r & -> & Lr & Hr)|(-> & i & x & y & H)]; [simpl in L; lia| |].
    + destruct (Z.eqb_spec a 1) as [->|A].
      * left. exists (b :: r). cbn [bind]. split; [reflexivity|]. split; [simpl; lia|]. intros [|i] x y d E1 E2 E3; cbn in *; [|eauto].
        injection E1 as <-. injection E2 as <-. injection E3 as <-. auto.
      * destruct (Z.eqb_spec b 1) as [->|B]; [|destruct (Z.eqb_spec a b) as [->|AB]]; cbn [negb andb].
        -- left. exists (a :: r). cbn [bind]. split; [reflexivity|]. split; [simpl; lia|]. intros [|i] x y d E1 E2 E3; cbn in *; [|eauto].
           injection E1 as <-. injection E2 as <-. injection E3 as <-. auto.
        -- left. exists (b :: r). cbn [bind]. split; [reflexivity|]. split; [simpl; lia|]. intros [|i] x y d E1 E2 E3; cbn in *; [|eauto].
           injection E1 as <-. injection E2 as <-. injection E3 as <-. auto.
        -- right. split; [reflexivity|]. exists O, a, b. auto.
    + right. split.
      * destruct (a =? 1); [reflexivity|]. destruct (negb (b =? 1) && negb (a =? b)); reflexivity.
      * exists (S i), x, y. exact H.
Qed.

Lemma from_end_app k (p s : list Z) : (k < length s)%nat -> from_end k (p ++ s) = from_end k s.
Proof. intros H. unfold from_end. rewrite rev_app_distr, nth_error_app1; [reflexivity|]. now rewrite rev_length. Qed.

Lemma from_end_left k (p s : list Z) : (length s <= k)%nat -> from_end k (p ++ s) = from_end (k - length s) p.
Proof. intros H. unfold from_end. rewrite rev_app_distr, nth_error_app2; rewrite rev_length; [reflexivity|assumption]. Qed.

Lemma from_end_none k (s : list Z) : (length s <= k)%nat -> from_end k s = None.
Proof. intros H. unfold from_end. apply nth_error_None. now rewrite rev_length. Qed.

(** [s] is the longer shape, cut into [p ++ u]. *)
Lemma zip_broadcasts p u t r : length u = length t -> length r = length u ->
  (forall i a b d, nth_error u i = Some a -> nth_error t i = Some b -> nth_error r i = Some d ->
       (a = d \/ b = d) /\ (a = 1 \/ a = d) /\ (b = 1 \/ b = d)) ->
  broadcasts [p ++ u; t] (p ++ r).
Proof.
  intros L1 L2 H. split; [intros s [<-|[<-|[]]]; rewrite ?app_length; lia|].
  split; [exists (p ++ u); split; [simpl; auto|rewrite !app_length; lia]|]. intros k d E.
  destruct (Nat.lt_ge_cases k (length r)) as [K|K].
  - rewrite from_end_app in E by assumption. rewrite from_end_nth in E by assumption.
    assert (X : exists a, from_end k u = Some a) by (apply from_end_some; lia). destruct X as [a Ea].
    assert (X : exists b, from_end k t = Some b) by (apply from_end_some; lia). destruct X as [b Eb].
    pose proof Ea as Ea'. pose proof Eb as Eb'. rewrite from_end_nth in Ea', Eb' by lia.
    replace (length u - 1 - k)%nat with (length r - 1 - k)%nat in Ea' by lia.
    replace (length t - 1 - k)%nat with (length r - 1 - k)%nat in Eb' by lia.
    destruct (H _ _ _ _ Ea' Eb' E) as (H1 & H2 & H3). split.
    + destruct H1 as [->| ->]; [exists (p ++ u)|exists t]; simpl; rewrite ?from_end_app by lia; auto.
    + intros s e [<-|[<-|[]]] He; [rewrite from_end_app in He by lia|]; congruence.
  - rewrite from_end_left in E by assumption. split.
    + exists (p ++ u). split; [simpl; auto|]. rewrite from_end_left by lia. now rewrite L2 in E.
    + intros s e [<-|[<-|[]]] He; [rewrite from_end_left in He by lia; rewrite L2 in E; right; congruence|].
      rewrite from_end_none in He by lia. discriminate.
Qed.

Lemma zip_conflict p u t : (exists i a b, nth_error u i = Some a /\ nth_error t i = Some b /\ a <> 1 /\ b <> 1 /\ a <> b) ->
  length u = length t -> forall out, ~ broadcasts [p ++ u; t] out.
Proof.
  intros (i & a & b & Ea & Eb & Na & Nb & N) L out (B1 & _ & B2).
  assert (Li : (i < length u)%nat) by (apply nth_error_Some; congruence).
  set (k := (length u - 1 - i)%nat).
  assert (Fa : from_end k (p ++ u) = Some a).
  { rewrite from_end_app by (unfold k; lia). rewrite from_end_nth by (unfold k; lia). rewrite <- Ea. f_equal. unfold k. lia. }
  assert (Fb : from_end k t = Some b).
  { rewrite from_end_nth by (unfold k; lia). rewrite <- Eb. f_equal. unfold k. lia. }
  assert (X : exists d, from_end k out = Some d).
  { apply from_end_some. specialize (B1 t). simpl in B1. assert (length t <= length out)%nat by auto. unfold k. lia. }
  destruct X as [d Ed]. destruct (B2 k d Ed) as [_ G].
  destruct (G (p ++ u) a); [simpl; auto|assumption|contradiction|]. destruct (G t b); [simpl; auto|assumption|contradiction|]. congruence.
Qed.

Lemma broadcasts_swap (s t out : list Z) : broadcasts [s; t] out -> broadcasts [t; s] out.
Proof.
  intros (A & (x & Hx & Lx) & B). split; [intros y [<-|[<-|[]]]; apply A; simpl; auto|].
  split; [exists x; split; [simpl in *; tauto|assumption]|]. intros k d E. destruct (B k d E) as ((y & Hy & Ey) & G).
  split; [exists y; split; [simpl in *; tauto|assumption]|]. intros y' e Hy'. apply G. simpl in *. tauto.
Qed.

Theorem util_broadcast_ok s1 s2 :
  (exists out, util_broadcast s1 s2 = Ok out /\ broadcasts [s1; s2] out) \/
  (util_broadcast s1 s2 = Raise ValueError /\ forall out, ~ broadcasts [s1; s2] out).
Proof.
  unfold util_broadcast. destruct (Nat.ltb_spec (length s2) (length s1)) as [H|H].
  - replace (Nat.min (length s1) (length s2)) with (length s2) by lia. rewrite Nat.sub_diag.
    replace (Nat.max (length s1) (length s2)) with (length s1) by lia. cbn [skipn].
    set (n := (length s1 - length s2)%nat). assert (L : length (skipn n s1) = length s2) by (rewrite skipn_length; unfold n; lia).
    pose proof (firstn_skipn n s1) as F. destruct (zip_spec _ _ L) as [(r & -> & Lr & Hr)|(-> & C)]; cbn [bind].
    + left. eexists. split; [reflexivity|]. rewrite <- F at 1. now apply zip_broadcasts.
    + right. split; [reflexivity|]. intros out. rewrite <- F. now apply zip_conflict.
  - replace (Nat.min (length s1) (length s2)) with (length s1) by lia. rewrite Nat.sub_diag.
    replace (Nat.max (length s1) (length s2)) with (length s2) by lia. cbn [skipn].
    set (n := (length s2 - length s1)%nat). assert (L : length s1 = length (skipn n s2)) by (rewrite skipn_length; unfold n; lia).
    pose proof (firstn_skipn n s2) as F. destruct (zip_spec _ _ L) as [(r & -> & Lr & Hr)|(-> & C)]; cbn [bind].
    + left. eexists. split; [reflexivity|]. apply broadcasts_swap. rewrite <- F at 1. apply zip_broadcasts; [auto|lia|].
      intros i a b d Ea Eb Ed. destruct (Hr i b a d Eb Ea Ed) as (X1 & X2 & X3). tauto.
    + right. split; [reflexivity|]. intros out B. apply broadcasts_swap in B. revert B. rewrite <- F. apply zip_conflict; [|auto].
      destruct C as (i & a & b & X1 & X2 & X3 & X4 & X5). exists i, b, a. auto.
Qed.

(** ** Batches of lanes *)

Section Ufunc.
Context {V : Type} (zero : V).
Local Notation heap := (heap V).
Local Notation step := ((nat * Z) * list (nat * Z))%type.

(** No step reads a cell that another one writes, and they write different cells. *)
Definition quiet (l : list step) : Prop :=
  NoDup (map fst l) /\ forall s t, In s l -> In t l -> In (fst s) (snd t) -> s = t.

Lemma quiet_app l1 l2 : quiet (l1 ++ l2) -> quiet l1 /\ quiet l2.
Proof.
  intros [N D]. rewrite map_app in N. split; split.
  - clear D. induction (map fst l1) as [|x l IH]; [constructor|]. simpl in N. inversion N; subst. constructor; auto.
    intros H. apply H1. apply in_or_app. auto.
  - intros s t Hs Ht. apply D; apply in_or_app; auto.
  - clear D. induction (map fst l1) as [|x l IH]; [assumption|]. simpl in N. inversion N; auto.
  - intros s t Hs Ht. apply D; apply in_or_app; auto.
Qed.

Definition put_steps (f : list V -> V) (h : heap) (l : list step) : heap :=
  put h (map fst l) (map (fun s => f (map (load h) (snd s))) l).

Notation some f := (fun vs => Some (f vs)).

Lemma put_cons (h : heap) p ps v vs : put h (p :: ps) (v :: vs) = put (store h p v) ps vs.
Proof. reflexivity. Qed.

Lemma put_steps_ok f l : forall h : heap, quiet l -> put_steps f h l = osteps (some f) h l.
Proof.
  induction l as [|s l IH]; intros h Q; [reflexivity|]. unfold put_steps. cbn [map]. rewrite put_cons, osteps_cons.
  assert (Q1 : quiet l) by (apply (quiet_app [s] l) in Q; tauto). rewrite <- IH by assumption. unfold put_steps. f_equal.
  apply map_ext_in. intros t Ht. f_equal. apply map_ext_in. intros p Hp. symmetry. apply load_store_other. intros ->.
  destruct Q as [N D]. assert (s = t) by (apply D; simpl; auto). subst. simpl in N. inversion N; subst. apply H1. now apply in_map.
Qed.

Lemma osteps_app f (h : heap) l1 l2 : osteps f h (l1 ++ l2) = osteps f (osteps f h l1) l2.
Proof. unfold osteps. apply fold_left_app. Qed.

Lemma put_batches f (ls : list (list step)) : forall h : heap, quiet (concat ls) ->
  fold_left (put_steps f) ls h = osteps (some f) h (concat ls).
Proof.
  induction ls as [|l ls IH]; intros h Q; [reflexivity|]. cbn [concat fold_left] in *. apply quiet_app in Q. destruct Q as [Q1 Q2].
  rewrite osteps_app, put_steps_ok by assumption. now apply IH.
Qed.

Lemma zrange_batches n L : 0 <= n -> 0 < L ->
  zrange n = concat (map (fun k => map (Z.add (k * L)) (zrange L)) (zrange (n / L))) ++ map (Z.add (n / L * L)) (zrange (n mod L)).
Proof.
  intros Hn HL. assert (0 <= n / L) by (apply Z.div_pos; lia). pose proof (Z.mod_pos_bound n L HL).
  rewrite (Z_div_mod_eq_full n L) at 1. rewrite Z.mul_comm, zrange_app by nia. f_equal.
  rewrite zrange_mul by lia. rewrite flat_map_concat_map. f_equal.
Qed.

(** The steps of a loop over a line. *)
Definition line_steps (ins : list ((nat * Z) * Z)) (q : nat * Z) (os n : Z) : list step :=
  map (fun i => (incr q (i * os), map (fun ps => incr (fst ps) (i * snd ps)) ins)) (zrange n).

Lemma fold_concat {A B} (f : A -> B -> A) (ls : list (list B)) a :
  fold_left (fun a l => fold_left f l a) ls a = fold_left f (concat ls) a.
Proof. revert a. induction ls as [|l ls IH]; intros a; [reflexivity|]. simpl. now rewrite fold_left_app. Qed.

Lemma line_steps_batches f ins q os n L (h : heap) : 0 <= n -> 0 < L -> quiet (line_steps ins q os n) ->
  let st := (fun i => (incr q (i * os), map (fun ps => incr (fst ps) (i * snd ps)) ins)) in
  fold_left (fun h s => store h (fst s) (f (map (load h) (snd s)))) (map (fun j => st (n / L * L + j)) (zrange (n mod L)))
    (fold_left (fun h k => put_steps f h (map (fun j => st (k * L + j)) (zrange L))) (zrange (n / L)) h) =
  osteps (some f) h (line_steps ins q os n).
Proof.
  intros Hn HL Q st.
  assert (E : line_steps ins q os n = concat (map (fun k => map (fun j => st (k * L + j)) (zrange L)) (zrange (n / L))) ++
    map (fun j => st (n / L * L + j)) (zrange (n mod L))).
  { unfold line_steps. rewrite (zrange_batches n L) by assumption. rewrite map_app, concat_map, !map_map. f_equal.
    f_equal. apply map_ext. intros k. rewrite map_map. reflexivity. }
  rewrite E in Q |- *. apply quiet_app in Q. destruct Q as [Q1 Q2]. rewrite osteps_app. unfold osteps at 1.
  f_equal. rewrite <- put_batches by assumption. now rewrite fold_map.
Qed.

Definition f1 (op : V -> V) (vs : list V) : V := match vs with [x] => op x | _ => zero end.
Definition f2 (op : V -> V -> V) (vs : list V) : V := match vs with [x; y] => op x y | _ => zero end.

Lemma unary_loop_ok L op (h : heap) p is q os n : 0 <= n -> 0 < L -> quiet (line_steps [(p, is)] q os n) ->
  unary_loop L op h p is q os n = osteps (some (f1 op)) h (line_steps [(p, is)] q os n).
Proof.
  intros Hn HL Q. rewrite <- (line_steps_batches (f1 op) _ _ _ _ L h Hn HL Q). unfold unary_loop. rewrite fold_map. cbn [fst snd map f1].
  f_equal. apply fold_ext_in. intros h1 k _. unfold put_steps, lanes. rewrite !map_map. reflexivity.
Qed.

Lemma map2_map {A} op (f g : A -> V) l : map2 op (map f l) (map g l) = map (fun x => op (f x) (g x)) l.
Proof. unfold map2. induction l as [|x l IH]; [reflexivity|]. simpl. now rewrite IH. Qed.

Lemma put_other (h : heap) ps vs p : ~ In p ps -> load (put h ps vs) p = load h p.
Proof.
  revert h vs. induction ps as [|q ps IH]; intros h [|v vs] H; try reflexivity. rewrite put_cons, IH by (simpl in H; tauto).
  apply load_store_other. simpl in H. intuition.
Qed.

Lemma fold_keep {A} (f g : heap -> A -> heap) (P : heap -> Prop) l h : P h -> (forall h x, In x l -> P h -> f h x = g h x /\ P (g h x)) ->
  fold_left f l h = fold_left g l h.
Proof.
  revert h. induction l as [|x l IH]; intros h Hp H; [reflexivity|]. simpl.
  destruct (H h x) as [E P1]; simpl; auto. rewrite E. apply IH; [assumption|]. intros; apply H; simpl; auto.
Qed.

Lemma cell_dec : forall p q : nat * Z, {p = q} + {p <> q}.
Proof. intros p q. decide equality; [apply Z.eq_dec|apply Nat.eq_dec]. Qed.

Lemma div_small2 n L : 0 <= n -> 0 < L -> n < 2 * L -> n / L = 0 \/ n / L = 1.
Proof.
  intros H1 H2 H3. assert (0 <= n / L) by (apply Z.div_pos; lia).
  assert (n / L < 2) by (apply Z.div_lt_upper_bound; lia). lia.
Qed.

Lemma binary_loop_ok L e op (h : heap) p1 is1 p2 is2 q os n : 0 <= n -> 0 < L ->
  quiet (line_steps [(p1, is1); (p2, is2)] q os n) -> (is1 = 0 -> is2 = e -> os = e -> n < 2 * L) ->
  binary_loop L e op h p1 is1 p2 is2 q os n = osteps (some (f2 op)) h (line_steps [(p1, is1); (p2, is2)] q os n).
Proof.
  intros Hn HL Q C. rewrite <- (line_steps_batches (f2 op) _ _ _ _ L h Hn HL Q). unfold binary_loop. rewrite fold_map. cbn [fst snd map f2].
  f_equal. unfold put_steps, lanes.
  assert (G : fold_left (fun h k => put h (map (fun j => incr q ((k * L + j) * os)) (zrange L))
       (map2 op (map (load h) (map (fun j => incr p1 ((k * L + j) * is1)) (zrange L))) (map (load h) (map (fun j => incr p2 ((k * L + j) * is2)) (zrange L)))))
       (zrange (n / L)) h =
    fold_left (fun h k => put h (map fst (map (fun j => (incr q ((k * L + j) * os), [incr p1 ((k * L + j) * is1); incr p2 ((k * L + j) * is2)])) (zrange L)))
       (map (fun s => f2 op (map (load h) (snd s)))
          (map (fun j => (incr q ((k * L + j) * os), [incr p1 ((k * L + j) * is1); incr p2 ((k * L + j) * is2)])) (zrange L)))) (zrange (n / L)) h).
  { apply fold_ext_in. intros h1 k _. rewrite !map_map. rewrite map2_map. reflexivity. }
  destruct ((is1 =? 0) && (is2 =? e) && (os =? e)) eqn:B1; [|destruct ((is1 =? e) && (is2 =? 0) && (os =? e)) eqn:B2].
  - apply andb_prop in B1. destruct B1 as [B1 B3]. apply andb_prop in B1. destruct B1 as [B1 B2]. apply Z.eqb_eq in B1, B2, B3.
    rewrite <- G. destruct (div_small2 n L Hn HL (C B1 B2 B3)) as [-> | ->]; [reflexivity|]. rewrite zrange_1. cbn [fold_left fst].
    f_equal. rewrite !map_map. rewrite !map2_map. apply map_ext. intros j. rewrite B1, Z.mul_0_r, incr_0. reflexivity.
  - apply andb_prop in B2. destruct B2 as [B2 B3]. apply andb_prop in B2. destruct B2 as [B2 B4]. apply Z.eqb_eq in B2, B3, B4.
    rewrite <- G. subst is2.
    assert (K : n <= 1 \/ ~ In p2 (map fst (line_steps [(p1, is1); (p2, 0)] q os n))).
    { destruct (in_dec cell_dec p2 (map fst (line_steps [(p1, is1); (p2, 0)] q os n))) as [I|I]; [|auto]. left.
      apply in_map_iff in I. destruct I as (s & Es & Hs). destruct Q as [N D].
      destruct (Z_le_gt_dec n 1); [assumption|]. exfalso.
      set (st := fun i => (incr q (i * os), map (fun ps => incr (fst ps) (i * snd ps)) [(p1, is1); (p2, 0)])) in *.
      assert (S0 : In (st 0) (line_steps [(p1, is1); (p2, 0)] q os n)) by (apply in_map, zrange_in; lia).
      assert (S1 : In (st 1) (line_steps [(p1, is1); (p2, 0)] q os n)) by (apply in_map, zrange_in; lia).
      assert (R : forall i, In p2 (snd (st i))) by (intros i; simpl; rewrite Z.mul_0_r, incr_0; auto).
      assert (A0 : s = st 0) by (apply D; [assumption|assumption|rewrite Es; apply R]).
      assert (A1 : s = st 1) by (apply D; [assumption|assumption|rewrite Es; apply R]).
      assert (E01 : st 0 = st 1) by congruence. clear -N E01 g. unfold line_steps in N. rewrite map_map in N. fold st in N.
      assert (E : (fun x => fst (st x)) 0 = (fun x => fst (st x)) 1) by (cbn beta; now rewrite E01).
      apply (nodup_map_inj _ _ _ _ N) in E; [lia| |]; apply zrange_in; lia. }
    destruct K as [K|K].
    + destruct (div_small2 n L Hn HL ltac:(lia)) as [-> | ->]; [reflexivity|]. rewrite zrange_1. cbn [fold_left].
      f_equal. rewrite !map_map. rewrite !map2_map. apply map_ext. intros j. now rewrite Z.mul_0_r, incr_0.
    + apply (fold_keep _ _ (fun h1 => load h1 p2 = load h p2)); [reflexivity|]. intros h1 k Hk E. split.
      * f_equal. rewrite !map_map, !map2_map. apply map_ext. intros j. rewrite Z.mul_0_r, incr_0. now rewrite E.
      * rewrite put_other; [assumption|]. intros I. apply K. apply in_map_iff in I. destruct I as (j & E1 & Hj).
        unfold line_steps. rewrite map_map. apply in_map_iff. exists (k * L + j). split; [exact E1|].
        apply zrange_in. apply zrange_in in Hk, Hj. pose proof (Z.mul_div_le n L HL). nia.
  - rewrite <- G. reflexivity.
Qed.

(** ** All coordinates, one axis innermost *)

Lemma dot_insert idx : forall k st i, (k <= length idx)%nat -> length st = S (length idx) ->
  dot (tuple_insert idx k i) st = dot (tuple_insert idx k 0) st + i * nth k st 0.
Proof.
  induction idx as [|x idx IH]; intros [|k] [|s st] i Hk L; simpl in *; try discriminate; try lia.
  rewrite IH by lia. lia.
Qed.

Lemma inside_insert sh : forall k idx i, (k < length sh)%nat -> inside (tuple_delete sh k) idx -> 0 <= i < nth k sh 0 ->
  inside sh (tuple_insert idx k i).
Proof.
  induction sh as [|n sh IH]; intros [|k] idx i Hk H Hi; simpl in *; try lia; [now constructor|].
  inversion H; subst. constructor; [assumption|]. apply IH; [lia|assumption|assumption].
Qed.

Lemma inside_delete sh : forall k c, (k < length sh)%nat -> inside sh c ->
  inside (tuple_delete sh k) (tuple_delete c k) /\ 0 <= nth k c 0 < nth k sh 0 /\ tuple_insert (tuple_delete c k) k (nth k c 0) = c.
Proof.
  induction sh as [|n sh IH]; intros k c Hk H; [simpl in Hk; lia|]. inversion H as [|? i ? c' Hi Hc]; subst. destruct k as [|k]; cbn.
  - split; [assumption|]. auto.
  - simpl in Hk. destruct (IH k c') as (A & B & C); [lia|assumption|]. split; [now constructor|]. split; [assumption|]. now rewrite C.
Qed.

Lemma insert_inj k : forall idx idx' i i', length idx = length idx' -> (k <= length idx)%nat ->
  tuple_insert idx k i = tuple_insert idx' k i' -> idx = idx' /\ i = i'.
Proof.
  induction k as [|k IH]; intros [|x idx] [|y idx'] i i' L K E; simpl in *; try discriminate; try lia.
  - injection E as ->. auto.
  - injection E as -> -> ->. auto.
  - injection E as -> E. apply IH in E; [|lia|lia]. destruct E as [-> ->]. auto.
Qed.

Lemma delete_length sh : forall k, (k < length sh)%nat -> length sh = S (length (tuple_delete sh k)).
Proof. induction sh as [|n sh IH]; intros [|k] H; simpl in *; try lia. rewrite <- IH; lia. Qed.

Definition axis_grid (sh : list Z) (k : nat) : list (list Z) :=
  flat_map (fun idx => map (fun i => tuple_insert idx k i) (zrange (nth k sh 0))) (grid (tuple_delete sh k)).

Lemma axis_grid_perm sh k : (k < length sh)%nat -> Permutation (axis_grid sh k) (grid sh).
Proof.
  intros K. pose proof (delete_length sh k K) as L. apply NoDup_Permutation; [|apply grid_nodup|].
  - apply NoDup_flat_map.
    + apply grid_nodup.
    + intros idx Hi. apply grid_in in Hi. apply inside_length in Hi. apply FinFun.Injective_map_NoDup; [|apply zrange_nodup].
      intros i j E. apply insert_inj in E; [tauto|reflexivity|lia].
    + intros x y c Hx Hy H1 H2. apply grid_in in Hx, Hy. apply inside_length in Hx, Hy.
      apply in_map_iff in H1, H2. destruct H1 as (i & <- & _), H2 as (j & E & _). apply insert_inj in E; [symmetry; tauto|lia|lia].
  - intros c. unfold axis_grid. rewrite in_flat_map, grid_in. split.
    + intros (idx & H1 & H2). apply grid_in in H1. apply in_map_iff in H2. destruct H2 as (i & <- & Hi). apply zrange_in in Hi.
      now apply inside_insert.
    + intros H. destruct (inside_delete sh k c K H) as (A & B & C). exists (tuple_delete c k). rewrite grid_in. split; [assumption|].
      apply in_map_iff. exists (nth k c 0). rewrite zrange_in. auto.
Qed.

Lemma pick_axis_bound sh : forall i st best k s, pick_axis i sh st best = Some (k, s) ->
  (forall k s, best = Some (k, s) -> (k < i)%nat) -> (k < i + length sh)%nat.
Proof.
  induction sh as [|n sh IH]; intros i st best k s E B; [simpl in *; specialize (B _ _ E); lia|].
  destruct st as [|x st]; [simpl in *; specialize (B _ _ E); lia|]. cbn [pick_axis] in E. apply IH in E; [simpl; lia|].
  intros k' s' Hb. destruct (_ && _); [injection Hb as <- _; lia|]. specialize (B _ _ Hb). lia.
Qed.

Lemma loop_axis_bound sh st : (0 < length sh)%nat -> (loop_axis sh st < length sh)%nat.
Proof.
  intros H. unfold loop_axis. destruct (pick_axis 0 sh st None) as [[k s]|] eqn:E; [|assumption].
  apply pick_axis_bound in E; [assumption|]. discriminate.
Qed.

(** The steps that set element [c] of [z] from the elements [c] of [l]. *)
Definition set_steps (z : nd) (l : list nd) (cs : list (list Z)) : list step :=
  map (fun c => (ptr z c, map (fun a => ptr a c) l)) cs.

Lemma steps_axis z l sh k : (k < length sh)%nat -> Forall (fun a => length (strides a) = length sh) (z :: l) ->
  flat_map (fun idx => let idx1 := tuple_insert idx k 0 in
    line_steps (map (fun a => (ptr a idx1, nth k (strides a) 0)) l) (ptr z idx1) (nth k (strides z) 0) (nth k sh 0))
    (grid (tuple_delete sh k)) = set_steps z l (axis_grid sh k).
Proof.
  intros K F. pose proof (delete_length sh k K) as L. unfold set_steps, axis_grid. rewrite map_flat_map. apply flat_map_ext_in.
  intros idx Hi. apply grid_in, inside_length in Hi. cbv zeta. unfold line_steps. rewrite !map_map. apply map_ext. intros i.
  assert (G : forall a, In a (z :: l) -> incr (ptr a (tuple_insert idx k 0)) (i * nth k (strides a) 0) = ptr a (tuple_insert idx k i)).
  { intros a Ha. rewrite Forall_forall in F. specialize (F a Ha). unfold ptr, incr. cbn [fst snd]. rewrite (dot_insert idx k _ i) by lia. f_equal. lia. }
  f_equal; [apply G; simpl; auto|]. rewrite map_map. apply map_ext_in. intros a Ha. cbn [fst snd]. apply G. simpl. auto.
Qed.

Lemma steps_line z l e cs : forall zs,
  (forall a, In a (z :: l) -> map (ptr a) cs = map (fun k => (blk a, base a + k * e)) zs) ->
  map (fun i => (incr (blk z, base z) (i * e), map (fun ps => incr (fst ps) (i * snd ps)) (map (fun a => ((blk a, base a), e)) l))) zs =
  set_steps z l cs.
Proof.
  unfold set_steps. induction cs as [|c cs IH]; intros [|i zs] H; try reflexivity;
    try (specialize (H z (or_introl eq_refl)); discriminate).
  cbn [map]. f_equal.
  - f_equal.
    + specialize (H z (or_introl eq_refl)). cbn [map] in H. injection H as E _. unfold ptr, incr. cbn [fst snd]. f_equal. lia.
    + rewrite map_map. apply map_ext_in. intros a Ha. specialize (H a (or_intror Ha)). cbn [map] in H. injection H as E _.
      unfold ptr, incr. cbn [fst snd]. f_equal. lia.
  - apply IH. intros a Ha. specialize (H a Ha). cbn [map] in H. now injection H.
Qed.

Lemma fold_quiet {A} f (F : heap -> A -> heap) (g : A -> list step) l : forall h,
  (forall h x, In x l -> quiet (g x) -> F h x = osteps f h (g x)) -> quiet (flat_map g l) ->
  fold_left F l h = osteps f h (flat_map g l).
Proof.
  induction l as [|x l IH]; intros h H Q; [reflexivity|]. cbn [flat_map fold_left] in *. apply quiet_app in Q. destruct Q as [Q1 Q2].
  rewrite osteps_app. rewrite H; simpl; auto. apply IH; [|assumption]. intros; apply H; simpl; auto.
Qed.

Lemma line_grid z l n : shape z = [n] -> Forall (fun a => length (strides a) = 1%nat) (z :: l) ->
  line_steps (map (fun a => ((blk a, base a), hd 0 (strides a))) l) (blk z, base z) (hd 0 (strides z)) n = set_steps z l (grid [n]).
Proof.
  intros S F. unfold line_steps, set_steps. cbn [grid map]. rewrite (flat_map_single (fun i => [i])).
  rewrite map_map. apply map_ext. intros i.
  assert (E : forall a, In a (z :: l) -> incr (blk a, base a) (i * hd 0 (strides a)) = ptr a [i]).
  { intros a Ha. rewrite Forall_forall in F. specialize (F a Ha). destruct (strides a) as [|s [|? ?]] eqn:Es; try discriminate.
    unfold incr, ptr. rewrite Es. cbn [fst snd hd dot]. f_equal. lia. }
  f_equal; [apply E; simpl; auto|]. rewrite map_map. apply map_ext_in. intros a Ha. cbn [fst snd]. apply E. simpl; auto.
Qed.

Lemma contig_match_lines a z : wf a -> wf z -> contig_match a z = true -> isz a = isz z ->
  exists o, forall x, x = a \/ x = z ->
    map (ptr x) (ogrid o (shape z)) = map (fun k => (blk x, base x + k * isz z)) (zrange (size z)).
Proof.
  intros Wa Wz C I. unfold contig_match in C. destruct (negb _); [discriminate|]. destruct (list_eqb (shape a) (shape z)) eqn:S; [|discriminate].
  apply list_eqb_spec in S. cbn [negb] in C. destruct (contig a) as [c1 g1] eqn:Ca, (contig z) as [c2 g2] eqn:Cz.
  unfold size. rewrite count_product. apply orb_prop in C. destruct C as [C|C]; apply andb_prop in C; destruct C as [-> ->].
  - exists OC. intros x [->| ->].
    + rewrite <- S, <- I. apply ptr_line. apply contig_c; [assumption|now rewrite Ca].
    + apply ptr_line. apply contig_c; [assumption|now rewrite Cz].
  - exists OF. intros x [->| ->].
    + rewrite <- S, <- I. apply ptr_line. apply contig_f; [assumption|now rewrite Ca].
    + apply ptr_line. apply contig_f; [assumption|now rewrite Cz].
Qed.

Lemma ogrid_perm o sh : Permutation (ogrid o sh) (grid sh).
Proof. apply NoDup_Permutation; [apply ogrid_nodup|apply grid_nodup|]. intros x. now rewrite ogrid_in, grid_in. Qed.

Lemma size_nonneg (z : nd) : wf z -> 0 <= size z.
Proof. intros [_ F _]. unfold size. rewrite count_product. now apply product_nonneg. Qed.

Theorem vectorized_unary_ok key L op (h : heap) x z : wf x -> wf z -> shape x = shape z -> (0 < ndim z)%nat -> isz x = isz z -> 0 < L ->
  (forall cs, Permutation cs (grid (shape z)) -> quiet (set_steps z [x] cs)) ->
  exists cs, Permutation cs (grid (shape z)) /\
    vectorized_unary key L op h x z = Ok (osteps (some (f1 op)) h (set_steps z [x] cs)).
Proof.
  intros Wx Wz S N I HL Q. pose proof (size_nonneg z Wz) as Sz. pose proof Wx as [Lx Fx Px]. pose proof Wz as [Lz Fz Pz].
  unfold vectorized_unary. unfold ndim in *. rewrite S in Lx, Fx |- *. rewrite Nat.ltb_irrefl.
  destruct (Nat.eqb_spec (length (shape z)) 0); [lia|]. cbn [orb].
  destruct (Nat.eqb_spec (length (shape z)) 1) as [D|D].
  - destruct (shape z) as [|m [|? ?]] eqn:Sh; try discriminate. exists (grid [m]). split; [apply Permutation_refl|].
    f_equal. assert (En : size z = m) by (unfold size; rewrite Sh; cbn; destruct m; reflexivity). rewrite En in *.
    assert (F1 : Forall (fun a => length (strides a) = 1%nat) [z; x]) by (repeat constructor; assumption).
    rewrite <- (line_grid z [x] m) by assumption.
    apply unary_loop_ok; [lia|assumption|]. change [(blk x, base x, hd 0 (strides x))] with (map (fun a => ((blk a, base a), hd 0 (strides a))) [x]).
    rewrite line_grid by assumption. apply Q. apply Permutation_refl.
  - destruct (contig_match x z) eqn:C.
    + destruct (contig_match_lines x z Wx Wz) as (o & Ho); auto. exists (ogrid o (shape z)). split; [apply ogrid_perm|]. f_equal.
      pose proof (steps_line z [x] (isz z) (ogrid o (shape z)) (zrange (size z))) as E. rewrite <- E by (intros a [<-|[<-|[]]]; apply Ho; auto).
      apply unary_loop_ok; [assumption|assumption|].
      change (line_steps [(blk x, base x, isz z)] (blk z, base z) (isz z) (size z)) with
        (map (fun i => (incr (blk z, base z) (i * isz z), map (fun ps => incr (fst ps) (i * snd ps)) (map (fun a => ((blk a, base a), isz z)) [x]))) (zrange (size z))).
      rewrite E by (intros a [<-|[<-|[]]]; apply Ho; auto). apply Q. apply ogrid_perm.
    + set (k := loop_axis (shape z) (map key (strides x))). assert (K : (k < length (shape z))%nat) by (apply loop_axis_bound; lia).
      exists (axis_grid (shape z) k). split; [now apply axis_grid_perm|]. f_equal. rewrite multirange_grid.
      rewrite <- (steps_axis z [x] (shape z) k) by (auto; repeat constructor; congruence). apply fold_quiet.
      * intros h1 idx _ Qi. apply unary_loop_ok; [|assumption|exact Qi]. apply Forall_nth; auto.
      * rewrite steps_axis by (auto; repeat constructor; congruence). apply Q. now apply axis_grid_perm.
Qed.

(** ** Binary loops *)

Lemma bcast_self xs : forall st, length st = length xs -> bcast_strides xs st xs = Ok st.
Proof.
  induction xs as [|n xs IH]; intros [|s st] L; try discriminate; [reflexivity|]. cbn [bcast_strides].
  rewrite Z.eqb_refl, IH by (simpl in L; lia). reflexivity.
Qed.

Lemma broadcast_self x : wf x -> broadcast_to x (shape x) = Ok x.
Proof.
  intros [L _ _]. unfold broadcast_to, ndim. rewrite Nat.ltb_irrefl, Nat.sub_diag. cbn [skipn repeat app].
  rewrite bcast_self by assumption. cbn [bind]. now destruct x.
Qed.

Lemma broadcast_isz x sh r : broadcast_to x sh = Ok r -> isz r = isz x.
Proof.
  unfold broadcast_to. destruct (_ <? _)%nat; [discriminate|]. destruct (bcast_strides _ _ _); try discriminate.
  cbn [bind]. now intros [= <-].
Qed.

Lemma map_inj_in {A B} (f : A -> B) l1 : forall l2, (forall x y, In x l1 -> In y l2 -> f x = f y -> x = y) ->
  map f l1 = map f l2 -> l1 = l2.
Proof.
  induction l1 as [|x l1 IH]; intros [|y l2] H E; try discriminate; [reflexivity|]. cbn [map] in E. injection E as E1 E2.
  f_equal; [apply H; simpl; auto|]. apply IH; [|assumption]. intros; apply H; simpl; auto.
Qed.

Lemma contig_match_lines2 a b z : wf a -> wf b -> wf z -> contig_match a z = true -> contig_match b z = true ->
  isz a = isz z -> isz b = isz z ->
  exists o, forall x, In x [z; a; b] -> map (ptr x) (ogrid o (shape z)) = map (fun k => (blk x, base x + k * isz z)) (zrange (size z)).
Proof.
  intros Wa Wb Wz Ca Cb Ia Ib. destruct (contig_match_lines a z) as (o & H1); auto. destruct (contig_match_lines b z) as (o' & H2); auto.
  assert (E : ogrid o' (shape z) = ogrid o (shape z)).
  { apply (map_inj_in (ptr z)).
    - intros c d Hc Hd E. apply (nodup_map_inj (ptr z) (ogrid o (shape z))).
      + rewrite H1 by auto. pose proof Wz as [_ _ P]. apply FinFun.Injective_map_NoDup; [|apply zrange_nodup].
        intros i j Eij. injection Eij as Eij. nia.
      + apply ogrid_in. apply ogrid_in in Hc. assumption.
      + assumption.
      + assumption.
    - rewrite H1, H2 by auto. reflexivity. }
  exists o. intros x [<-|[<-|[<-|[]]]]; [apply H1; auto|apply H1; auto|]. rewrite <- E. apply H2. auto.
Qed.

(** The steps that set element [c] of [z] from the broadcast elements of [l]. *)
Definition bset_steps (z : nd) (l : list nd) (cs : list (list Z)) : list step :=
  map (fun c => (ptr z c, map (fun a => ptr a (pick (shape a) c)) l)) cs.

Lemma bset_same z l cs : (forall a, In a l -> shape a = shape z) -> (forall c, In c cs -> inside (shape z) c) ->
  bset_steps z l cs = set_steps z l cs.
Proof.
  intros S C. apply map_ext_in. intros c Hc. f_equal. apply map_ext_in. intros a Ha. rewrite (S a Ha). rewrite pick_same; auto.
Qed.

Definition line_or_number (x z : nd) : Prop := shape x = [] \/ shape x = shape z.

Theorem vectorized_binary_ok key L op (h : heap) x y z : wf x -> wf y -> wf z -> (0 < ndim z)%nat -> 0 < L ->
  isz x = isz z -> isz y = isz z -> ~ (ndim x = O /\ ndim y = O) ->
  broadcasts [shape x; shape z] (shape z) -> broadcasts [shape y; shape z] (shape z) ->
  (ndim z = 1%nat -> line_or_number x z /\ line_or_number y z) ->
  (shape x = shape z /\ forall k, (k < length (shape z))%nat -> nth k (strides x) 0 = 0 -> nth k (shape z) 0 < 2 * L) \/ Forall (fun d => d < 2 * L) (shape z) ->
  (forall cs, Permutation cs (grid (shape z)) -> quiet (bset_steps z [x; y] cs)) ->
  exists cs, Permutation cs (grid (shape z)) /\
    vectorized_binary key L op h x y z = Ok (osteps (some (f2 op)) h (bset_steps z [x; y] cs)).
Proof.
  intros Wx Wy Wz N HL Ix Iy Nn Bx By D1 D2 Q. pose proof (size_nonneg z Wz) as Sz. pose proof Wx as [Lx Fx Px].
  pose proof Wy as [Ly Fy Py]. pose proof Wz as [Lz Fz Pz].
  assert (Nx : (ndim x <= ndim z)%nat) by (apply Bx; simpl; auto). assert (Ny : (ndim y <= ndim z)%nat) by (apply By; simpl; auto).
  unfold vectorized_binary.
  assert (G0 : ((ndim x =? 0)%nat && (ndim y =? 0)%nat || (ndim z =? 0)%nat || (ndim z <? ndim x)%nat || (ndim z <? ndim y)%nat) = false).
  { destruct (Nat.eqb_spec (ndim x) 0), (Nat.eqb_spec (ndim y) 0), (Nat.eqb_spec (ndim z) 0), (Nat.ltb_spec (ndim z) (ndim x)),
      (Nat.ltb_spec (ndim z) (ndim y)); try reflexivity; exfalso; tauto || lia. }
  rewrite G0. clear G0. destruct (Nat.eqb_spec (ndim z) 1) as [D|D].
  - specialize (D1 D). unfold ndim in D. destruct (shape z) as [|m [|? ?]] eqn:Sh; try discriminate.
    exists (grid [m]). split; [apply Permutation_refl|].
    f_equal. assert (En : size z = m) by (unfold size; rewrite Sh; cbn; destruct m; reflexivity). rewrite En in *.
    assert (R : forall a i, line_or_number a z -> wf a -> In i (zrange m) -> incr (blk a, base a) (i * hd 0 (strides a)) = ptr a (pick (shape a) [i])).
    { intros a i Sa [La _ _] Hi. apply zrange_in in Hi. destruct Sa as [Sa|Sa]; rewrite Sa in *.
      - destruct (strides a) eqn:Es; [|discriminate]. unfold incr, ptr. rewrite Es. cbn [fst snd hd]. rewrite dot_nil_r. f_equal. lia.
      - rewrite Sh in *. rewrite pick_same by (constructor; [lia|constructor]). destruct (strides a) as [|s [|? ?]] eqn:Es; try discriminate.
        unfold incr, ptr. rewrite Es. cbn [fst snd hd dot]. f_equal. lia. }
    assert (E : line_steps [(blk x, base x, hd 0 (strides x)); (blk y, base y, hd 0 (strides y))] (blk z, base z) (hd 0 (strides z)) m =
      bset_steps z [x; y] (grid [m])).
    { unfold line_steps, bset_steps. cbn [grid map]. rewrite (flat_map_single (fun i => [i])). rewrite map_map. apply map_ext_in. intros i Hi.
      cbn [map fst snd]. destruct D1 as [D1 D3]. rewrite (R x), (R y) by assumption. f_equal.
      rewrite (R z i) by (auto; right; reflexivity). rewrite Sh, pick_same; [reflexivity|]. apply zrange_in in Hi. constructor; [lia|constructor]. }
    rewrite <- E. apply binary_loop_ok; [lia|assumption|rewrite E; apply Q, Permutation_refl|].
    intros Z0 _ _. destruct D2 as [[S2 N0]|D2]; [|now inversion D2]. apply (N0 O); [simpl; lia|]. destruct (strides x); [reflexivity|exact Z0].
  - destruct (broadcast_to_ok x (shape z) Wx Fz Nx) as [(_ & b1 & E1 & W1 & S1 & _ & R1)|[X _]]; [|contradiction].
    destruct (broadcast_to_ok y (shape z) Wy Fz Ny) as [(_ & b2 & E2 & W2 & S2 & _ & R2)|[X _]]; [|contradiction].
    rewrite E1, E2. cbn [bind]. pose proof (broadcast_isz _ _ _ E1) as J1. pose proof (broadcast_isz _ _ _ E2) as J2.
    assert (T : forall cs, Permutation cs (grid (shape z)) -> bset_steps z [x; y] cs = set_steps z [b1; b2] cs).
    { intros cs P. apply map_ext_in. intros c Hc. apply (Permutation_in _ P), grid_in in Hc. cbn [map].
      destruct (R1 c Hc) as [_ ->], (R2 c Hc) as [_ ->]. reflexivity. }
    pose proof W1 as [Lb1 _ _]. pose proof W2 as [Lb2 _ _]. rewrite S1 in Lb1. rewrite S2 in Lb2.
    destruct (contig_match b1 z && contig_match b2 z) eqn:C.
    + apply andb_prop in C. destruct C as [C1 C2]. destruct (contig_match_lines2 b1 b2 z) as (o & Ho); auto; [congruence|congruence|].
      exists (ogrid o (shape z)). split; [apply ogrid_perm|]. f_equal. rewrite T by apply ogrid_perm.
      pose proof (steps_line z [b1; b2] (isz z) (ogrid o (shape z)) (zrange (size z)) Ho) as E. rewrite <- E.
      apply binary_loop_ok; [assumption|assumption| |lia].
      change (line_steps [(blk b1, base b1, isz z); (blk b2, base b2, isz z)] (blk z, base z) (isz z) (size z)) with
        (map (fun i => (incr (blk z, base z) (i * isz z), map (fun ps => incr (fst ps) (i * snd ps)) (map (fun a => ((blk a, base a), isz z)) [b1; b2]))) (zrange (size z))).
      rewrite E, <- T by apply ogrid_perm. apply Q. apply ogrid_perm.
    + set (k := loop_axis (shape z) (map key (strides b1))). assert (K : (k < length (shape z))%nat) by (apply loop_axis_bound; unfold ndim in N; lia).
      pose proof (axis_grid_perm (shape z) k K) as PG.
      exists (axis_grid (shape z) k). split; [assumption|]. f_equal. rewrite multirange_grid, T by assumption.
      rewrite <- (steps_axis z [b1; b2] (shape z) k) by (auto; repeat constructor; congruence). apply fold_quiet.
      * intros h1 idx _ Qi. apply binary_loop_ok; [apply Forall_nth; auto|assumption|exact Qi|].
        intros Z0 _ _. destruct D2 as [[S3 N0]|D2]; [|apply Forall_nth; auto].
        rewrite <- S3, broadcast_self in E1 by assumption. injection E1 as <-. now apply N0.
      * rewrite steps_axis by (auto; repeat constructor; congruence). rewrite <- T by assumption. now apply Q.
Qed.

(** ** What the steps leave in memory *)

Lemma steps_quiet z (rd : list Z -> list (nat * Z)) cs : Permutation cs (grid (shape z)) ->
  (forall c d, inside (shape z) c -> inside (shape z) d -> ptr z c = ptr z d -> c = d) ->
  (forall c d, inside (shape z) c -> inside (shape z) d -> In (ptr z c) (rd d) -> c = d) ->
  quiet (map (fun c => (ptr z c, rd c)) cs).
Proof.
  intros P I R. assert (C : forall c, In c cs -> inside (shape z) c) by (intros c Hc; apply (Permutation_in _ P), grid_in in Hc; exact Hc).
  split.
  - rewrite map_map. cbn [fst]. apply nodup_ptr; [intros; apply I; auto|].
    eapply Permutation_NoDup; [apply Permutation_sym; exact P|apply grid_nodup].
  - intros s t Hs Ht Hi. apply in_map_iff in Hs, Ht. destruct Hs as (c & <- & Hc), Ht as (d & <- & Hd). cbn [fst snd] in Hi.
    assert (c = d) by (apply R; auto). now subst.
Qed.

Lemma steps_filled f (h : heap) z (rd : list Z -> list (nat * Z)) cs : Permutation cs (grid (shape z)) ->
  (forall c d, inside (shape z) c -> inside (shape z) d -> ptr z c = ptr z d -> c = d) ->
  (forall c d, inside (shape z) c -> inside (shape z) d -> In (ptr z c) (rd d) -> c = d) ->
  let h' := osteps f h (map (fun c => (ptr z c, rd c)) cs) in
  next h' = next h /\
  (forall c, inside (shape z) c -> load h' (ptr z c) = match f (map (load h) (rd c)) with Some v => v | None => load h (ptr z c) end) /\
  (forall p, (forall c, inside (shape z) c -> p <> ptr z c) -> load h' p = load h p).
Proof.
  intros P I R h'. destruct (steps_quiet z rd cs P I R) as [N D].
  assert (C : forall c, In c cs <-> inside (shape z) c).
  { intros c. rewrite <- grid_in. split; apply Permutation_in; [assumption|now apply Permutation_sym]. }
  unfold h'. split; [apply osteps_next|]. split.
  - intros c Hc. pose proof (osteps_in f h _ (ptr z c, rd c) N D) as X. cbn [fst snd] in X. apply X.
    apply in_map_iff. exists c. split; [reflexivity|]. now apply C.
  - intros p Hp. apply osteps_other. rewrite map_map. cbn [fst]. intros Hi. apply in_map_iff in Hi.
    destruct Hi as (c & E & Hc). apply (Hp c); [now apply C|auto].
Qed.

(** ** [empty_like] *)

Lemma like_spec q sh : forall s st, NoDup q -> (forall j, In j q -> (j < length st)%nat) ->
  length (like_strides q sh s st) = length st /\
  (forall j, ~ In j q -> nth j (like_strides q sh s st) 0 = nth j st 0) /\
  permute 0 q (like_strides q sh s st) = strides_walk (permute 0 q sh) s.
Proof.
  induction q as [|p q IH]; intros s st N B; cbn [like_strides]; [auto|]. inversion N as [|? ? N1 N2]; subst.
  destruct (IH (s * nth p sh 0) (set_nth st p s) N2) as (L & O & E); [intros j Hj; rewrite set_nth_length; apply B; simpl; auto|].
  rewrite set_nth_length in L. split; [assumption|]. split.
  - intros j Hj. simpl in Hj. rewrite O by tauto. apply set_nth_other. intuition.
  - unfold permute in *. cbn [map strides_walk]. f_equal; [|exact E]. rewrite O by assumption. apply set_nth_same. apply B. simpl; auto.
Qed.

Theorem empty_like_ok e (h : heap) x h1 r : wf x -> 0 < e -> empty_like zero e h x = (h1, r) ->
  next h1 = S (next h) /\ kept h h1 /\ wf r /\ blk r = next h /\ shape r = shape x /\ isz r = e /\
  forall c d, inside (shape x) c -> inside (shape x) d -> ptr r c = ptr r d -> c = d.
Proof.
  intros [L F P] E Em. unfold empty_like in Em. destruct (alloc zero h) as [h2 b] eqn:A.
  assert (N2 : next h2 = S (next h)) by (unfold alloc in A; injection A as <- _; reflexivity).
  apply alloc_parts in A. destruct A as [-> K].
  assert (M : forall fc, let a := mk (next h) 0 e (shape x) fc in wf a /\ blk a = next h /\ shape a = shape x /\ isz a = e /\
     forall c d, inside (shape x) c -> inside (shape x) d -> ptr a c = ptr a d -> c = d).
  { intros fc a. split; [now apply mk_wf|]. do 3 (split; [reflexivity|]). intros c d Hc Hd Ep. unfold ptr in Ep. cbn [a mk blk base strides] in Ep.
    injection Ep as Ep. apply (mk_inj (shape x) fc e); auto. }
  destruct (contig x) as [cc fc]. injection Em as <- <-. split; [assumption|]. split; [assumption|].
  destruct (cc || _); [apply M|]. destruct fc; [apply M|].
  set (p := map fst (sort_by_stride (seq 0 (ndim x)) (strides x))).
  assert (Pp : is_perm p (length (shape x))).
  { unfold p, is_perm. pose proof (sort_perm (seq 0 (ndim x)) (strides x)) as H. apply (Permutation_map fst) in H.
    rewrite combine_fst in H by (rewrite seq_length; unfold ndim; congruence). exact H. }
  assert (Pq : is_perm (rev p) (length (shape x))).
  { eapply Permutation_trans; [apply Permutation_sym, Permutation_rev|exact Pp]. }
  destruct (like_spec (rev p) (shape x) e (repeat 0 (ndim x))) as (Ls & _ & Es).
  { eapply Permutation_NoDup; [apply Permutation_sym; exact Pq|apply seq_NoDup]. }
  { intros j Hj. rewrite repeat_length. apply (Permutation_in _ Pq), in_seq in Hj. unfold ndim. lia. }
  rewrite repeat_length in Ls. change (ndim x) with (length (shape x)) in Ls at 2. set (st := like_strides (rev p) (shape x) e (repeat 0 (ndim x))) in *.
  split; [split; cbn [strides shape isz]; assumption|]. do 3 (split; [reflexivity|]). intros c d Hc Hd Ep.
  unfold ptr in Ep. cbn [blk base strides] in Ep. injection Ep as Ep.
  pose proof (inside_length _ _ Hc) as Lc. pose proof (inside_length _ _ Hd) as Ld.
  apply (permute_inj (rev p) (shape x) c d Pq Lc Ld).
  apply (mk_inj (permute 0 (rev p) (shape x)) true e).
  - eapply Permutation_Forall; [apply Permutation_sym, permute_perm; exact Pq|exact F].
  - assumption.
  - now apply permute_inside.
  - now apply permute_inside.
  - change (mk_strides (permute 0 (rev p) (shape x)) true e) with (strides_walk (permute 0 (rev p) (shape x)) e).
    rewrite <- Es. rewrite !dot_permute by (rewrite Ls; assumption). exact Ep.
Qed.

End Ufunc.
