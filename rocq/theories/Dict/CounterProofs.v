(** Counters: each operation on the hash table has its effect on the counts. *)
From Coq Require Import List ZArith Lia Bool Permutation Sorted.
From Verif.Common Require Import Result Int64 Arr Tac Ord.
From Verif.Dict Require Import Model Spec Flags Cells Proofs OpProofs Run LastWrite SetSpec SetProofs CounterModel CounterSpec.
From Verif.Sort Require Import Dispatch Properties.
From Verif.Heap Require Import Spec Properties.
Import ListNotations.
Local Open Scope Z_scope.
Local Open Scope res_scope.
Local Arguments Z.add : simpl never.
Local Arguments Z.sub : simpl never.
Local Arguments Z.mul : simpl never.
Local Arguments Z.pow : simpl never.

Section Counter.
Context {K : Type} (eqb : K -> K -> bool) (hash : K -> Z).
Context (eqb_refl : forall a, eqb a a = true).
Context (eqb_sym : forall a b, eqb a b = eqb b a).
Context (eqb_trans : forall a b c, eqb a b = true -> eqb b c = true -> eqb a c = true).
Context (hash_eq : forall a b, eqb a b = true -> hash a = hash b).
Local Notation tbl := (tbl K Z).
Local Notation repr := (repr eqb hash).
Local Notation count := (count eqb).
Local Notation uniq := (keys_uniq eqb).

(** ** Counts *)

Lemma count_store m k v k' : count (store eqb m k v) k' = if eqb k k' then v else count m k'.
Proof. unfold CounterSpec.count. rewrite (lookup_store eqb eqb_sym eqb_trans). now destruct (eqb k k'). Qed.

Lemma lookup_respects (m : list (K * Z)) a k : eqb a k = true -> lookup eqb m a = lookup eqb m k.
Proof.
  intros E. induction m as [|[b w] m IH]; [reflexivity|]. cbn. rewrite IH. destruct (eqb b a) eqn:A, (eqb b k) eqn:B; try reflexivity.
  - rewrite (eqb_trans b a k A E) in B. discriminate.
  - rewrite (eqb_trans b k a B) in A; [discriminate|]. now rewrite eqb_sym.
Qed.

Lemma uniq_tail a (v : Z) (m : list (K * Z)) k : uniq ((a, v) :: m) -> eqb a k = true -> lookup eqb m k = None.
Proof.
  intros U E. destruct (lookup_cases eqb m k) as [(_ & L)|(k0 & v0 & I & E0 & _)]; [exact L|exfalso].
  inversion U as [|? ? F _]; subst. rewrite Forall_forall in F. specialize (F _ I). cbn in F.
  rewrite (eqb_trans a k k0 E) in F; [discriminate|]. now rewrite eqb_sym.
Qed.
Lemma uniq_cons (e : K * Z) (m : list (K * Z)) : uniq (e :: m) -> uniq m.
Proof. intros U. now inversion U. Qed.

Lemma lookup_in (m : list (K * Z)) k v : lookup eqb m k = Some v -> exists k', In (k', v) m /\ eqb k' k = true.
Proof.
  intros L. destruct (lookup_cases eqb m k) as [(_ & N)|(k0 & v0 & I & E0 & L2)]; [congruence|].
  rewrite L in L2. injection L2 as ->. eauto.
Qed.
Lemma in_lookup (m : list (K * Z)) k v : uniq m -> In (k, v) m -> lookup eqb m k = Some v.
Proof.
  intros U. induction m as [|[a w] m IH]; intros I; [destruct I|]. cbn. destruct I as [E|I].
  - injection E as -> ->. now rewrite eqb_refl.
  - destruct (eqb a k) eqn:E; [|apply IH; [now apply uniq_cons in U|assumption]].
    pose proof (uniq_tail a w m k U E) as N. rewrite IH in N; [discriminate|now apply uniq_cons in U|assumption].
Qed.

Lemma ints_store m k v : ints m -> in64 v -> ints (store eqb m k v).
Proof.
  intros H Hv. induction m as [|[a w] m IH]; cbn.
  - intros k' v' [E|[]]. now injection E as <- <-.
  - assert (Hm : ints m) by (intros k' v' I; apply (H k' v'); now right). destruct (eqb a k).
    + intros k' v' [E|I]; [now injection E as <- <-|]. now apply (Hm k' v').
    + intros k' v' [E|I]; [injection E as <- <-; apply (H a w); now left|]. now apply (IH Hm k' v').
Qed.
Lemma ints_count m k : ints m -> in64 (count m k).
Proof.
  intros H. unfold CounterSpec.count. destruct (lookup eqb m k) as [v|] eqn:L; [|unfold in64, min64, max64; lia].
  apply lookup_in in L. destruct L as (k' & I & _). eauto.
Qed.
Lemma ints_perm (m m' : list (K * Z)) : Permutation m m' -> ints m -> ints m'.
Proof. intros P H k v I. apply (H k v). eapply Permutation_in; [symmetry; exact P|assumption]. Qed.

(** ** Single operations *)

Lemma incr_ok t m k v : repr t m -> zlen m <= 2^60 -> in64 v ->
  wp (incr eqb hash t k v) (fun t' => repr t' (store eqb m k (w64 (count m k + v)))).
Proof.
  intros R Sm Hv. unfold incr, increment. apply wp_bind. eapply wp_conseq; [now apply (put_lookup eqb hash eqb_sym eqb_trans hash_eq t m k)|].
  intros [[t' ret] x] [(Hr & L & H)|(-> & R' & v0 & L & Rd & H)]; unfold CounterSpec.count; rewrite L.
  - destruct (Z.eqb_spec ret 0); [contradiction|]. cbn [negb]. rewrite Z.add_0_l, w64_id by assumption. apply H.
  - cbn [negb]. change (negb (0 =? 0)) with false. cbv iota. rewrite Rd. cbn [bind]. apply H.
Qed.

Lemma get_eq (t : tbl) m k : repr t m -> get eqb hash t k = Ok (lookup eqb m k).
Proof.
  intros R. unfold get. pose proof (get_lookup eqb hash eqb_sym eqb_trans hash_eq t m k R) as W. apply wp_inv in W.
  destruct W as (x & -> & G). cbn [bind]. destruct G as [(-> & -> & _)|(N & _ & _ & v & -> & Rd)].
  - now rewrite Z.eqb_refl.
  - destruct (Z.eqb_spec x (nb t)); [contradiction|]. cbn [negb]. now rewrite Rd.
Qed.
Lemma cget_eq t m k : repr t m -> cget eqb hash t k = Ok (count m k).
Proof. intros R. unfold cget. now rewrite (get_eq t m k R). Qed.
Lemma kv_contains_eq (t : tbl) m k : repr t m -> contains eqb hash t k = Ok (match lookup eqb m k with Some _ => true | None => false end).
Proof.
  intros R. unfold contains. pose proof (get_lookup eqb hash eqb_sym eqb_trans hash_eq t m k R) as W. apply wp_inv in W.
  destruct W as (x & -> & G). cbn [bind]. destruct G as [(-> & -> & _)|(N & _ & _ & v & -> & Rd)].
  - now rewrite Z.eqb_refl.
  - now destruct (Z.eqb_spec x (nb t)).
Qed.
Lemma kv_items_ok (t : tbl) m : repr t m -> exists l, items t = Ok l /\ Permutation l m.
Proof. intros (W & P). exists (ents t). split; [now apply (items_spec eqb hash)|assumption]. Qed.

(** ** Loops over another counter *)

Lemma each_ok (body : tbl -> K * Z -> res tbl) (g : Z -> Z -> Z) :
  (forall t m k v, repr t m -> zlen m <= 2^60 -> in64 v -> wp (body t (k, v)) (fun t' => repr t' (store eqb m k (g (count m k) v)))) ->
  (forall a b, in64 a -> in64 b -> in64 (g a b)) ->
  forall l t m, repr t m -> ints m -> ints l -> uniq l -> zlen m + zlen l <= 2^60 ->
  wp (each body l t) (fun t' => exists m', repr t' m' /\ ints m' /\ zlen m' <= zlen m + zlen l /\
    forall k, count m' k = match lookup eqb l k with Some v => g (count m k) v | None => count m k end).
Proof.
  intros B G. induction l as [|[a v] l IH]; intros t m R I Il U L; cbn [each].
  - apply wp_ok. exists m. split; [assumption|]. split; [assumption|]. split; [change (zlen (@nil (K*Z))) with 0; lia|]. reflexivity.
  - assert (EL : zlen ((a, v) :: l) = zlen l + 1) by (unfold zlen; cbn [length]; lia). rewrite EL in *.
    assert (Hv : in64 v) by (apply (Il a v); now left).
    apply wp_bind. eapply wp_conseq; [apply (B t m a v R); [pose proof (zlen_nonneg l); lia|assumption]|]. cbv beta. intros t1 R1.
    pose proof (store_len eqb m a (g (count m a) v)) as SL.
    eapply wp_conseq; [apply (IH t1 _ R1)|].
    + apply ints_store; [assumption|]. apply G; [now apply ints_count|assumption].
    + intros k w Hk. apply (Il k w). now right.
    + now apply uniq_cons in U.
    + lia.
    + cbv beta. intros t' (m' & R' & I' & L' & C). exists m'. split; [assumption|]. split; [assumption|]. split; [lia|].
      intros k. rewrite C. cbn [lookup]. rewrite !count_store. destruct (eqb a k) eqn:E; [|reflexivity].
      rewrite (uniq_tail a v l k U E). f_equal. unfold CounterSpec.count. now rewrite (lookup_respects m a k E).
Qed.

(** ** Sequences *)

Lemma seq_ok d l : in64 d -> forall t m, repr t m -> ints m -> zlen m + zlen l <= 2^60 ->
  wp (each (fun t a => incr eqb hash t a d) l t) (fun t' => exists m', repr t' m' /\ ints m' /\
    forall k, count m' k = w64 (count m k + d * occurrences eqb l k)).
Proof.
  intros Hd. induction l as [|a l IH]; intros t m R I L; cbn [each].
  - apply wp_ok. exists m. split; [assumption|]. split; [assumption|]. intros k. cbn. rewrite Z.mul_0_r, Z.add_0_r, w64_id; [reflexivity|]. now apply ints_count.
  - assert (EL : zlen (a :: l) = zlen l + 1) by (unfold zlen; cbn [length]; lia). rewrite EL in *. pose proof (zlen_nonneg l).
    apply wp_bind. eapply wp_conseq; [apply (incr_ok t m a d R); [lia|assumption]|]. cbv beta. intros t1 R1.
    pose proof (store_len eqb m a (w64 (count m a + d))) as SL.
    eapply wp_conseq; [apply (IH t1 _ R1); [apply ints_store; [assumption|apply w64_in]|lia]|]. cbv beta. intros t' (m' & R' & I' & C).
    exists m'. split; [assumption|]. split; [assumption|]. intros k. rewrite C, count_store. cbn [occurrences]. destruct (eqb a k) eqn:E.
    + rewrite w64_add_l. f_equal. unfold CounterSpec.count. rewrite (lookup_respects m a k E). lia.
    + f_equal; lia.
Qed.

(** ** Removing the counts that are not positive *)

Definition keeps (e : K * Z) : bool := 0 <? snd e.

Lemma for_items_S fuel body (t : tbl) i : for_items (S fuel) body t i =
  if i <? nb t then
    e <- iseither (flags t) i ;;
    t <- (if e =? 0 then k <- rd (keys t) i ;; v <- rd (vals t) i ;; body t k v else Ok t) ;;
    for_items fuel body t (i + 1)
  else Ok t.
Proof. reflexivity. Qed.

Lemma cdel_at (t : tbl) k i : wfn eqb hash t -> 0 <= i < nb t -> liveb (flags t) i = true -> zn None (keys t) i = Some k ->
  wp (cdel eqb hash t k) (fun t' => wfn eqb hash t' /\ nb t' = nb t /\ keys t' = keys t /\ vals t' = vals t /\
    (forall j, 0 <= j -> liveb (flags t') j = if j =? i then false else liveb (flags t) j)).
Proof.
  intros W Hi Lv Ek. destruct (w_full _ _ t W i) as (k1 & v & Ek1 & Ev); [lia|auto|]. rewrite Ek in Ek1. injection Ek1 as <-.
  assert (At : is_at eqb t k i) by (split; [lia|]; split; auto; exists k; auto).
  unfold cdel. apply wp_bind. eapply wp_conseq; [apply get_spec; auto; now right|]. cbv beta. intros x [(-> & Ab)|Atx].
  { exfalso. assert (eqb k k = false); [|rewrite eqb_refl in *; discriminate].
    apply (absent_ents eqb eqb_sym t k Ab k v). apply in_cells. exists i. repeat split; auto; lia. }
  assert (EX : x = i).
  { destruct Atx as (Hx & Lx & k' & Ek' & E'). apply (w_uniq _ _ t W x i k' k); auto. }
  subst x. destruct (Z.eqb_spec i (nb t)); [lia|]. cbn [negb].
  destruct (del_spec eqb hash t k i W At) as (k2 & v2 & Ev2 & E2 & D).
  eapply wp_conseq; [exact D|]. cbv beta. intros t1 (W1 & N1 & K1 & V1 & L1 & P1). auto.
Qed.

Lemma del_loop : forall fuel t i, wfn eqb hash t -> 0 <= i <= nb t -> (Z.to_nat (nb t - i) < fuel)%nat ->
  wp (for_items fuel (fun t k v => if v <=? 0 then cdel eqb hash t k else Ok t) t i) (fun t' => wfn eqb hash t' /\
    nb t' = nb t /\ keys t' = keys t /\ vals t' = vals t /\
    forall j, 0 <= j < nb t -> liveb (flags t') j = liveb (flags t) j && ((j <? i) || match zn None (vals t) j with Some v => 0 <? v | None => false end)).
Proof.
  induction fuel as [|fuel IH]; intros t i W Hi F; [lia|]. rewrite for_items_S.
  destruct (Z.ltb_spec i (nb t)) as [Lt|Ge].
  2:{ apply wp_ok. split; auto. split; auto. split; auto. split; auto. intros j Hj. destruct (Z.ltb_spec j i); [|lia]. cbn. now rewrite andb_true_r. }
  destruct (iseither_eq (flags t) i) as (e & Ee & El); [lia| |].
  { pose proof (w_flags _ _ _ W). pose proof (fsize_enough (nb t) i (w_pow _ _ _ W)). lia. }
  rewrite Ee. cbn [bind]. fold (liveb (flags t) i) in El. rewrite El.
  destruct (liveb (flags t) i) eqn:Lv.
  - destruct (w_full _ _ t W i) as (k & v & Ek & Ev); [lia|auto|].
    rewrite (rd_ok (keys t) i k) by (auto; rewrite (w_keys _ _ t W); lia). cbn [bind].
    rewrite (rd_ok (vals t) i v) by (auto; rewrite (w_vals _ _ t W); lia). cbn [bind].
    destruct (Z.leb_spec v 0) as [Le|Gt].
    + apply wp_bind. eapply wp_conseq; [apply (cdel_at t k i W); auto; lia|]. cbv beta. intros t1 (W1 & N1 & K1 & V1 & L1).
      eapply wp_conseq; [apply (IH t1 (i + 1) W1); lia|]. cbv beta. intros t' (W' & N' & K' & V' & L').
      split; auto. split; [congruence|]. split; [congruence|]. split; [congruence|]. intros j Hj. rewrite L', L1, V1 by lia.
      destruct (Z.eqb_spec j i) as [->|].
      * rewrite Ev. destruct (Z.ltb_spec i i); [lia|]. replace (0 <? v) with false by lia. now rewrite andb_false_r.
      * f_equal. destruct (Z.ltb_spec j (i + 1)), (Z.ltb_spec j i); try lia; reflexivity.
    + cbn [bind]. eapply wp_conseq; [apply (IH t (i + 1) W); lia|]. cbv beta. intros t' (W' & N' & K' & V' & L').
      split; auto. split; auto. split; auto. split; auto. intros j Hj. rewrite L' by lia.
      destruct (Z.eq_dec j i) as [->|].
      * rewrite Ev. replace (0 <? v) with true by lia. now rewrite !orb_true_r.
      * f_equal. destruct (Z.ltb_spec j (i + 1)), (Z.ltb_spec j i); try lia; reflexivity.
  - cbn [bind]. eapply wp_conseq; [apply (IH t (i + 1) W); lia|]. cbv beta. intros t' (W' & N' & K' & V' & L').
    split; auto. split; auto. split; auto. split; auto. intros j Hj. rewrite L' by lia.
    destruct (Z.eq_dec j i) as [->|]; [now rewrite Lv|].
    f_equal. destruct (Z.ltb_spec j (i + 1)), (Z.ltb_spec j i); try lia; reflexivity.
Qed.

Lemma del_np_ok t m : repr t m -> wp (del_non_positives eqb hash t) (fun t' => repr t' (filter keeps m)).
Proof.
  intros ([->|W] & P).
  - change (del_non_positives eqb hash new) with (Ok (@new K Z)). apply wp_ok. change (ents (@new K Z)) with (@nil (K * Z)) in P.
    apply Permutation_nil in P. subst m. split; [now left|constructor].
  - pose proof (pow2_bounds _ (w_pow _ _ _ W)). unfold del_non_positives.
    eapply wp_conseq; [apply (del_loop _ t 0 W); lia|]. cbv beta. intros t' (W' & N' & K' & V' & L'). split; [now right|].
    assert (E : ents t' = filter keeps (ents t)).
    { unfold ents, cells. rewrite N', K', V'. assert (Hz : forall j, In j (zseq (nb t)) -> 0 <= j < nb t).
      { intros j Hj. unfold zseq in Hj. apply in_map_iff in Hj. destruct Hj as (n & <- & Hn). apply in_seq in Hn. lia. }
      induction (zseq (nb t)) as [|j l IH]; cbn [flat_map]; [reflexivity|]. rewrite filter_app, IH by (intros; apply Hz; now right). f_equal.
      unfold cell. assert (Hj : 0 <= j < nb t) by (apply Hz; now left). rewrite (L' j Hj). destruct (Z.ltb_spec j 0); [lia|]. cbn [orb].
      destruct (liveb (flags t) j) eqn:Lj; [|reflexivity]. cbn [andb]. destruct (w_full _ _ t W j Hj Lj) as (k & v & Ek & Ev).
      rewrite Ev. unfold ent. rewrite Ek, Ev. cbn [filter keeps snd]. unfold keeps. cbn [snd]. now destruct (0 <? v). }
    rewrite E. clear -P. induction P; cbn; repeat (destruct (keeps _)); eauto using Permutation.
Qed.

Lemma count_keeps m k : uniq m -> count (filter keeps m) k = Z.max 0 (count m k).
Proof.
  unfold CounterSpec.count. induction m as [|[a v] m IH]; intros U; [reflexivity|]. cbn [filter lookup].
  pose proof (uniq_cons _ _ U) as Um. unfold keeps at 1. cbn [snd]. destruct (Z.ltb_spec 0 v) as [H|H]; cbn [lookup].
  - destruct (eqb a k); [lia|now apply IH].
  - destruct (eqb a k) eqn:E; [|now apply IH]. rewrite IH by assumption. rewrite (uniq_tail a v m k U E). lia.
Qed.
Lemma positive_keeps m : positive (filter keeps m).
Proof. intros k v I. apply filter_In in I. destruct I as [_ I]. unfold keeps in I. cbn in I. lia. Qed.
Lemma ints_keeps m : ints m -> ints (filter keeps m).
Proof. intros H k v I. apply filter_In in I. destruct I as [I _]. eauto. Qed.
Lemma len_keeps m : zlen (filter keeps m) <= zlen m.
Proof. unfold zlen. induction m as [|e m IH]; cbn [filter]; [lia|]. destruct (keeps e); cbn [length]; lia. Qed.

(** What [f] leaves: counts [c], none of which is not positive. *)
Definition leaves (f : res tbl) (c : K -> Z) : Prop :=
  exists t m, f = Ok t /\ repr t m /\ ints m /\ positive m /\ forall k, count m k = c k.

Lemma finish t0 (f : res tbl) (c : K -> Z) : f = del_non_positives eqb hash t0 ->
  (exists m, repr t0 m /\ ints m /\ forall k, count m k = c k) -> leaves f (fun k => Z.max 0 (c k)).
Proof.
  intros -> (m & R & I & C). pose proof (del_np_ok t0 m R) as W. apply wp_inv in W. destruct W as (t & E & R').
  exists t, (filter keeps m). split; [assumption|]. split; [assumption|]. split; [now apply ints_keeps|]. split; [apply positive_keeps|].
  intros k. rewrite count_keeps by (eapply repr_uniq; eauto). now rewrite C.
Qed.

Lemma init_ok (t : tbl) m : repr t m -> wp (init_from t) (fun t' => repr t' m).
Proof.
  intros (W & P). eapply wp_conseq; [apply (init_from_spec eqb hash); exact W|]. cbv beta. intros t' (W' & E). split; [assumption|]. now rewrite E.
Qed.

Lemma cdel_ok (t : tbl) m k : repr t m -> exists t' m', cdel eqb hash t k = Ok t' /\ repr t' m' /\
  forall k', lookup eqb m' k' = if eqb k k' then None else lookup eqb m k'.
Proof.
  intros R. pose proof (repr_uniq eqb hash eqb_sym t m R) as U. unfold cdel.
  pose proof (get_lookup eqb hash eqb_sym eqb_trans hash_eq t m k R) as W. apply wp_inv in W. destruct W as (x & -> & G). cbn [bind].
  destruct G as [(-> & L & _)|(N & At & W & v & L & Rd)].
  - rewrite Z.eqb_refl. cbn [negb]. exists t, m. split; [reflexivity|]. split; [assumption|]. intros k'. destruct (eqb k k') eqn:E; [|reflexivity].
    rewrite <- (lookup_respects m k k' E). exact L.
  - destruct (Z.eqb_spec x (nb t)); [contradiction|]. cbn [negb]. destruct (del_spec eqb hash t k x W At) as (k0 & v0 & _ & E0 & D).
    apply wp_inv in D. destruct D as (t' & -> & W' & _ & _ & _ & _ & P). exists t', (ents t'). split; [reflexivity|]. split; [split; [now right|reflexivity]|].
    intros k'. destruct R as (_ & Pm). assert (P2 : Permutation m ((k0, v0) :: ents t')) by (now rewrite <- Pm).
    rewrite (lookup_perm eqb eqb_sym eqb_trans m _ k' U P2). cbn [lookup].
    assert (U2 : uniq ((k0, v0) :: ents t')) by (eapply keys_uniq_perm; eauto).
    destruct (eqb k k') eqn:E.
    + apply (uniq_tail k0 v0); [assumption|]. eapply eqb_trans; eauto.
    + destruct (eqb k0 k') eqn:E1; [|reflexivity]. rewrite (eqb_trans k k0 k') in E; [discriminate|now rewrite eqb_sym|assumption].
Qed.

Section Binary.
Context (t o : tbl) (m y : list (K * Z)).
Context (R : repr t m) (Ro : repr o y) (Im : ints m) (Iy : ints y) (L : zlen m + zlen y <= 2^60).

Lemma items_o : exists l, items o = Ok l /\ ints l /\ uniq l /\ zlen l = zlen y /\ forall k, lookup eqb l k = lookup eqb y k.
Proof.
  destruct (kv_items_ok o y Ro) as (l & E & P). exists l. split; [assumption|]. split; [eapply ints_perm; [symmetry; exact P|assumption]|].
  assert (U : uniq l) by (eapply keys_uniq_perm; [auto|symmetry; exact P|eapply repr_uniq; eauto]). split; [assumption|].
  split; [unfold zlen; now rewrite (Permutation_length P)|]. intros k. now apply (lookup_perm eqb eqb_sym eqb_trans).
Qed.

Lemma loop_ok body g :
  (forall t m k v, repr t m -> zlen m <= 2^60 -> in64 v -> wp (body t (k, v)) (fun t' => repr t' (store eqb m k (g (count m k) v)))) ->
  (forall a b, in64 a -> in64 b -> in64 (g a b)) ->
  forall t0 m0, repr t0 m0 -> ints m0 -> zlen m0 <= zlen m -> exists t' m', (l <- items o ;; each body l t0) = Ok t' /\ repr t' m' /\ ints m' /\
    forall k, count m' k = match lookup eqb y k with Some v => g (count m0 k) v | None => count m0 k end.
Proof.
  intros B G t0 m0 R0 I0 L0. destruct items_o as (l & -> & Il & U & EL & Lk). cbn [bind].
  pose proof (each_ok body g B G l t0 m0 R0 I0 Il U) as W. rewrite EL in W. specialize (W ltac:(lia)).
  apply wp_inv in W. destruct W as (t' & E & m' & R' & I' & _ & C). exists t', m'. split; [assumption|]. split; [assumption|]. split; [assumption|].
  intros k. rewrite C. now rewrite Lk.
Qed.

Lemma update_from_ok : exists t' m', update_from eqb hash t o = Ok t' /\ repr t' m' /\ ints m' /\ forall k, count m' k = w64 (count m k + count y k).
Proof.
  destruct (loop_ok (fun t e => incr eqb hash t (fst e) (snd e)) (fun a b => w64 (a + b))) with (t0 := t) (m0 := m) as (t' & m' & E & R' & I' & C); auto; [|intros; apply w64_in|lia|].
  - intros t1 m1 k v R1 L1 Hv. now apply incr_ok.
  - exists t', m'. split; [exact E|]. split; [assumption|]. split; [assumption|]. intros k. rewrite C. unfold CounterSpec.count at 4.
    destruct (lookup eqb y k); [reflexivity|]. rewrite Z.add_0_r, w64_id; [reflexivity|]. now apply ints_count.
Qed.
Lemma subtract_from_ok : exists t' m', subtract_from eqb hash t o = Ok t' /\ repr t' m' /\ ints m' /\ forall k, count m' k = w64 (count m k - count y k).
Proof.
  destruct (loop_ok (fun t e => incr eqb hash t (fst e) (w64 (- snd e))) (fun a b => w64 (a - b))) with (t0 := t) (m0 := m) as (t' & m' & E & R' & I' & C); auto; [|intros; apply w64_in|lia|].
  - intros t1 m1 k v R1 L1 Hv. cbn [fst snd]. replace (w64 (count m1 k - v)) with (w64 (count m1 k + w64 (- v))) by (rewrite w64_add_r; f_equal; lia).
    apply incr_ok; [assumption|assumption|apply w64_in].
  - exists t', m'. split; [exact E|]. split; [assumption|]. split; [assumption|]. intros k. rewrite C. unfold CounterSpec.count at 4.
    destruct (lookup eqb y k); [reflexivity|]. rewrite Z.sub_0_r, w64_id; [reflexivity|]. now apply ints_count.
Qed.

Lemma iadd_ok : leaves (iadd eqb hash t o) (fun k => Z.max 0 (w64 (count m k + count y k))).
Proof.
  destruct update_from_ok as (t' & m' & E & R' & I' & C). apply (finish t'); [|eauto]. unfold iadd. now rewrite E.
Qed.
Lemma isub_ok : leaves (isub eqb hash t o) (fun k => Z.max 0 (w64 (count m k - count y k))).
Proof.
  destruct subtract_from_ok as (t' & m' & E & R' & I' & C). apply (finish t'); [|eauto]. unfold isub. now rewrite E.
Qed.
Lemma put_ok f : forall t m k v, repr t m -> zlen m <= 2^60 -> in64 v ->
  wp (c <- cget eqb hash t (fst (k, v)) ;; setitem eqb hash t (fst (k, v)) (f c (snd (k, v)))) (fun t' => repr t' (store eqb m k (f (count m k) v))).
Proof.
  intros t1 m1 k v R1 L1 Hv. cbn [fst snd]. rewrite (cget_eq t1 m1 k R1). cbn [bind]. now apply (setitem_ok eqb hash eqb_sym eqb_trans hash_eq).
Qed.
Lemma iand_ok : leaves (iand eqb hash t o) (fun k => Z.max 0 (match lookup eqb y k with Some v => Z.min (count m k) v | None => count m k end)).
Proof.
  destruct (loop_ok (fun t e => c <- cget eqb hash t (fst e) ;; setitem eqb hash t (fst e) (Z.min c (snd e))) Z.min (put_ok Z.min)) with (t0 := t) (m0 := m) as (t' & m' & E & R' & I' & C); auto; [unfold in64; lia|lia|].
  apply (finish t'); [|eauto]. unfold iand. destruct (items o); cbn [bind] in E |- *; try discriminate. now rewrite E.
Qed.
Lemma ior_ok : leaves (ior eqb hash t o) (fun k => Z.max 0 (Z.max (count m k) (count y k))).
Proof.
  pose proof (del_np_ok t m R) as W. apply wp_inv in W. destruct W as (t0 & E0 & R0).
  destruct (loop_ok (fun t e => c <- cget eqb hash t (fst e) ;; setitem eqb hash t (fst e) (Z.max c (snd e))) Z.max (put_ok Z.max)) with (t0 := t0) (m0 := filter keeps m) as (t' & m' & E & R' & I' & C); auto; [unfold in64; lia|now apply ints_keeps|apply len_keeps|].
  assert (F : leaves (ior eqb hash t o) (fun k => Z.max 0 (match lookup eqb y k with Some v => Z.max (Z.max 0 (count m k)) v | None => Z.max 0 (count m k) end))).
  { apply (finish t').
    - unfold ior. rewrite E0. cbn [bind]. destruct (items o); cbn [bind] in E |- *; try discriminate. now rewrite E.
    - exists m'. split; [assumption|]. split; [assumption|]. intros k. rewrite C. rewrite count_keeps by (eapply repr_uniq; eauto). reflexivity. }
  destruct F as (t2 & m2 & E2 & R2 & I2 & P2 & C2). exists t2, m2. split; [assumption|]. split; [assumption|]. split; [assumption|]. split; [assumption|].
  intros k. rewrite C2. unfold CounterSpec.count at 4. destruct (lookup eqb y k); lia.
Qed.

Lemma ceq_eq l : ceq_loop eqb hash o l = eq_loop eqb hash Z.eqb o l.
Proof.
  induction l as [|[k v] l IH]; [reflexivity|]. cbn [ceq_loop eq_loop]. unfold cget, get, contains, getitem.
  destruct (kh_get eqb hash o k) as [x| | |]; cbn [bind]; try reflexivity. destruct (negb (x =? nb o)); cbn [negb]; [|reflexivity].
  destruct (rd (vals o) x); cbn [bind]; try reflexivity. now rewrite IH.
Qed.
Lemma ceq_ok : ceq eqb hash t o = Ok (same_dict eqb Z.eqb m y).
Proof.
  pose proof (dict_eq_ok eqb Z.eqb hash eqb_sym eqb_trans hash_eq t m o y R Ro) as W. apply wp_inv in W. destruct W as (b & E & ->). rewrite <- E.
  unfold ceq, dict_eq. destruct (negb (sz t =? sz o)); [reflexivity|]. destruct (items t); cbn [bind]; try reflexivity. apply ceq_eq.
Qed.
End Binary.

(** ** Copies *)

Lemma copied (op : tbl -> tbl -> res tbl) t o m (Q : res tbl -> Prop) :
  repr t m -> (forall r, repr r m -> Q (op r o)) -> Q (r <- init_from t ;; op r o).
Proof.
  intros R H. pose proof (init_ok t m R) as W. apply wp_inv in W. destruct W as (r & -> & R'). now apply H.
Qed.

(** ** The signs *)

Lemma uniq_filter (p : K * Z -> bool) (l : list (K * Z)) : uniq l -> uniq (filter p l).
Proof.
  induction 1 as [|e l F U IH]; cbn; [constructor|]. destruct (p e); [|assumption]. constructor; [|assumption].
  apply Forall_forall. intros x I. apply filter_In in I. rewrite Forall_forall in F. now apply F.
Qed.

Lemma uniq_map (h : Z -> Z) (l : list (K * Z)) : uniq l -> uniq (map (fun e => (fst e, h (snd e))) l).
Proof.
  induction 1 as [|e q F U IH]; cbn; constructor; auto.
  apply Forall_forall. intros x Hx. apply in_map_iff in Hx. destruct Hx as (e' & <- & Hx). rewrite Forall_forall in F. exact (F e' Hx).
Qed.

Lemma fresh_ok (t : tbl) m : repr t m -> wp (kh_resize hash (@new K Z) (nb t)) (fun t => repr t []).
Proof.
  intros (W & _). eapply wp_conseq; [apply (resize_spec eqb hash); auto; [now left|]|].
  - destruct W as [->|W]; [unfold in64, min64, max64; cbn; lia|]. pose proof (pow2_bounds _ (w_pow _ _ _ W)). unfold in64, min64, max64. lia.
  - cbv beta. intros t' (W' & P & _). split; [assumption|]. exact P.
Qed.

Lemma sign_loop (c : Z -> bool) (h : Z -> Z) l : forall t : tbl, each (fun r e => if c (snd e) then setitem eqb hash r (fst e) (h (snd e)) else Ok r) l t =
  update eqb hash t (map (fun e => (fst e, h (snd e))) (filter (fun e => c (snd e)) l)).
Proof.
  induction l as [|[k v] l IH]; intros t; [reflexivity|]. cbn [each filter fst snd]. destruct (c v); cbn [map update fst snd].
  - destruct (setitem eqb hash t k (h v)); cbn [bind]; auto.
  - cbn [bind]. auto.
Qed.

Lemma lookup_sign (c : Z -> bool) (h : Z -> Z) (l : list (K * Z)) k : uniq l ->
  lookup eqb (map (fun e => (fst e, h (snd e))) (filter (fun e => c (snd e)) l)) k =
  match lookup eqb l k with Some v => if c v then Some (h v) else None | None => None end.
Proof.
  induction l as [|[a v] l IH]; intros U; [reflexivity|]. cbn [filter lookup snd]. pose proof (uniq_cons _ _ U) as Ul.
  destruct (c v) eqn:C; cbn [map lookup fst snd].
  - destruct (eqb a k); [now rewrite C|auto].
  - destruct (eqb a k) eqn:E; [|auto]. rewrite IH by assumption. rewrite (uniq_tail a v l k U E). now rewrite C.
Qed.

Lemma lookup_storeall (l : list (K * Z)) : forall m k, uniq l -> lookup eqb (storeall eqb m l) k = match lookup eqb l k with Some v => Some v | None => lookup eqb m k end.
Proof.
  induction l as [|[a v] l IH]; intros m k U; [reflexivity|]. change (storeall eqb m ((a, v) :: l)) with (storeall eqb (store eqb m a v) l).
  rewrite IH by now apply uniq_cons in U. cbn [lookup]. rewrite (lookup_store eqb eqb_sym eqb_trans).
  destruct (eqb a k) eqn:E; [|reflexivity]. now rewrite (uniq_tail a v l k U E).
Qed.

Lemma all_storeall (P : Z -> Prop) l : forall m, (forall k v, In (k, v) m -> P v) -> (forall k v, In (k, v) l -> P v) ->
  forall k v, In (k, v) (storeall eqb m l) -> P v.
Proof.
  induction l as [|[a w] l IH]; intros m Hm Hl k v I; [eauto|].
  apply (IH (store eqb m a w)) with (k := k); auto; [|intros; apply (Hl k0); now right].
  assert (Pw : P w) by (apply (Hl a); now left). clear -Hm Pw. induction m as [|[b u] m IHm]; cbn.
  - intros k v [E|[]]. now injection E as <- <-.
  - destruct (eqb b a).
    + intros k v [E|I]; [now injection E as <- <-|]. apply (Hm k). now right.
    + intros k v [E|I]; [injection E as <- <-; apply (Hm b); now left|]. apply (IHm (fun k v H => Hm k v (or_intror H)) k v I).
Qed.

Lemma sign_ok (t : tbl) m (c : Z -> bool) (h : Z -> Z) : repr t m -> ints m -> zlen m <= 2^60 -> (forall v, in64 v -> c v = true -> in64 (h v) /\ 0 < h v) ->
  leaves (r <- kh_resize hash new (nb t) ;; l <- items t ;;
    each (fun r e => if c (snd e) then setitem eqb hash r (fst e) (h (snd e)) else Ok r) l r)
    (fun k => match lookup eqb m k with Some v => if c v then h v else 0 | None => 0 end).
Proof.
  intros R I L H. pose proof (fresh_ok t m R) as W. apply wp_inv in W. destruct W as (r & -> & Rr). cbn [bind].
  destruct (items_o t m R I) as (l & -> & Il & U & EL & Lk). cbn [bind]. rewrite sign_loop.
  set (l' := map _ _). assert (Ll : zlen l' <= zlen m).
  { rewrite <- EL. unfold l', zlen. rewrite map_length. clear. induction l as [|e l IH]; cbn [filter]; [lia|]. destruct (c (snd e)); cbn [length]; lia. }
  assert (U' : uniq l').
  { now apply uniq_map, uniq_filter. }
  assert (P : forall k v, In (k, v) l' -> in64 v /\ 0 < v).
  { intros k v Hk. apply in_map_iff in Hk. destruct Hk as ([k0 v0] & E & Hk). injection E as <- <-. apply filter_In in Hk. destruct Hk as [Hk C]. cbn [fst snd] in *.
    apply H; [now apply (Il k0 v0)|assumption]. }
  pose proof (update_ok eqb hash eqb_sym eqb_trans hash_eq l' r [] Rr) as W. change (zlen (@nil (K * Z))) with 0 in W. specialize (W ltac:(lia)).
  apply wp_inv in W. destruct W as (t' & -> & R'). exists t', (storeall eqb [] l'). split; [reflexivity|]. split; [assumption|].
  pose proof (all_storeall (fun v => in64 v /\ 0 < v) l' [] ltac:(intros ? ? []) P) as A.
  split; [intros k v Hk; exact (proj1 (A k v Hk))|]. split; [intros k v Hk; exact (proj2 (A k v Hk))|].
  intros k. unfold CounterSpec.count. rewrite lookup_storeall by assumption. unfold l'. rewrite lookup_sign by assumption. rewrite Lk.
  destruct (lookup eqb m k) as [v|]; [|reflexivity]. now destruct (c v).
Qed.

Lemma cpos_ok t m : repr t m -> ints m -> zlen m <= 2^60 -> leaves (cpos eqb hash t) (fun k => Z.max 0 (count m k)).
Proof.
  intros R I L. destruct (sign_ok t m (fun v => 0 <? v) (fun v => v) R I L) as (t' & m' & E & R' & I' & P' & C).
  - intros v Hv C. split; [assumption|lia].
  - exists t', m'. split; [exact E|]. split; [assumption|]. split; [assumption|]. split; [assumption|]. intros k. rewrite C. unfold CounterSpec.count.
    destruct (lookup eqb m k) as [v|]; [|reflexivity]. destruct (Z.ltb_spec 0 v); lia.
Qed.
Lemma cneg_ok t m : repr t m -> ints m -> zlen m <= 2^60 -> (forall k v, In (k, v) m -> min64 < v) ->
  leaves (cneg eqb hash t) (fun k => Z.max 0 (- count m k)).
Proof.
  intros R I L N. destruct (sign_ok t m (fun v => (v <? 0) && (min64 <? v)) (fun v => w64 (- v)) R I L) as (t' & m' & E & R' & I' & P' & C).
  - intros v Hv C. rewrite w64_id; unfold in64, min64, max64 in *; lia.
  - exists t', m'. split; [|split; [assumption|]; split; [assumption|]; split; [assumption|]].
    + rewrite <- E. unfold cneg. destruct (kh_resize hash new (nb t)); cbn [bind]; try reflexivity. destruct (kv_items_ok t m R) as (l & -> & P). cbn [bind].
      assert (Nl : forall k v, In (k, v) l -> min64 < v) by (intros k v Hk; apply (N k); eapply Permutation_in; eauto). clear -Nl. revert a.
      induction l as [|[k v] l IH]; intros a; [reflexivity|]. cbn [each snd fst]. assert (min64 < v) by (apply (Nl k); now left).
      replace (min64 <? v) with true by lia. rewrite andb_true_r. destruct (if v <? 0 then _ else _); cbn [bind]; try reflexivity.
      apply IH. intros k' v' H'. apply (Nl k'). now right.
    + intros k. rewrite C. unfold CounterSpec.count. destruct (lookup eqb m k) as [v|] eqn:Lk; [|reflexivity].
      apply lookup_in in Lk. destruct Lk as (k' & Hk & _). pose proof (N _ _ Hk). pose proof (I _ _ Hk). replace (min64 <? v) with true by lia. rewrite andb_true_r.
      destruct (Z.ltb_spec v 0); [|lia]. rewrite w64_id by (unfold in64, min64, max64 in *; lia). lia.
Qed.

(** ** total, elements *)

Definition sum (l : list (K * Z)) : Z := fold_right (fun e s => snd e + s) 0 l.
Lemma sum_perm l l' : Permutation l l' -> sum l = sum l'.
Proof. unfold sum. induction 1; cbn [fold_right]; lia. Qed.
Lemma total_fold l : forall s, in64 s -> fold_left (fun s e => w64 (s + snd e)) l s = w64 (s + sum l).
Proof.
  induction l as [|e l IH]; intros s Hs; cbn [fold_left].
  - cbn. rewrite Z.add_0_r, w64_id by assumption. reflexivity.
  - rewrite IH by apply w64_in. rewrite w64_add_l. f_equal. cbn [sum fold_right]. unfold sum. lia.
Qed.
Lemma total_ok t m : repr t m -> total t = Ok (w64 (sum m)).
Proof.
  intros R. unfold total. destruct (kv_items_ok t m R) as (l & -> & P). cbn [bind]. rewrite total_fold by (unfold in64, min64, max64; lia).
  rewrite Z.add_0_l. do 2 f_equal. now apply sum_perm.
Qed.

Lemma occurrences_app l l' k : occurrences eqb (l ++ l') k = occurrences eqb l k + occurrences eqb l' k.
Proof. induction l as [|a l IH]; cbn [app occurrences]; [reflexivity|]. rewrite IH. lia. Qed.
Lemma occurrences_repeat a n k : occurrences eqb (repeat a n) k = if eqb a k then Z.of_nat n else 0.
Proof. induction n as [|n IH]; cbn [repeat occurrences]; [now destruct (eqb a k)|]. rewrite IH. destruct (eqb a k); lia. Qed.
Lemma elements_ok t m : repr t m -> exists l, elements t = Ok l /\ forall k, occurrences eqb l k = Z.max 0 (count m k).
Proof.
  intros R. unfold elements. destruct (kv_items_ok t m R) as (l & -> & P). cbn [bind]. eexists. split; [reflexivity|]. intros k.
  assert (U : uniq m) by (eapply repr_uniq; eauto). assert (Ul : uniq l) by (eapply keys_uniq_perm; [auto|symmetry; exact P|assumption]).
  unfold CounterSpec.count. rewrite (lookup_perm eqb eqb_sym eqb_trans m l k U) by now symmetry. clear -Ul eqb_sym eqb_trans eqb_refl.
  induction l as [|[a v] l IH]; [reflexivity|]. cbn [flat_map fst snd lookup]. rewrite occurrences_app, occurrences_repeat, IH by now apply uniq_cons in Ul.
  destruct (eqb a k) eqn:E; [|lia]. rewrite (uniq_tail a v l k Ul E). lia.
Qed.

(** ** Equality *)

Lemma distinct_keys (m : list (K * Z)) : uniq m -> distinct eqb (map fst m).
Proof.
  induction 1 as [|e m F U IH]; cbn; [constructor|]. constructor; [|assumption]. apply Forall_forall. intros x Hx.
  apply in_map_iff in Hx. destruct Hx as (e' & <- & Hx). rewrite Forall_forall in F. exact (F e' Hx).
Qed.

Lemma mem_keys (m : list (K * Z)) k : mem eqb (map fst m) k = match lookup eqb m k with Some _ => true | None => false end.
Proof. unfold mem. induction m as [|[a v] m IH]; [reflexivity|]. cbn. rewrite IH. now destruct (eqb a k). Qed.

Lemma same_dict_iff (m y : list (K * Z)) : uniq m -> uniq y -> (same_dict eqb Z.eqb m y = true <-> forall k, lookup eqb m k = lookup eqb y k).
Proof.
  intros Um Uy. unfold same_dict. rewrite andb_true_iff, Z.eqb_eq, forallb_forall. split.
  - intros [L F] k. assert (Len : length m = length y) by lia.
    assert (G : forall k v, lookup eqb m k = Some v -> lookup eqb y k = Some v).
    { clear k. intros k v Lm. apply lookup_in in Lm. destruct Lm as (k' & I & E). specialize (F _ I). cbn [fst snd] in F. rewrite (lookup_respects y k' k E) in F.
      destruct (lookup eqb y k) as [w|]; [|discriminate]. apply Z.eqb_eq in F. now subst w. }
    destruct (lookup eqb m k) as [v|] eqn:Lm; [symmetry; now apply G|].
    assert (S2 : same_set eqb (map fst m) (map fst y)).
    { apply (subset_same eqb); auto using distinct_keys; [rewrite !map_length; lia|]. intros x. rewrite !mem_keys. destruct (lookup eqb m x) as [v|] eqn:Lx; [|discriminate].
      now rewrite (G x v Lx). }
    specialize (S2 k). rewrite !mem_keys, Lm in S2. now destruct (lookup eqb y k).
  - intros H. split.
    + f_equal. rewrite <- (map_length fst m), <- (map_length fst y). apply Nat.le_antisymm; apply (subset_len eqb); auto using distinct_keys;
      intros x I; apply in_map_iff in I; destruct I as ([k v] & <- & I); cbn [fst]; rewrite mem_keys; [rewrite <- H|rewrite H]; now rewrite (in_lookup _ k v) by assumption.
    + intros [k v] I. cbn [fst snd]. rewrite <- H, (in_lookup m k v Um I). apply Z.eqb_refl.
Qed.

(** ** The most common elements *)

Definition downward (l : list (K * Z)) : Prop := StronglySorted (fun a b => snd b <= snd a) l.

Lemma item_order : strict_weak (@item_lt K).
Proof. unfold item_lt. split; intros; lia. Qed.

Lemma sort_ok hk compat (l : list (K * Z)) : exists r, list_sort item_lt item_ge item_eq Auto hk compat true l (zlen l) = Ok r /\ Permutation l r /\ downward r.
Proof.
  destruct (C18_list_sort_sorts (K * Z) item_lt item_ge item_eq item_order) with (a := Auto) (has_key := hk) (compat := compat) (reverse := true) (l := l) (spare := @nil (K * Z)) as (r & E & P & Sd).
  - unfold item_lt, item_ge. intros; lia.
  - unfold item_lt, item_eq. intros; lia.
  - rewrite !app_nil_r in E. exists r. split; [assumption|]. split; [assumption|]. clear -Sd. unfold sorted_by in Sd. induction Sd as [|a l Sd IH F]; constructor; auto.
    apply Forall_forall. intros x I. rewrite Forall_forall in F. specialize (F x I). unfold item_lt in F. lia.
Qed.

Lemma top_ok (l : list (K * Z)) : forall p, exists q, top_of (Some p) l = Some q /\ In q (p :: l) /\ forall x, In x (p :: l) -> snd x <= snd q.
Proof.
  induction l as [|a l IH]; intros p; cbn [top_of].
  - exists p. split; [reflexivity|]. split; [now left|]. intros x [->|[]]. lia.
  - destruct (Z.ltb_spec (snd p) (snd a)) as [H|H].
    + destruct (IH a) as (q & E & I & M). exists q. split; [assumption|]. split; [now right|]. intros x [->|Hx]; [|now apply M].
      specialize (M a (or_introl eq_refl)). lia.
    + destruct (IH p) as (q & E & I & M). exists q. split; [assumption|]. split; [destruct I as [->|I]; [now left|right; now right]|].
      intros x [->|[->|Hx]]; [apply M; now left| |apply M; now right]. specialize (M p (or_introl eq_refl)). lia.
Qed.

Lemma collect_ok n (l : list (K * Z)) : 1 <= n -> forall p r rest, Permutation p (r ++ rest) -> zlen r <= n -> (zlen r < n -> rest = []) ->
  (zlen r = n -> is_heap item_lt r /\ forall a b, In a r -> In b rest -> snd b <= snd a) ->
  exists r' rest', collect n l r = Ok r' /\ Permutation (p ++ l) (r' ++ rest') /\ zlen r' <= n /\ (zlen r' < n -> rest' = []) /\
    (zlen r' = n -> forall a b, In a r' -> In b rest' -> snd b <= snd a).
Proof.
  intros Hn. induction l as [|c l IH]; intros p r rest P L S H; cbn [collect].
  - exists r, rest. rewrite app_nil_r. split; [reflexivity|]. split; [assumption|]. split; [assumption|]. split; [assumption|]. intros E. now apply H.
  - replace (p ++ c :: l) with ((p ++ [c]) ++ l) by (rewrite <- app_assoc; reflexivity).
    assert (Pc : forall r2 rest2, Permutation (c :: r ++ rest) (r2 ++ rest2) -> Permutation (p ++ [c]) (r2 ++ rest2)).
    { intros r2 rest2 Q. rewrite <- Q. rewrite Permutation_app_comm. cbn. now constructor. }
    destruct (Z.ltb_spec (zlen r) n) as [Lt|Ge].
    + specialize (S Lt). subst rest. assert (E1 : zlen (r ++ [c]) = zlen r + 1) by (unfold zlen; rewrite app_length; cbn [length]; lia). rewrite E1.
      assert (Q : Permutation (c :: r ++ []) ((r ++ [c]) ++ [])) by (rewrite !app_nil_r; apply Permutation_cons_append).
      destruct (Z.eqb_spec (zlen r + 1) n) as [E|E].
      * destruct (C11_heapify _ (@item_lt K) (r ++ [c])) as (h & -> & Ph & Hh). cbn [bind]. apply (IH (p ++ [c]) h []).
        -- apply Pc. rewrite Q. now apply Permutation_app_tail.
        -- unfold zlen in *. rewrite <- (Permutation_length Ph). lia.
        -- auto.
        -- intros _. split; [apply Hh, item_order|]. intros a b _ [].
      * cbn [bind]. apply (IH (p ++ [c]) (r ++ [c]) []); [now apply Pc|lia|auto|lia].
    + assert (En : zlen r = n) by lia. specialize (H En). destruct H as [Hp Ho]. clear S.
      assert (Nr : r <> []) by (intros ->; unfold zlen in En; cbn in En; lia).
      destruct (C11_heapreplace _ (@item_lt K) c) as [_ HR]. destruct (HR r Nr) as (mn & r1 & E1 & P1 & Q1). specialize (Q1 item_order Hp).
      destruct Q1 as [Hp1 [Imn Mn]].
      assert (E0 : aget r 0 = Ok mn).
      { unfold Heap.Model.heapreplace in E1. destruct (zlen r =? 0); [discriminate|]. destruct (aget r 0) as [m0| | |]; cbn [bind] in E1; try discriminate.
        destruct (aset r 0 c); cbn [bind] in E1; try discriminate. destruct (Heap.Model.siftup item_lt a 0); cbn [bind] in E1; try discriminate. now injection E1 as -> _. }
      rewrite E0. cbn [bind]. destruct (item_lt mn c) eqn:C; unfold item_lt in C.
      * rewrite E1. cbn [bind]. apply (IH (p ++ [c]) r1 (mn :: rest)).
        -- apply Pc. change (c :: r ++ rest) with ((c :: r) ++ rest). rewrite P1. cbn. apply Permutation_middle.
        -- apply Permutation_length in P1. cbn in P1. unfold zlen in *. lia.
        -- apply Permutation_length in P1. cbn in P1. unfold zlen in *. lia.
        -- intros _. split; [assumption|]. intros a b Ia Ib.
           assert (Ia' : In a (c :: r)) by (eapply Permutation_in; [symmetry; exact P1|now right]).
           assert (La : snd mn <= snd a). { destruct Ia' as [<-|Ia']; [lia|]. specialize (Mn a Ia'). unfold item_lt in Mn. lia. }
           destruct Ib as [<-|Ib]; [assumption|]. specialize (Ho mn b Imn Ib). lia.
      * cbn [bind]. apply (IH (p ++ [c]) r (c :: rest)); [apply Pc, Permutation_middle|lia|lia|].
        intros _. split; [assumption|]. intros a b Ia [<-|Ib]; [|auto]. specialize (Mn a Ia). unfold item_lt in Mn. lia.
Qed.

Lemma most_common_ok compat (t : tbl) m n : repr t m ->
  exists r, most_common compat t n = Ok r /\ largest (match n with None => length m | Some n => Z.to_nat n end) m r.
Proof.
  intros R. unfold most_common. rewrite (repr_sz eqb hash t m R).
  destruct (Z.eqb_spec (zlen m) 0) as [E|E].
  { exists []. split; [reflexivity|]. assert (m = []) as -> by (destruct m; [reflexivity|unfold zlen in E; cbn [length] in E; lia]).
    exists []. split; [constructor|]. split; [now rewrite Nat.min_0_r|]. split; [constructor|]. intros a b []. }
  destruct (kv_items_ok t m R) as (l & -> & P). cbn [bind]. pose proof (Permutation_length P) as PL. unfold largest. destruct n as [n|].
  2:{ destruct (sort_ok true compat l) as (r & -> & Pr & D). exists r. split; [reflexivity|]. exists []. rewrite app_nil_r.
      split; [now rewrite <- P|]. split; [rewrite <- (Permutation_length Pr), PL; now rewrite Nat.min_id|]. split; [assumption|]. intros a b _ []. }
  destruct (Z.eqb_spec n 1) as [->|N1].
  { destruct l as [|a l]; [unfold zlen in E; cbn in PL; lia|]. cbn [top_of]. destruct (top_ok l a) as (q & -> & I & M).
    exists [q]. split; [reflexivity|]. destruct (in_split _ _ I) as (l1 & l2 & E2). exists (l1 ++ l2). split.
    - rewrite <- P, E2. symmetry. apply (Permutation_middle l1 l2 q).
    - split; [cbn in PL |- *; rewrite <- PL; reflexivity|]. split; [repeat constructor|]. intros x b [<-|[]] Ib. apply M. rewrite E2. apply in_app_iff in Ib. apply in_app_iff. cbn. tauto. }
  destruct (Z.leb_spec n 0) as [N0|N0].
  { exists []. split; [reflexivity|]. exists m. split; [reflexivity|]. replace (Z.to_nat n) with 0%nat by lia. split; [reflexivity|]. split; [constructor|]. intros a b []. }
  destruct (collect_ok n l ltac:(lia) [] [] []) as (r & rest & -> & Pr & L1 & L2 & Ho).
  - reflexivity.
  - change (zlen (@nil (K * Z))) with 0. lia.
  - reflexivity.
  - change (zlen (@nil (K * Z))) with 0. lia.
  - cbn [bind app] in *. destruct (sort_ok false compat r) as (r' & -> & Pr' & D). exists r'. split; [reflexivity|]. exists rest.
    assert (Len : length r' = length r) by (symmetry; now apply Permutation_length). split; [rewrite <- P, Pr; now apply Permutation_app_tail|].
    split; [|split; [assumption|]].
    + rewrite Len. apply Permutation_length in Pr. rewrite app_length in Pr. unfold zlen in *. destruct (Z.eq_dec (Z.of_nat (length r)) n); [lia|].
      rewrite L2 in Pr by lia. cbn in Pr. lia.
    + intros a b Ia Ib. assert (Ia' : In a r) by (eapply Permutation_in; [symmetry; exact Pr'|assumption]).
      destruct (Z.eq_dec (zlen r) n); [now apply Ho|]. rewrite L2 in Ib by lia. destruct Ib.
Qed.
End Counter.

Section Defaultdict.
Context {K V : Type} (eqb : K -> K -> bool) (hash : K -> Z).
Context (eqb_refl : forall a, eqb a a = true).
Context (eqb_sym : forall a b, eqb a b = eqb b a).
Context (eqb_trans : forall a b c, eqb a b = true -> eqb b c = true -> eqb a c = true).
Context (hash_eq : forall a b, eqb a b = true -> hash a = hash b).
Context (d : V) (t : tbl K V) (m : list (K * V)) (k : K).
Context (R : repr eqb hash t m) (L : zlen m <= 2^60).

Lemma dd_getitem_ok : exists t' v, dd_getitem eqb hash d t k = Ok (t', v) /\ v = match lookup eqb m k with Some v => v | None => d end /\
  repr eqb hash t' (match lookup eqb m k with Some _ => m | None => store eqb m k d end).
Proof.
  unfold dd_getitem, contains, getitem. pose proof (get_lookup eqb hash eqb_sym eqb_trans hash_eq t m k R) as W. apply wp_inv in W.
  destruct W as (x & -> & G). cbn [bind]. destruct G as [(-> & -> & _)|(N & _ & _ & v & -> & Rd)].
  - rewrite Z.eqb_refl. cbn [negb]. pose proof (setitem_ok eqb hash eqb_sym eqb_trans hash_eq t m k d R L) as W. apply wp_inv in W. destruct W as (t' & -> & R').
    exists t', d. auto.
  - destruct (Z.eqb_spec x (nb t)); [contradiction|]. cbn [negb]. rewrite Rd. cbn [bind]. exists t, v. auto.
Qed.

Lemma dd_do_op_ok op : exists t', dd_do_op eqb hash d t k op = Ok t' /\
  exists m', repr eqb hash t' m' /\ forall k', lookup eqb m' k' = if eqb k k' then Some (op (match lookup eqb m k with Some v => v | None => d end)) else lookup eqb m k'.
Proof.
  assert (Th : forall (t0 : tbl K V) m0 v, repr eqb hash t0 m0 -> lookup eqb m0 k = Some v ->
    exists x, kh_get eqb hash t0 k = Ok x /\ x <> nb t0 /\ wp (v <- rd (vals t0) x ;; set_val t0 x (op v)) (fun t' => repr eqb hash t' (store eqb m0 k (op v)))).
  { intros t0 m0 v R0 L0. pose proof (get_lookup eqb hash eqb_sym eqb_trans hash_eq t0 m0 k R0) as W. apply wp_inv in W.
    destruct W as (x & E & G). exists x. split; [assumption|]. destruct G as [(_ & N & _)|(N & At & W & v' & L' & Rd)]; [congruence|].
    split; [assumption|]. rewrite Rd. cbn [bind]. rewrite L0 in L'. injection L' as <-.
    destruct At as (Hx & Lx & k0 & Ek & E0).
    destruct (set_val_spec eqb hash t0 x (op v) W Hx Lx) as (k2 & v2 & rest & E2 & E2' & P2 & S2).
    eapply wp_conseq; [exact S2|]. cbv beta. intros t'' (W'' & P''). split; [now right|].
    pose proof R0 as (_ & P). rewrite Ek in E2. injection E2 as <-.
    assert (I : In (k0, v2) m0) by (eapply Permutation_in; [exact P|]; eapply Permutation_in; [symmetry; exact P2|]; now left).
    destruct (present_facts eqb eqb_sym eqb_trans m0 k0 v2 k (repr_uniq eqb hash eqb_sym t0 m0 R0) I E0) as (_ & r & P1 & _ & P3).
    rewrite P'', P3. apply perm_skip. apply (Permutation_cons_inv (a := (k0, v2))). now rewrite <- P1, <- P2. }
  unfold dd_do_op. destruct (lookup eqb m k) as [v|] eqn:Lk.
  - destruct (Th t m v R Lk) as (x & -> & N & W). cbn [bind]. destruct (Z.eqb_spec x (nb t)); [contradiction|]. cbn [bind].
    apply wp_inv in W. destruct W as (t' & -> & R'). exists t'. split; [reflexivity|]. eexists. split; [exact R'|]. intros k'. apply (lookup_store eqb eqb_sym eqb_trans).
  - pose proof (get_lookup eqb hash eqb_sym eqb_trans hash_eq t m k R) as W. apply wp_inv in W. destruct W as (x & -> & G). cbn [bind].
    destruct G as [(-> & _ & _)|(_ & _ & _ & v & L' & _)]; [|congruence]. rewrite Z.eqb_refl.
    pose proof (setitem_ok eqb hash eqb_sym eqb_trans hash_eq t m k d R L) as W. apply wp_inv in W. destruct W as (t1 & -> & R1). cbn [bind].
    destruct (Th t1 (store eqb m k d) d R1) as (x & -> & N & W); [rewrite (lookup_store eqb eqb_sym eqb_trans); now rewrite eqb_refl|]. cbn [bind].
    apply wp_inv in W. destruct W as (t' & -> & R'). exists t'. split; [reflexivity|]. eexists. split; [exact R'|]. intros k'.
    rewrite !(lookup_store eqb eqb_sym eqb_trans). now destruct (eqb k k').
Qed.
End Defaultdict.
