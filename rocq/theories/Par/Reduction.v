(** Proofs about reductions. *)
From Coq Require Import ZArith List Bool Lia Permutation.
From Verif.Common Require Import Int64.
From Verif.Par Require Import ReductionSpec ReductionModel.
Import ListNotations.
Local Open Scope Z_scope.

(** ** Commutative monoids, on a domain *)

Section Monoid.
  Context {A : Type}.
  Context (D : A -> Prop).
  Context (f : A -> A -> A).
  Context (e : A).
  Context (De : D e).
  Context (Df : forall a b, D a -> D b -> D (f a b)).
  Context (assoc : forall a b c, D a -> D b -> D c -> f (f a b) c = f a (f b c)).
  Context (comm : forall a b, D a -> D b -> f a b = f b a).
  Context (unit_r : forall a, D a -> f a e = a).

  Definition big (ls : list A) : A := fold_right f e ls.

  Lemma big_D ls : Forall D ls -> D (big ls).
  Proof. induction 1; simpl; auto. Qed.

  Lemma big_perm ls ls' : Permutation ls ls' -> Forall D ls -> big ls = big ls'.
  Proof.
    induction 1 as [|x l l' H IH|x y l|l l' l'' H1 IH1 H2 IH2]; intros HF; auto.
    - inversion HF; subst. simpl. f_equal. auto.
    - inversion HF as [|? ? Dy HF']; inversion HF' as [|? ? Dx HF'']; subst. simpl.
      rewrite <- !assoc, (comm y x) by (auto using big_D). reflexivity.
    - rewrite IH1 by auto. apply IH2. eapply Permutation_Forall; eassumption.
  Qed.

  Lemma big_app l l' : Forall D l -> Forall D l' -> big (l ++ l') = f (big l) (big l').
  Proof.
    intros HF HF'. induction HF; simpl.
    - rewrite comm by auto using big_D. now rewrite unit_r by auto using big_D.
    - rewrite IHHF. symmetry. apply assoc; auto using big_D.
  Qed.

  Lemma combine_big s ls s' : combine f s ls s' -> D s -> Forall D ls -> s' = f s (big ls).
  Proof.
    induction 1 as [s|s l ls rest s' HP H IH|s a b ls rest s' HP H IH]; intros Ds HF.
    - simpl. now rewrite unit_r.
    - rewrite (big_perm _ _ HP HF). apply (Permutation_Forall HP) in HF.
      inversion HF; subst. rewrite IH; auto. simpl. now rewrite assoc by auto using big_D.
    - rewrite (big_perm _ _ HP HF). apply (Permutation_Forall HP) in HF.
      inversion HF as [|? ? Da HF']; inversion HF' as [|? ? Db HF'']; subst.
      rewrite IH; auto. simpl. now rewrite assoc by auto using big_D.
  Qed.

  (** An accumulating loop over any split and combination. *)
  Lemma fold_big (G : Z -> A) (step : Z -> A -> A) :
    (forall i, D (G i)) -> (forall i s, D s -> step i s = f s (G i)) ->
    forall xs s, D s -> fold_left (fun s i => step i s) xs s = f s (big (map G xs)).
  Proof.
    intros DG HG. induction xs as [|x xs IH]; intros s Ds; simpl.
    - now rewrite unit_r.
    - rewrite HG, IH by auto. rewrite assoc; auto. apply big_D. apply Forall_map.
      apply Forall_forall. auto.
  Qed.

  Lemma all_D (G : Z -> A) xs : (forall i, D (G i)) -> Forall D (map G xs).
  Proof. intros H. apply Forall_map, Forall_forall. auto. Qed.

  Theorem parallel_fold (G : Z -> A) (step : Z -> A -> A) :
    (forall i, D (G i)) -> (forall i s, D s -> step i s = f s (G i)) ->
    forall xs xss s s', D s -> Permutation (concat xss) xs ->
    combine f s (map (fun ys => fold_left (fun s i => step i s) ys e) xss) s' ->
    s' = fold_left (fun s i => step i s) xs s.
  Proof.
    intros DG HG xs xss s s' Ds HP HC.
    assert (E : forall ys, fold_left (fun s i => step i s) ys e = big (map G ys)).
    { intros ys. rewrite (fold_big G step) by auto. rewrite comm by auto using big_D, all_D.
      apply unit_r. auto using big_D, all_D. }
    rewrite (map_ext _ (fun ys => big (map G ys)) E) in HC.
    apply combine_big in HC; auto.
    2:{ apply Forall_map, Forall_forall. auto using big_D, all_D. }
    rewrite HC, (fold_big G step) by auto. f_equal.
    rewrite <- (big_perm _ _ (Permutation_map G HP)) by auto using all_D.
    clear HP HC. induction xss as [|ys xss IH]; simpl; auto.
    rewrite map_app, big_app by auto using all_D. f_equal. exact IH.
  Qed.
End Monoid.

(** ** The operations on int64 *)

Lemma in64_shift x : in64 x <-> Z.shiftr x 63 = 0 \/ Z.shiftr x 63 = -1.
Proof.
  unfold in64, min64, max64. rewrite Z.shiftr_div_pow2 by lia.
  pose proof (Z.div_mod x (2 ^ 63) ltac:(lia)). pose proof (Z.mod_pos_bound x (2 ^ 63) ltac:(lia)).
  split; intros.
  - assert (-1 <= x / 2 ^ 63 < 1); [|lia]. split.
    + apply Z.div_le_lower_bound; lia.
    + apply Z.div_lt_upper_bound; lia.
  - destruct H1 as [H1|H1]; rewrite H1 in H; lia.
Qed.

Definition reducible (k : op) (init : Z) : Prop := initial k = Some init.

Lemma apply_in64 k init a b : reducible k init -> in64 a -> in64 b -> in64 (apply k a b).
Proof.
  unfold reducible. intros Hr Ha Hb. destruct k; simpl; try apply w64_in; try discriminate.
  - apply in64_shift in Ha, Hb. apply in64_shift. rewrite Z.shiftr_land.
    destruct Ha as [-> | ->], Hb as [-> | ->]; simpl; auto.
  - apply in64_shift in Ha, Hb. apply in64_shift. rewrite Z.shiftr_lor.
    destruct Ha as [-> | ->], Hb as [-> | ->]; simpl; auto.
  - apply in64_shift in Ha, Hb. apply in64_shift. rewrite Z.shiftr_lxor.
    destruct Ha as [-> | ->], Hb as [-> | ->]; simpl; auto.
  - destruct (a <=? b); auto.
  - destruct (b <=? a); auto.
Qed.

Lemma init_in64 k init : reducible k init -> in64 init.
Proof.
  unfold reducible, in64, min64, max64. destruct k; simpl; intros H; inversion H;
    unfold min64, max64; lia.
Qed.

Lemma apply_assoc k init a b c : reducible k init ->
  apply k (apply k a b) c = apply k a (apply k b c).
Proof.
  unfold reducible. destruct k; simpl; intros H; try discriminate.
  - rewrite w64_add_l, w64_add_r. f_equal. lia.
  - rewrite w64_mul_l, w64_mul_r. f_equal. lia.
  - now rewrite Z.land_assoc.
  - now rewrite Z.lor_assoc.
  - now rewrite Z.lxor_assoc.
  - destruct (Z.leb_spec a b), (Z.leb_spec b c); destruct (Z.leb_spec a c); try lia;
      try (destruct (Z.leb_spec a b)); try lia.
  - destruct (Z.leb_spec b a), (Z.leb_spec c b); destruct (Z.leb_spec c a); try lia;
      try (destruct (Z.leb_spec b a)); try lia.
Qed.

Lemma apply_comm k init a b : reducible k init -> apply k a b = apply k b a.
Proof.
  unfold reducible. destruct k; simpl; intros H; try discriminate.
  - f_equal. lia.
  - f_equal. lia.
  - apply Z.land_comm.
  - apply Z.lor_comm.
  - apply Z.lxor_comm.
  - destruct (Z.leb_spec a b), (Z.leb_spec b a); lia.
  - destruct (Z.leb_spec b a), (Z.leb_spec a b); lia.
Qed.

Lemma apply_unit k init a : reducible k init -> in64 a -> apply k a init = a.
Proof.
  unfold reducible. intros H Ha. destruct k; inversion H; subst; simpl.
  - rewrite Z.add_0_r. now apply w64_id.
  - rewrite Z.mul_1_r. now apply w64_id.
  - apply Z.land_m1_r.
  - apply Z.lor_0_r.
  - apply Z.lxor_0_r.
  - unfold in64 in Ha. now replace (a <=? max64) with true by lia.
  - unfold in64 in Ha. now replace (min64 <=? a) with true by lia.
Qed.

(** ** Bodies that only accumulate *)

Lemma eval_free e i s s' : free e = true -> eval i s e = eval i s' e.
Proof.
  induction e as [| |o a IHa b IHb]; simpl; intros H; try discriminate; auto.
  apply andb_true_iff in H as [Ha Hb]. now rewrite IHa, IHb.
Qed.

(** Values that do not depend on [s] are made inside 64 bits, except by operations that
    the model leaves unbounded; these are closed. *)
Lemma eval_in64 e i s : in64 s -> in64 (eval i s e).
Proof.
  intros Hs. induction e as [|g|o a IHa b IHb]; simpl; auto using w64_in.
  destruct o; simpl; try apply w64_in;
    first [ exact (apply_in64 OAnd _ _ _ eq_refl IHa IHb)
          | exact (apply_in64 OOr _ _ _ eq_refl IHa IHb)
          | exact (apply_in64 OXor _ _ _ eq_refl IHa IHb)
          | exact (apply_in64 OMin _ _ _ eq_refl IHa IHb)
          | exact (apply_in64 OMax _ _ _ eq_refl IHa IHb) ].
Qed.

Lemma chain_factor k init e : reducible k init -> chain_of k e ->
  exists G, (forall i, in64 (G i)) /\ forall i s, in64 s -> eval i s e = apply k s (G i).
Proof.
  intros Hr. pose proof (init_in64 k init Hr) as Hi.
  induction e as [|g|o a IHa b IHb]; simpl; intros H; [|easy|].
  - exists (fun _ => init). split; auto. intros. symmetry. now apply (apply_unit k init).
  - destruct H as [-> [[Ha Hb]|[Ha Hb]]].
    + destruct (IHa Ha) as (G & G1 & G2). exists (fun i => apply k (G i) (eval i 0 b)).
      assert (E0 : forall i, in64 (eval i 0 b)).
      { intros. apply eval_in64. unfold in64, min64, max64. lia. }
      split.
      * intros i. apply (apply_in64 k init); auto.
      * intros i s Hs. rewrite G2 by auto. rewrite (eval_free b i s 0 Hb).
        now apply (apply_assoc k init).
    + destruct (IHb Hb) as (G & G1 & G2). exists (fun i => apply k (eval i 0 a) (G i)).
      assert (E0 : forall i, in64 (eval i 0 a)).
      { intros. apply eval_in64. unfold in64, min64, max64. lia. }
      split.
      * intros i. apply (apply_in64 k init); auto.
      * intros i s Hs. rewrite G2 by auto. rewrite (eval_free a i s 0 Ha).
        rewrite (apply_comm k init (eval i 0 a) (apply k s (G i))) by auto.
        rewrite (apply_assoc k init) by auto. f_equal. now apply (apply_comm k init).
Qed.

Lemma chain_of_binary k a b : a = EVar /\ free b = true \/ free a = true /\ b = EVar ->
  chain_of k (EBin k a b).
Proof. simpl. intros [[-> H]|[H ->]]; simpl; auto. Qed.

Lemma accumulates_chain k e : accumulates k e -> chain_of k e.
Proof.
  destruct e as [| |o a b]; simpl; try easy. intros [-> [[_ H]|[_ H]]]; [exact H|].
  split; auto. now apply (chain_of_binary k).
Qed.

Lemma body_factor k init st : reducible k init -> reduces k st ->
  exists G, (forall i, in64 (G i)) /\ forall i s, in64 s -> exec st i s = apply k s (G i).
Proof.
  intros Hr. pose proof (init_in64 k init Hr) as Hi.
  induction st as [|e|a IHa b IHb|c a IHa b IHb]; simpl; intros H.
  - exists (fun _ => init). split; auto. intros. symmetry. now apply (apply_unit k init).
  - apply (chain_factor k init); auto. now apply accumulates_chain.
  - destruct H as [Ha Hb]. destruct (IHa Ha) as (Ga & A1 & A2). destruct (IHb Hb) as (Gb & B1 & B2).
    exists (fun i => apply k (Ga i) (Gb i)). split.
    + intros. apply (apply_in64 k init); auto.
    + intros i s Hs. rewrite A2 by auto. rewrite B2 by (apply (apply_in64 k init); auto).
      now apply (apply_assoc k init).
  - destruct H as (Hc & Ha & Hb).
    destruct (IHa Ha) as (Ga & A1 & A2). destruct (IHb Hb) as (Gb & B1 & B2).
    exists (fun i => if c i 0 then Ga i else Gb i). split.
    + intros i. destruct (c i 0); auto.
    + intros i s Hs. rewrite (Hc i s 0). destruct (c i 0); auto.
Qed.

(** ** Identification *)

Lemma op_eqb_eq a b : op_eqb a b = true <-> a = b.
Proof. destruct a, b; simpl; split; congruence. Qed.

Lemma op_eqb_refl a : op_eqb a a = true.
Proof. now apply op_eqb_eq. Qed.

Lemma chain_has_deref k e : chain_of k e -> existsb is_deref (op_chain k e) = true.
Proof.
  induction e as [|g|o a IHa b IHb]; simpl; auto.
  intros [-> [[Ha _]|[_ Hb]]]; rewrite op_eqb_refl, existsb_app.
  - now rewrite IHa.
  - now rewrite IHb, orb_true_r.
Qed.

Lemma accumulates_found k e : accumulates k e -> reduction_from e = Some k.
Proof.
  destruct e as [| |o a b]; try easy. intros [-> H]. unfold reduction_from.
  assert (I : initial k <> None) by (destruct H as [[H _]|[H _]]; destruct k; simpl in *; congruence).
  assert (X : existsb is_deref (if nary k then op_chain k (EBin k a b)
                                else if binary k then [a; b] else []) = true).
  { destruct H as [[H1 H2]|[H1 H2]].
    - rewrite H1. now apply chain_has_deref.
    - replace (nary k) with false by (destruct k; simpl in *; congruence). rewrite H1.
      destruct H2 as [[-> _]|[_ ->]]; simpl; auto using orb_true_r. }
  rewrite X. destruct (initial k); congruence.
Qed.

Lemma identify_reduces k st : reduces k st -> forall r, r = None \/ r = Some (Some k) ->
  identify st r = if assigns st then Some (Some k) else r.
Proof.
  induction st as [|e|a IHa b IHb|c a IHa b IHb]; simpl; intros H r Hr; auto.
  - unfold see. rewrite (accumulates_found k e H). destruct Hr as [-> | ->]; auto.
    now rewrite op_eqb_refl.
  - destruct H as [Ha Hb]. rewrite IHa by auto. destruct (assigns a); simpl.
    + rewrite IHb by auto. destruct (assigns b); auto.
    + now apply IHb.
  - destruct H as (_ & Ha & Hb). rewrite IHa by auto. destruct (assigns a); simpl.
    + rewrite IHb by auto. destruct (assigns b); auto.
    + now apply IHb.
Qed.
