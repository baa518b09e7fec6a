(** Stable sorting as a specification: existence (by insertion), uniqueness, prefixes. *)
From Coq Require Import List ZArith Lia Bool Permutation Sorted.
From Verif.Common Require Import Ord.
Import ListNotations.

Section Stable.
Context {A : Type} (lt : A -> A -> bool).

(** Insert [x] after everything not greater. *)
Fixpoint ins (x : A) (l : list A) : list A :=
  match l with
  | [] => [x]
  | y :: t => if lt x y then x :: y :: t else y :: ins x t
  end.
Definition ssort (l : list A) : list A := fold_left (fun acc x => ins x acc) l [].

Notation eqv k := (fun x => negb (lt x k) && negb (lt k x)).

Lemma ins_perm x l : Permutation (x :: l) (ins x l).
Proof.
  induction l as [|y t IH]; simpl; auto. destruct (lt x y); auto.
  rewrite perm_swap. now constructor.
Qed.
Lemma ins_length x l : length (ins x l) = S (length l).
Proof. rewrite <- (Permutation_length (ins_perm x l)). reflexivity. Qed.

Context (W : strict_weak lt).

Lemma ins_sorted x l : sorted_by lt l -> sorted_by lt (ins x l).
Proof.
  unfold sorted_by. induction 1 as [|y t S IH F]; simpl.
  - repeat constructor.
  - destruct (lt x y) eqn:E.
    + constructor; [constructor; auto|]. constructor; [now apply (sw_asym lt W)|].
      rewrite Forall_forall in *. intros z Hz. apply (sw_negtrans lt W) with (y := y); [auto|now apply (sw_asym lt W)].
    + constructor; auto. rewrite Forall_forall in *. intros z Hz.
      apply (Permutation_in _ (Permutation_sym (ins_perm x t))) in Hz. destruct Hz as [<-|Hz]; auto.
Qed.

Lemma ins_filter x l k : sorted_by lt l ->
  filter (eqv k) (ins x l) = filter (eqv k) l ++ (if eqv k x then [x] else []).
Proof.
  unfold sorted_by. induction 1 as [|y t S IH F].
  - simpl. destruct (negb (lt x k) && negb (lt k x)); reflexivity.
  - cbn [ins]. destruct (lt x y) eqn:E.
    + replace (filter (eqv k) (x :: y :: t)) with ((if eqv k x then [x] else []) ++ filter (eqv k) (y :: t))
        by (cbn [filter]; destruct (eqv k x); reflexivity).
      cbv beta. destruct (negb (lt x k) && negb (lt k x)) eqn:Ex; [|now rewrite app_nil_r].
      assert (N : filter (eqv k) (y :: t) = []).
      { apply andb_true_iff in Ex. destruct Ex as [E1 E2]. apply negb_true_iff in E1, E2.
        assert (G : forall z, lt z y = false -> eqv k z = false).
        { intros z Hz. apply andb_false_iff. right. apply negb_false_iff.
          (* k ~ x < y <= z *)
          destruct (lt k z) eqn:Ez; auto. exfalso.
          assert (Ekx : lt x z = false) by (apply (sw_negtrans lt W) with (y := k); auto).
          assert (Exy : lt x y = false) by (apply (sw_negtrans lt W) with (y := z); auto). congruence. }
        assert (H : forall z, In z (y :: t) -> eqv k z = false).
        { intros z [<-|Hz]; [apply G, (sw_irrefl lt W)|]. rewrite Forall_forall in F. apply G; auto. }
        clear - H. induction (y :: t) as [|a l IHl]; auto. cbn [filter]. rewrite H by (left; auto). apply IHl.
        intros z Hz. apply H. now right. }
      rewrite N. reflexivity.
    + cbn [filter]. rewrite IH. destruct (eqv k y); reflexivity.
Qed.

Lemma ssort_snoc l x : ssort (l ++ [x]) = ins x (ssort l).
Proof. unfold ssort. now rewrite fold_left_app. Qed.

Lemma ssort_stable l : stable_sort_of lt l (ssort l).
Proof.
  induction l as [|x l IH] using rev_ind.
  - split; [split; constructor|]. reflexivity.
  - rewrite ssort_snoc. destruct IH as [[P S] F]. split; [split|].
    + rewrite <- ins_perm, <- P. symmetry. apply Permutation_cons_append.
    + now apply ins_sorted.
    + intros k. rewrite ins_filter by auto. rewrite F, filter_app. f_equal.
Qed.
Lemma ssort_length l : length (ssort l) = length l.
Proof. symmetry. apply Permutation_length. apply ssort_stable. Qed.

Lemma stable_unique l : forall r1 r2, stable_sort_of lt l r1 -> stable_sort_of lt l r2 -> r1 = r2.
Proof.
  intros r1 r2 [[P1 S1] F1] [[P2 S2] F2].
  assert (P : Permutation r1 r2) by (now rewrite <- P1).
  assert (F : forall k, filter (eqv k) r1 = filter (eqv k) r2) by (intros; now rewrite F1, F2).
  clear P1 P2 F1 F2. revert r2 P S2 F. unfold sorted_by in S1. induction S1 as [|x t1 S1 IH H1]; intros r2 P S2 F.
  - now apply Permutation_nil in P.
  - destruct r2 as [|y t2]; [now apply Permutation_sym, Permutation_nil in P|].
    unfold sorted_by in S2. inversion S2 as [|y' t2' S2' H2]; subst.
    rewrite Forall_forall in H1, H2.
    assert (E1 : lt y x = false).
    { assert (I : In y (x :: t1)) by (apply (Permutation_in _ (Permutation_sym P)); now left).
      destruct I as [<-|I]; [apply (sw_irrefl lt W)|auto]. }
    assert (E2 : lt x y = false).
    { assert (I : In x (y :: t2)) by (apply (Permutation_in _ P); now left).
      destruct I as [<-|I]; [apply (sw_irrefl lt W)|auto]. }
    assert (x = y).
    { specialize (F x). cbn [filter] in F. rewrite E1, E2, (sw_irrefl lt W) in F. simpl in F. congruence. }
    subst y. f_equal. apply IH; auto.
    + now apply Permutation_cons_inv in P.
    + intros k. specialize (F k). cbn [filter] in F. destruct (negb (lt x k) && negb (lt k x)); congruence.
Qed.

Lemma sorted_stable_self l : sorted_by lt l -> stable_sort_of lt l l.
Proof. intros S. split; [split|]; auto. Qed.

(** Taking the least element first. *)
Lemma stable_cons p v s r :
  (forall y, In y (p ++ s) -> lt y v = false) -> (forall y, In y p -> lt v y = true) ->
  stable_sort_of lt (p ++ s) r -> stable_sort_of lt (p ++ v :: s) (v :: r).
Proof.
  intros M G [[P S] F]. split; [split|].
  - rewrite <- P. symmetry. apply Permutation_middle.
  - constructor; auto. rewrite Forall_forall. intros y Hy. apply M. eapply Permutation_in; [symmetry; exact P|auto].
  - intros k. cbn [filter]. rewrite F, !filter_app. cbn [filter]. destruct (eqv k v) eqn:E; auto.
    assert (N : filter (eqv k) p = []).
    { apply andb_true_iff in E. destruct E as [E1 E2]. apply negb_true_iff in E1, E2. clear - G E1 E2 W.
      induction p as [|y p IH]; auto. cbn [filter]. rewrite IH by (intros; apply G; now right).
      specialize (G y (or_introl eq_refl)).
      assert (lt k y = true) as ->.
      { destruct (lt k y) eqn:Ek; auto. pose proof (sw_negtrans lt W _ _ _ E1 Ek). congruence. }
      now rewrite andb_false_r. }
    rewrite N. reflexivity.
Qed.

(** The first [n] items after one more insertion. *)
Lemma ins_app_lt x f l r : lt x l = true -> ins x (f ++ l :: r) = ins x f ++ l :: r.
Proof. intros E. induction f as [|y f IH]; cbn [ins app]; [now rewrite E|]. destruct (lt x y); simpl; [auto|now rewrite IH]. Qed.
Lemma ins_app_ge x f r : (forall y, In y f -> lt x y = false) -> ins x (f ++ r) = f ++ ins x r.
Proof.
  induction f as [|y f IH]; intros H; cbn [ins app]; auto. rewrite H by (now left). rewrite IH; auto. intros; apply H; now right.
Qed.
Lemma firstn_ins_lt x f l r : lt x l = true -> firstn (S (length f)) (ins x (f ++ l :: r)) = ins x f.
Proof.
  intros E. rewrite ins_app_lt by auto. rewrite <- (ins_length x f), firstn_app, Nat.sub_diag, firstn_all.
  cbn [firstn]. now rewrite app_nil_r.
Qed.
Lemma firstn_ins_ge x f l r : lt x l = false -> sorted_by lt (f ++ l :: r) ->
  firstn (S (length f)) (ins x (f ++ l :: r)) = f ++ [l].
Proof.
  intros E SS. change (f ++ l :: r) with (f ++ [l] ++ r) in *. rewrite app_assoc in *. rewrite ins_app_ge.
  - rewrite firstn_app. replace (S (length f)) with (length (f ++ [l])) by (rewrite app_length; simpl; lia).
    rewrite Nat.sub_diag, firstn_all. cbn [firstn]. now rewrite app_nil_r.
  - intros y Hy. apply in_app_or in Hy. destruct Hy as [Hy|[<-|[]]]; auto.
    apply (sw_negtrans lt W) with (y := l); auto. rewrite <- app_assoc in SS. unfold sorted_by in SS.
    clear - SS Hy. induction f as [|z f IH]; [destruct Hy|]. simpl in SS. inversion SS as [|? ? S' F]; subst.
    destruct Hy as [<-|Hy]; [|auto]. rewrite Forall_forall in F. apply F. apply in_or_app. right. now left.
Qed.
End Stable.

Section Lex.
Context {A : Type} (l1 l2 : A -> A -> bool).
Definition lex (x y : A) : bool := l1 x y || (negb (l1 y x) && l2 x y).
Lemma lex_sw : strict_weak l1 -> strict_weak l2 -> strict_weak lex.
Proof.
  intros W1 W2. unfold lex. split.
  - intros x. now rewrite (sw_irrefl _ W1), (sw_irrefl _ W2).
  - intros x y z H1 H2.
    destruct (l1 x y) eqn:A1; destruct (l1 y z) eqn:A2.
    + now rewrite (sw_trans _ W1 _ _ _ A1 A2).
    + simpl in H2. apply andb_true_iff in H2. destruct H2 as [H2 _]. apply negb_true_iff in H2.
      destruct (l1 x z) eqn:A3; auto. pose proof (sw_negtrans _ W1 _ _ _ A3 H2). congruence.
    + simpl in H1. apply andb_true_iff in H1. destruct H1 as [H1 _]. apply negb_true_iff in H1.
      destruct (l1 x z) eqn:A3; auto. pose proof (sw_negtrans _ W1 _ _ _ H1 A3). congruence.
    + simpl in *. apply andb_true_iff in H1, H2. destruct H1 as [B1 C1], H2 as [B2 C2]. apply negb_true_iff in B1, B2.
      rewrite (sw_negtrans _ W1 _ _ _ A1 A2), (sw_negtrans _ W1 _ _ _ B2 B1). simpl. apply (sw_trans _ W2 _ _ _ C1 C2).
  - intros x y z H1 H2. apply orb_false_iff in H1, H2. destruct H1 as [A1 B1], H2 as [A2 B2].
    rewrite (sw_negtrans _ W1 _ _ _ A1 A2). simpl. apply andb_false_iff in B1, B2. apply andb_false_iff.
    destruct B1 as [B1|B1].
    + left. apply negb_false_iff in B1. apply negb_false_iff.
      destruct (l1 z x) eqn:A3; auto. pose proof (sw_negtrans _ W1 _ _ _ A2 A3). congruence.
    + destruct B2 as [B2|B2].
      * left. apply negb_false_iff in B2. apply negb_false_iff.
        destruct (l1 z x) eqn:A3; auto. pose proof (sw_negtrans _ W1 _ _ _ A3 A1). congruence.
      * right. apply (sw_negtrans _ W2 _ _ _ B1 B2).
Qed.
End Lex.

Lemma sw_map {A B} (f : B -> A) (lt : A -> A -> bool) : strict_weak lt -> strict_weak (fun x y => lt (f x) (f y)).
Proof.
  intros W. split; intros.
  - apply (sw_irrefl _ W).
  - eapply (sw_trans _ W); eauto.
  - eapply (sw_negtrans _ W); eauto.
Qed.
Lemma sw_flip {A} (lt : A -> A -> bool) : strict_weak lt -> strict_weak (fun x y => lt y x).
Proof.
  intros W. split; intros.
  - apply (sw_irrefl _ W).
  - eapply (sw_trans _ W); eauto.
  - eapply (sw_negtrans _ W); eauto.
Qed.
Lemma sw_Zlt : strict_weak Z.ltb.
Proof. split; intros; rewrite ?Z.ltb_lt, ?Z.ltb_ge in *; lia. Qed.

(** A strictly sorted list is the only sorted arrangement of its elements. *)
Lemma strict_unique {A} (lt : A -> A -> bool) (l1 : list A) :
  StronglySorted (fun x y => lt x y = true) l1 -> forall l2, Permutation l1 l2 -> sorted_by lt l2 -> l1 = l2.
Proof.
  induction 1 as [|x t S IH F]; intros l2 P S2.
  - now apply Permutation_nil in P.
  - destruct l2 as [|y t2]; [now apply Permutation_sym, Permutation_nil in P|].
    inversion S2 as [|? ? S2' F2]; subst. rewrite Forall_forall in F, F2.
    assert (x = y).
    { assert (I1 : In x (y :: t2)) by (apply (Permutation_in _ P); now left). destruct I1 as [->|I1]; auto.
      assert (I2 : In y (x :: t)) by (apply (Permutation_in _ (Permutation_sym P)); now left). destruct I2 as [->|I2]; auto.
      specialize (F y I2). specialize (F2 x I1). simpl in F2. congruence. }
    subst. f_equal. apply IH; auto. now apply Permutation_cons_inv in P.
Qed.
