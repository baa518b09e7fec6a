(** The generated assignments do what Python's unpacking does, when that succeeds and nothing read is changed. *)
From Coq Require Import List ZArith Bool Lia.
From Verif.Common Require Import Result.
From Verif.Unpack Require Import Spec Model.
Import ListNotations.
Local Open Scope res_scope.
Local Open Scope Z_scope.

Scheme target_mut := Induction for target Sort Prop
with targets_mut := Induction for targets Sort Prop.
Combined Scheme target_both from target_mut, targets_mut.

(** Inversion of sequenced results *)
Lemma bind_Ok {A B} (m : res A) (f : A -> res B) b : bind m f = Ok b -> exists a, m = Ok a /\ f a = Ok b.
Proof. destruct m; cbn; intros E; try discriminate E. eauto. Qed.
Lemma exec_all_app a b tmp st :
  exec_all (a ++ b) tmp st = ('(tmp, st) <- exec_all a tmp st ;; exec_all b tmp st).
Proof.
  revert tmp st; induction a as [|s a IH]; intros tmp st; [reflexivity|]. cbn [app exec_all].
  destruct (exec s tmp st) as [[t' s']| | |]; cbn [bind]; auto.
Qed.

(** What an assignment leaves alone *)
Lemma store_var x i v st st2 : store x i v st = Ok st2 -> var st2 = var st.
Proof.
  unfold store. destruct (var st x); try discriminate.
  destruct (match i with IConst _ => _ | IVar _ => _ end); try discriminate.
  destruct (nth_error (heap st) a); [|discriminate]. intros E. apply bind_Ok in E as (j & _ & E). now injection E as <-.
Qed.
Lemma assign_keeps_both sc :
  (forall t v st st2, assign sc t v st = Ok st2 ->
     (forall x, ~ In x (names t) -> var st2 x = var st x) /\ (stores t = false -> exists e, heap st2 = heap st ++ e)) /\
  (forall ts l st st2, assign_all sc ts l st = Ok st2 ->
     (forall x, ~ In x (names_all ts) -> var st2 x = var st x) /\ (stores_all ts = false -> exists e, heap st2 = heap st ++ e)).
Proof.
  apply target_both.
  - intros x v st st2 E. injection E as <-. split; cbn.
    + intros y N. destruct (Nat.eqb_spec y x); [subst; tauto|reflexivity].
    + intros _. exists []. now rewrite app_nil_r.
  - intros x i v st st2 E. cbn in E. split; [intros y _; now rewrite (store_var _ _ _ _ _ E)|discriminate].
  - intros b IH v st st2 E. cbn [assign] in E. apply bind_Ok in E as (l & _ & E). destruct (Nat.eqb _ _); [|discriminate].
    apply IH in E. exact E.
  - intros b IHb s IHs a IHa v st st2 E. cbn [assign] in E. apply bind_Ok in E as (l & _ & E). destruct (Nat.leb _ _); [|discriminate].
    cbv zeta in E. apply bind_Ok in E as (sb & Eb & E). cbn [new_list] in E. apply bind_Ok in E as (ss & Es & E).
    apply IHb in Eb as [Vb Hb]. apply IHs in Es as [Vs Hs]. apply IHa in E as [Va Ha]. split; cbn.
    + intros x N. rewrite !in_app_iff in N. rewrite Va, Vs by tauto. cbn. apply Vb. tauto.
    + rewrite !orb_false_iff. intros [[A B] D]. destruct (Hb A) as [e1 E1], (Hs B) as [e2 E2], (Ha D) as [e3 E3]. cbn in E2.
      rewrite E3, E2, E1. rewrite <- !app_assoc. eauto.
  - intros l st st2 E. destruct l; injection E as <-; (split; [reflexivity|intros _; exists []; now rewrite app_nil_r]).
  - intros t IHt ts IHts l st st2 E. destruct l as [|v l]; cbn [assign_all] in E.
    + injection E as <-. split; [reflexivity|intros _; exists []; now rewrite app_nil_r].
    + apply bind_Ok in E as (s1 & E1 & E). apply IHt in E1 as [V1 H1]. apply IHts in E as [V2 H2]. split; cbn.
      * intros x N. rewrite in_app_iff in N. rewrite V2, V1; tauto.
      * rewrite orb_false_iff. intros [A B]. destruct (H1 A) as [e1 X1], (H2 B) as [e2 X2]. rewrite X2, X1, <- app_assoc. eauto.
Qed.
Definition assign_keeps sc := proj1 (assign_keeps_both sc).
Definition assign_all_keeps sc := proj2 (assign_keeps_both sc).

(** Refusing more changes no result. *)
Lemma strict_items sg v h l : items true sg v h = Ok l -> items false sg v h = Ok l.
Proof. destruct v; cbn; auto; [|discriminate]. destruct sg; [discriminate|auto]. Qed.
Lemma strict_both :
  (forall t v st st2, assign true t v st = Ok st2 -> assign false t v st = Ok st2) /\
  (forall ts l st st2, assign_all true ts l st = Ok st2 -> assign_all false ts l st = Ok st2).
Proof.
  apply target_both; try (intros; assumption).
  - intros b IH v st st2 E. cbn [assign] in E |- *. apply bind_Ok in E as (l & I & E). rewrite (strict_items _ _ _ _ I). cbn [bind].
    destruct (Nat.eqb _ _); auto.
  - intros b IHb s IHs a IHa v st st2 E. cbn [assign] in E |- *. apply bind_Ok in E as (l & I & E). rewrite (strict_items _ _ _ _ I). cbn [bind].
    destruct (Nat.leb _ _); [|discriminate]. cbv zeta in E |- *. apply bind_Ok in E as (sb & Eb & E). rewrite (IHb _ _ _ Eb). cbn [bind new_list] in E |- *.
    apply bind_Ok in E as (ss & Es & E). rewrite (IHs _ _ _ Es). cbn [bind]. auto.
  - intros t IHt ts IHts l st st2 E. destruct l as [|v l]; [exact E|]. cbn [assign_all] in E |- *.
    apply bind_Ok in E as (s1 & E1 & E). rewrite (IHt _ _ _ E1). cbn [bind]. auto.
Qed.

(** Values named by a variable or a temporary *)
Definition look (tmp : nat -> value) (b : expr) (st : state) : value :=
  match b with EVar x => var st x | ETmp k => tmp k | _ => VInt 0 end.
Definition below (k : nat) (e : expr) : Prop := match e with ETmp j => (j < k)%nat | _ => True end.
Definition is_list (v : value) : bool := match v with VList _ => true | _ => false end.
Lemma eval_name tmp b st : is_name b = true -> eval tmp b st = Ok (look tmp b st, st).
Proof. now destruct b. Qed.
Lemma sequence_keep v h h' l : sequence v h = Ok l -> (is_list v = true -> exists e, h' = h ++ e) -> sequence v h' = Ok l.
Proof.
  destruct v; cbn; auto. intros E X. destruct (X eq_refl) as [e ->]. destruct (nth_error h a) eqn:N; [|discriminate].
  rewrite nth_error_app1; [now rewrite N|]. apply nth_error_Some. now rewrite N.
Qed.
Lemma items_sequence sg v h l : items true sg v h = Ok l -> sequence v h = Ok l /\ (is_list v = true -> sg = false).
Proof. destruct v; cbn; try discriminate; try (intros E; split; [exact E|discriminate]). destruct sg; [discriminate|auto]. Qed.
Definition idx (l : list value) (i : Z) : res value :=
  j <- place (length l) i ;; match nth_error l j with Some x => Ok x | None => Undef end.
Lemma getitem_idx v h l i : sequence v h = Ok l -> getitem v i h = idx l i.
Proof. destruct v; cbn; try discriminate; intros E; try (injection E as <-; reflexivity). rewrite E. reflexivity. Qed.
Lemma idx_front l i x : nth_error l i = Some x -> idx l (Z.of_nat i) = Ok x.
Proof.
  intros N. assert (L : (i < length l)%nat) by (apply nth_error_Some; now rewrite N). unfold idx, place.
  replace (Z.of_nat i <? 0) with false by (symmetry; apply Z.ltb_ge; lia).
  replace ((0 <=? Z.of_nat i) && (Z.of_nat i <? Z.of_nat (length l))) with true by (symmetry; apply andb_true_iff; rewrite Z.leb_le, Z.ltb_lt; lia).
  cbn [bind]. now rewrite Nat2Z.id, N.
Qed.
Lemma idx_back l m i x : (m <= length l)%nat -> nth_error (skipn (length l - m) l) i = Some x -> idx l (Z.of_nat i - Z.of_nat m) = Ok x.
Proof.
  intros M N. assert (L : (i < m)%nat).
  { assert (i < length (skipn (length l - m) l))%nat by (apply nth_error_Some; now rewrite N). rewrite skipn_length in H. lia. }
  unfold idx, place. replace (Z.of_nat i - Z.of_nat m <? 0) with true by (symmetry; apply Z.ltb_lt; lia).
  match goal with |- context [if ?c then _ else _] => replace c with true by (symmetry; apply andb_true_iff; rewrite Z.leb_le, Z.ltb_lt; lia) end.
  cbn [bind]. replace (Z.to_nat _) with (length l - m + i)%nat by lia.
  rewrite <- (firstn_skipn (length l - m) l) at 1. rewrite nth_error_app2; rewrite firstn_length; [|lia].
  replace (length l - m + i - Nat.min (length l - m) (length l))%nat with i by lia. now rewrite N.
Qed.
Lemma slice_middle l b a :
  (b + a <= length l)%nat ->
  slice l (Z.of_nat b) (if Z.of_nat (b + 1 + a) =? Z.of_nat b + 1 then None else Some (- Z.of_nat (b + 1 + a) + Z.of_nat b + 1)) =
  firstn (length l - b - a) (skipn b l).
Proof.
  intros L. unfold slice. replace (Z.min (Z.of_nat b) (Z.of_nat (length l))) with (Z.of_nat b) by lia. rewrite Nat2Z.id. f_equal.
  destruct (Z.eqb_spec (Z.of_nat (b + 1 + a)) (Z.of_nat b + 1)); lia.
Qed.

Definition agree (k : nat) (f g : nat -> value) : Prop := forall j, (j < k)%nat -> f j = g j.
Lemma look_keep k b tmp tmp' st st' :
  below k b -> agree k tmp' tmp -> (forall x, b = EVar x -> var st' x = var st x) -> look tmp' b st' = look tmp b st.
Proof. destruct b; cbn; intros B A V; auto. Qed.

Definition claim (t : target) : Prop :=
  forall e v st st1 st2 tmp k ss k',
    unpack t e k = (ss, k') -> eval tmp e st = Ok (v, st1) -> below k e -> (forall x, e = EVar x -> ~ In x (names t)) ->
    assign true t v st1 = Ok st2 ->
    (k <= k')%nat /\ exists tmp', exec_all ss tmp st = Ok (tmp', st2) /\ agree k tmp' tmp.
Definition claim_all (ts : targets) : Prop :=
  forall b all l p st st2 tmp k ss k',
    unpack_all ts b p k = (ss, k') -> is_name b = true -> below k b -> (forall x, b = EVar x -> ~ In x (names_all ts)) ->
    sequence (look tmp b st) (heap st) = Ok all -> (is_list (look tmp b st) = true -> stores_all ts = false) ->
    length l = size ts -> (forall i x, nth_error l i = Some x -> idx all (p + Z.of_nat i) = Ok x) ->
    assign_all true ts l st = Ok st2 ->
    (k <= k')%nat /\ exists tmp', exec_all ss tmp st = Ok (tmp', st2) /\ agree k tmp' tmp.

(** A right-hand side that is not a name goes to a temporary first. *)
Definition named (e : expr) (k : nat) : list stmt * expr * nat :=
  if is_name e then ([], e, k) else ([STmp k e], ETmp k, S k).
Lemma named_ok e v st st1 tmp k pre b k1 :
  named e k = (pre, b, k1) -> eval tmp e st = Ok (v, st1) -> below k e ->
  is_name b = true /\ below k1 b /\ (k <= k1)%nat /\ (forall x, b = EVar x -> e = EVar x) /\
  exists tmp1, exec_all pre tmp st = Ok (tmp1, st1) /\ agree k tmp1 tmp /\ look tmp1 b st1 = v.
Proof.
  unfold named. intros N E B. destruct (is_name e) eqn:I; injection N as <- <- <-.
  - rewrite (eval_name _ _ _ I) in E. injection E as <- <-. repeat split; auto. exists tmp. repeat split; auto.
  - repeat split; cbn; auto; try discriminate. exists (fun j => if Nat.eqb j k then v else tmp j). rewrite E. cbn. repeat split.
    + intros j J. destruct (Nat.eqb_spec j k); [lia|reflexivity].
    + now rewrite Nat.eqb_refl.
Qed.

Lemma claims : (forall t, claim t) /\ (forall ts, claim_all ts).
Proof.
  apply target_both.
  - intros x e v st st1 st2 tmp k ss k' U E B N A. injection U as <- <-. injection A as <-. split; [lia|].
    exists tmp. cbn. rewrite E. cbn. split; [reflexivity|now intros j].
  - intros x i e v st st1 st2 tmp k ss k' U E B N A. injection U as <- <-. cbn in A. split; [lia|].
    exists tmp. cbn. rewrite E. cbn. rewrite A. cbn. split; [reflexivity|now intros j].
  - intros b IH e v st st1 st2 tmp k ss k' U E B N A. cbn [unpack] in U. fold (named e k) in U.
    destruct (named e k) as [[pre bb] k1] eqn:M. destruct (unpack_all b bb 0 k1) as [sb k2] eqn:Ub. injection U as <- <-.
    destruct (named_ok _ _ _ _ _ _ _ _ _ M E B) as (Nm & Bl & Le & Ev & tmp1 & X1 & G1 & Lk).
    cbn [assign] in A. apply bind_Ok in A as (l & I & A). apply items_sequence in I as [I S]. destruct (Nat.eqb_spec (length l) (size b)) as [Ln|]; [|discriminate].
    destruct (IH bb l l 0 st1 st2 tmp1 k1 sb k2 Ub Nm Bl) as (Le2 & tmp2 & X2 & G2); [| | | |intros i x Hx; apply idx_front; exact Hx|exact A|].
    + intros x Q. apply (N x). auto.
    + now rewrite Lk.
    + rewrite Lk. exact S.
    + exact Ln.
    + split; [lia|]. exists tmp2. rewrite exec_all_app, X1. cbn [bind]. split; [exact X2|].
      intros j J. rewrite G2 by lia. apply G1. exact J.
  - intros b IHb s IHs a IHa e v st st1 st2 tmp k ss k' U E B N A. cbn [unpack] in U. fold (named e k) in U.
    destruct (named e k) as [[pre bb] k1] eqn:M. cbv zeta in U.
    destruct (unpack_all b bb 0 k1) as [sb k2] eqn:Ub.
    destruct (unpack s _ k2) as [sl k3] eqn:Us. destruct (unpack_all a bb _ k3) as [sa k4] eqn:Ua. injection U as <- <-.
    destruct (named_ok _ _ _ _ _ _ _ _ _ M E B) as (Nm & Bl & Le & Ev & tmp1 & X1 & G1 & Lk).
    cbn [assign] in A. apply bind_Ok in A as (l & I & A). apply items_sequence in I as [I S]. destruct (Nat.leb_spec (size b + size a) (length l)) as [Ln|]; [|discriminate].
    cbv zeta in A. apply bind_Ok in A as (stb & Ab & A). cbn [new_list] in A. apply bind_Ok in A as (sts & As & Aa).
    cbn [stores] in S. cbn [names] in N.
    assert (Sb : is_list v = true -> stores_all b = false) by (intros Q; specialize (S Q); rewrite !orb_false_iff in S; tauto).
    assert (Ss : is_list v = true -> stores s = false) by (intros Q; specialize (S Q); rewrite !orb_false_iff in S; tauto).
    assert (Sa : is_list v = true -> stores_all a = false) by (intros Q; specialize (S Q); rewrite !orb_false_iff in S; tauto).
    assert (Nb : forall x, bb = EVar x -> ~ In x (names_all b) /\ ~ In x (names s) /\ ~ In x (names_all a)).
    { intros x Q. specialize (N x (Ev x Q)). rewrite !in_app_iff in N. tauto. }
    destruct (IHb bb l (firstn (size b) l) 0 st1 stb tmp1 k1 sb k2 Ub Nm Bl) as (Le2 & tmp2 & X2 & G2); [| | | | |exact Ab|].
    + intros x Q. apply (Nb x Q).
    + now rewrite Lk.
    + rewrite Lk. exact Sb.
    + rewrite firstn_length. lia.
    + intros i x Hx. apply idx_front. rewrite <- Hx.
      rewrite <- (firstn_skipn (size b) l) at 1. apply nth_error_app1. apply nth_error_Some. now rewrite Hx.
    + destruct (assign_all_keeps true _ _ _ _ Ab) as [Vb Hb].
      assert (Lk2 : look tmp2 bb stb = v).
      { rewrite <- Lk. apply (look_keep k1); auto. intros x Q. apply Vb. apply (Nb x Q). }
      assert (I2 : sequence v (heap stb) = Ok l) by (apply (sequence_keep _ (heap st1)); auto).
      destruct (IHs _ (VList (length (heap stb))) stb (State (var stb) (heap stb ++ [firstn (length l - size b - size a) (skipn (size b) l)])) sts tmp2 k2 sl k3 Us) as (Le3 & tmp3 & X3 & G3); [| | |exact As|].
      * cbn [eval]. rewrite (eval_name _ _ _ Nm). cbn [bind]. rewrite Lk2, I2. cbn [bind]. rewrite slice_middle by exact Ln. reflexivity.
      * cbn. exact Logic.I.
      * discriminate.
      * destruct (assign_keeps true _ _ _ _ As) as [Vs Hs]. cbn in Vs, Hs.
        assert (Bl2 : below k2 bb) by (destruct bb; cbn in *; auto; lia).
        assert (Bl3 : below k3 bb) by (destruct bb; cbn in *; auto; lia).
        assert (Lk3 : look tmp3 bb sts = v).
        { rewrite <- Lk2. apply (look_keep k2); auto. intros x Q. apply Vs. apply (Nb x Q). }
        assert (I3 : sequence v (heap sts) = Ok l).
        { apply (sequence_keep _ (heap stb)); auto. intros Q. destruct (Hs (Ss Q)) as [ex Hx]. rewrite Hx, <- app_assoc. eauto. }
        destruct (IHa bb l (skipn (size b + (length l - size b - size a)) l) _ sts st2 tmp3 k3 sa k4 Ua Nm Bl3) as (Le4 & tmp4 & X4 & G4); [| | | | |exact Aa|].
        -- intros x Q. apply (Nb x Q).
        -- now rewrite Lk3.
        -- rewrite Lk3. exact Sa.
        -- rewrite skipn_length. lia.
        -- intros i x Hx. replace (Z.of_nat (size b) + 1 - Z.of_nat (size b + 1 + size a) + Z.of_nat i) with (Z.of_nat i - Z.of_nat (size a)) by lia.
           apply idx_back; [lia|]. rewrite <- Hx. f_equal. f_equal. lia.
        -- split; [lia|]. exists tmp4. rewrite !exec_all_app, X1. cbn [bind]. rewrite exec_all_app, X2. cbn [bind]. rewrite exec_all_app, X3. cbn [bind].
           split; [exact X4|]. intros j J. rewrite G4, G3, G2 by lia. apply G1. exact J.
  - intros b all l p st st2 tmp k ss k' U _ _ _ _ _ Ln _ A. injection U as <- <-. destruct l; [|discriminate]. injection A as <-.
    split; [lia|]. exists tmp. split; [reflexivity|now intros j].
  - intros t IHt ts IHts b all l p st st2 tmp k ss k' U Nm Bl N Sq St Ln Ix A. destruct l as [|v l]; [discriminate|]. cbn in Ln. injection Ln as Ln.
    cbn [unpack_all] in U. destruct (unpack t (EIndex b p) k) as [s1 k1] eqn:U1. destruct (unpack_all ts b (p + 1) k1) as [s2 k2] eqn:U2. injection U as <- <-.
    cbn [assign_all] in A. apply bind_Ok in A as (stx & A1 & A2). cbn [names_all stores_all] in N, St.
    destruct (IHt (EIndex b p) v st st stx tmp k s1 k1 U1) as (Le1 & tmp1 & X1 & G1); [| | |exact A1|].
    + cbn [eval]. rewrite (eval_name _ _ _ Nm). cbn [bind]. rewrite (getitem_idx _ _ _ _ Sq). specialize (Ix O v eq_refl). rewrite Z.add_0_r in Ix. now rewrite Ix.
    + exact Logic.I.
    + discriminate.
    + destruct (assign_keeps true _ _ _ _ A1) as [V1 H1].
      assert (Lk : look tmp1 b stx = look tmp b st).
      { apply (look_keep k); auto. intros x Q. apply V1. intros X. apply (N x Q). apply in_or_app. auto. }
      destruct (IHts b all l (p + 1) stx st2 tmp1 k1 s2 k2 U2 Nm) as (Le2 & tmp2 & X2 & G2); [| | | |exact Ln| |exact A2|].
      * destruct b; cbn in *; auto; lia.
      * intros x Q X. apply (N x Q). apply in_or_app. auto.
      * rewrite Lk. apply (sequence_keep _ (heap st)); auto. intros Q. apply H1. specialize (St Q). apply orb_false_iff in St. tauto.
      * rewrite Lk. intros Q. specialize (St Q). apply orb_false_iff in St. tauto.
      * intros i x Hx. replace (p + 1 + Z.of_nat i) with (p + Z.of_nat (S i)) by lia. apply Ix. exact Hx.
      * split; [lia|]. exists tmp2. rewrite exec_all_app, X1. cbn [bind]. split; [exact X2|]. intros j J. rewrite G2 by lia. apply G1. exact J.
Qed.
