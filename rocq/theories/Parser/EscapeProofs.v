(** Proofs about escapes. *)
From Coq Require Import List ZArith Lia Bool.
From Verif.Common Require Import Result.
From Verif.Parser Require Import Escape.
Import ListNotations.
Local Open Scope Z_scope.

Definition bytes (s : list Z) : Prop := Forall (fun c => 0 <= c < 256) s.
Definition hexchar (c : Z) : Prop := 48 <= c <= 57 \/ 97 <= c <= 102 \/ 65 <= c <= 70.
(** bytes that are written with a single hexadecimal digit *)
Definition short (c : Z) : Prop := 0 <= c <= 6 \/ c = 14 \/ c = 15.
Fixpoint ambiguous (s : list Z) : Prop :=
  match s with
  | c :: ((d :: _) as t) => (short c /\ hexchar d) \/ ambiguous t
  | _ => False
  end.

(** every byte, by cases: a decision over the 256 bytes *)
Definition allb (p : Z -> bool) : bool := forallb (fun n => p (Z.of_nat n)) (seq 0 256).
Lemma allb_ok p : allb p = true -> forall c, 0 <= c < 256 -> p c = true.
Proof.
  intros H c Hc. unfold allb in H. rewrite forallb_forall in H.
  replace c with (Z.of_nat (Z.to_nat c)) by lia. apply H. apply in_seq. lia.
Qed.

Definition ishex (c : Z) : bool := match digit 16 c with Some _ => true | None => false end.
Lemma ishex_ok c : ishex c = true <-> hexchar c.
Proof.
  unfold ishex, digit, hexchar.
  destruct (48 <=? c) eqn:A; destruct (c <=? 57) eqn:B; cbn [andb];
  destruct (97 <=? c) eqn:C; destruct (c <=? 122) eqn:D; cbn [andb];
  destruct (65 <=? c) eqn:E; destruct (c <=? 90) eqn:F; cbn [andb];
  rewrite ?Z.leb_le, ?Z.leb_gt in *; try lia;
  match goal with |- context [?x <? 16] => destruct (x <? 16) eqn:G; rewrite ?Z.ltb_lt, ?Z.ltb_ge in G | _ => idtac end;
  split; intros; try discriminate; try reflexivity; lia.
Qed.

(** the shape of an escaped byte *)
Inductive shape (c : Z) : list Z -> Prop :=
| sh_plain : c <> BSL -> ~ short c -> shape c [c]
| sh_simple x : simple x = Some c -> ~ short c -> shape c [BSL; x]
| sh_two a b u v : c = 16 * u + v -> digit 16 a = Some u -> digit 16 b = Some v -> ~ short c ->
    space a = false -> a <> 45 -> a <> 43 -> shape c [BSL; 120; a; b]
| sh_one a : digit 16 a = Some c -> short c -> space a = false -> a <> 45 -> a <> 43 -> shape c [BSL; 120; a].

Definition isshort (c : Z) : bool := ((0 <=? c) && (c <=? 6)) || (c =? 14) || (c =? 15).
Lemma isshort_ok c : isshort c = true <-> short c.
Proof. unfold isshort, short. rewrite !orb_true_iff, andb_true_iff, !Z.leb_le, !Z.eqb_eq. tauto. Qed.
Definition shapeb (c : Z) (l : list Z) : bool :=
  match l with
  | [d] => (c =? d) && negb (c =? BSL) && negb (isshort c)
  | [b; x] => (b =? BSL) && match simple x with Some y => c =? y | None => false end && negb (isshort c)
  | [b; x; a; e] => (b =? BSL) && (x =? 120) &&
      match digit 16 a, digit 16 e with Some u, Some v => c =? 16 * u + v | _, _ => false end && negb (isshort c)
      && negb (space a) && negb (a =? 45) && negb (a =? 43)
  | [b; x; a] => (b =? BSL) && (x =? 120) && match digit 16 a with Some u => c =? u | None => false end && isshort c
      && negb (space a) && negb (a =? 45) && negb (a =? 43)
  | _ => false
  end.
Lemma shapeb_ok c l : shapeb c l = true -> shape c l.
Proof.
  assert (NS : negb (isshort c) = true -> ~ short c).
  { rewrite negb_true_iff. intros H N. apply isshort_ok in N. congruence. }
  destruct l as [|x1 [|x2 [|x3 [|x4 [|x5 l]]]]]; cbn [shapeb]; intros H; try discriminate;
    rewrite ?andb_true_iff in H.
  - destruct H as [[H1 H2] H3]. apply Z.eqb_eq in H1. subst x1. apply sh_plain; auto.
    rewrite negb_true_iff, Z.eqb_neq in H2. auto.
  - destruct H as [[H1 H2] H3]. apply Z.eqb_eq in H1. subst x1. destruct (simple x2) eqn:S; [|discriminate].
    apply Z.eqb_eq in H2. subst z. apply sh_simple; auto.
  - destruct H as [[[[[[H1 H2] H3] H4] H5] H6] H7]. apply Z.eqb_eq in H1, H2. subst.
    destruct (digit 16 x3) eqn:D; [|discriminate]. apply Z.eqb_eq in H3. subst.
    rewrite negb_true_iff in H5, H6, H7. rewrite Z.eqb_neq in H6, H7. apply isshort_ok in H4. apply sh_one; auto.
  - destruct H as [[[[[[H1 H2] H3] H4] H5] H6] H7]. apply Z.eqb_eq in H1, H2. subst.
    destruct (digit 16 x3) eqn:D; [|discriminate]. destruct (digit 16 x4) eqn:D2; [|discriminate]. apply Z.eqb_eq in H3.
    rewrite negb_true_iff in H5, H6, H7. rewrite Z.eqb_neq in H6, H7. eapply sh_two; eauto.
Qed.
Lemma escape1_shape c : 0 <= c < 256 -> shape c (escape1 c).
Proof.
  intros H. apply shapeb_ok. revert c H. apply (allb_ok (fun c => shapeb c (escape1 c))). vm_compute. reflexivity.
Qed.

Lemma digit_bounds a u : digit 16 a = Some u -> 0 <= u < 16.
Proof.
  unfold digit.
  destruct (48 <=? a) eqn:A; destruct (a <=? 57) eqn:B; cbn [andb];
  destruct (97 <=? a) eqn:C; destruct (a <=? 122) eqn:D; cbn [andb];
  destruct (65 <=? a) eqn:E; destruct (a <=? 90) eqn:F; cbn [andb];
  rewrite ?Z.leb_le, ?Z.leb_gt in *; try discriminate; try lia;
  match goal with |- context [?x <? 16] => destruct (x <? 16) eqn:G; rewrite ?Z.ltb_lt, ?Z.ltb_ge in G end;
  intros H; inversion H; subst; lia.
Qed.

(** stoi on at most two characters, the first a digit *)
Lemma stoi_dig1 a u rest : digit 16 a = Some u -> space a = false -> a <> 45 -> a <> 43 -> (length rest <= 1)%nat ->
  stoi 16 (a :: rest) = match rest with
                        | b :: _ => match digit 16 b with Some v => Ok (u * 16 + v, 2%nat) | None => Ok (u, 1%nat) end
                        | [] => Ok (u, 1%nat)
                        end.
Proof.
  intros D S M P L. unfold stoi. cbn [skip]. rewrite S.
  rewrite (proj2 (Z.eqb_neq a 45)) by auto. rewrite (proj2 (Z.eqb_neq a 43)) by auto.
  destruct rest as [|b [|? ?]]; [| |cbn in L; lia].
  - cbn [digits]. rewrite D. cbn [digits]. f_equal. f_equal. lia.
  - cbn [digits]. rewrite D. destruct (digit 16 b) eqn:E.
    + cbn [digits]. f_equal. f_equal. lia.
    + f_equal. f_equal. lia.
Qed.

Lemma escape_cons c s : escape (c :: s) = escape1 c ++ escape s.
Proof. reflexivity. Qed.
Lemma escape1_nil c : 0 <= c < 256 -> escape1 c <> [].
Proof. intros H. destruct (escape1_shape c H); discriminate. Qed.

(** the first character after an escaped byte *)
Lemma head_plain d s : 0 <= d < 256 -> hexchar d -> exists t, escape (d :: s) = d :: t.
Proof.
  intros H X. rewrite escape_cons.
  assert (E : escape1 d = [d]).
  { assert (P : (if ishex d then match escape1 d with [e] => e =? d | _ => false end else true) = true).
    { clear X. revert d H.
      apply (allb_ok (fun d => if ishex d then match escape1 d with [e] => e =? d | _ => false end else true)).
      vm_compute. reflexivity. }
    rewrite (proj2 (ishex_ok d) X) in P. destruct (escape1 d) as [|e [|? ?]]; try discriminate.
    apply Z.eqb_eq in P. subst. reflexivity. }
  rewrite E. eexists. reflexivity.
Qed.
Lemma head_not_hex d s : 0 <= d < 256 -> ~ hexchar d -> exists e t, escape (d :: s) = e :: t /\ digit 16 e = None.
Proof.
  intros H X. rewrite escape_cons.
  assert (P : (if ishex d then true else match escape1 d with e :: _ => negb (ishex e) | _ => false end) = true).
  { clear X. revert d H.
    apply (allb_ok (fun d => if ishex d then true else match escape1 d with e :: _ => negb (ishex e) | _ => false end)).
    vm_compute. reflexivity. }
  destruct (ishex d) eqn:I; [exfalso; apply X, ishex_ok; auto|].
  destruct (escape1 d) as [|e t]; [discriminate|]. cbn [app].
  exists e, (t ++ escape s). split; auto. unfold ishex in P. destruct (digit 16 e); [discriminate|reflexivity].
Qed.

(** enough fuel is enough *)
Lemma simple_bound c x : simple c = Some x -> c <> 120.
Proof. intros H ->. discriminate. Qed.

(** what unescaping an escaped string gives: the original bytes, except that a single-digit escape
    swallows a following hexadecimal digit *)
Definition hexval (c : Z) : Z := match digit 16 c with Some d => d | None => 0 end.
Fixpoint garbled (fuel : nat) (s : list Z) : list Z :=
  match fuel with
  | O => []
  | S fuel =>
      match s with
      | [] => []
      | c :: ((d :: t) as dt) => if isshort c && ishex d then (16 * c + hexval d) :: garbled fuel t else c :: garbled fuel dt
      | [c] => [c]
      end
  end.

Lemma unescape_escape_ fuel : forall s f2, bytes s -> (length (escape s) < fuel)%nat -> (length s <= f2)%nat ->
  unescape_ fuel (escape s) = Ok (garbled f2 s).
Proof.
  induction fuel as [|fuel IH]; intros s f2 B L L2; [lia|].
  destruct s as [|c s]; [destruct f2; reflexivity|].
  destruct f2 as [|f2]; [cbn in L2; lia|].
  inversion B as [|? ? Hc Bs]; subst.
  assert (NG : ~ short c -> garbled (S f2) (c :: s) = c :: garbled f2 s).
  { intros NS. destruct s as [|d t].
    - destruct f2; reflexivity.
    - cbn [garbled]. assert (isshort c = false) as ->; [|reflexivity].
      destruct (isshort c) eqn:E; auto. apply isshort_ok in E. contradiction. }
  rewrite escape_cons in L |- *. rewrite app_length in L.
  destruct (escape1_shape c Hc) as [Hb NS|x Sx NS|a b u v Cuv Da Db NS Sa Ma Pa|a Da Sh Sa Ma Pa]; cbn [length app] in L |- *.
  - rewrite (NG NS). cbn [unescape_]. destruct (escape s) as [|e t] eqn:Es.
    + destruct s as [|d s']; [destruct f2; reflexivity|].
      rewrite escape_cons in Es. apply app_eq_nil in Es. destruct Es as [E1 _].
      inversion Bs; subst. exfalso. eapply escape1_nil; eauto.
    + rewrite (proj2 (Z.eqb_neq c BSL)) by auto. rewrite <- Es in *.
      rewrite (IH s f2) by (auto; cbn in L2; lia). reflexivity.
  - rewrite (NG NS). cbn [unescape_]. rewrite Z.eqb_refl, Sx.
    rewrite (IH s f2) by (auto; cbn in L2; lia). reflexivity.
  - rewrite (NG NS). cbn [unescape_]. rewrite Z.eqb_refl. change (simple 120) with (@None Z). rewrite Z.eqb_refl.
    cbn [firstn]. rewrite (stoi_dig1 a u [b]) by (auto; cbn; lia). rewrite Db. cbn [bind skipn].
    rewrite (IH s f2) by (auto; cbn in L2; lia). cbn [bind].
    pose proof (digit_bounds _ _ Da). pose proof (digit_bounds _ _ Db).
    unfold byte. rewrite Z.mod_small by lia. do 2 f_equal. lia.
  - cbn [unescape_]. rewrite Z.eqb_refl. change (simple 120) with (@None Z). rewrite Z.eqb_refl.
    assert (Is : isshort c = true) by (apply isshort_ok; auto).
    pose proof (digit_bounds _ _ Da) as Bc.
    destruct s as [|d t].
    + cbn [escape flat_map firstn app]. rewrite (stoi_dig1 a c []) by (auto; cbn; lia). cbn [bind skipn].
      change (@nil Z) with (escape []). rewrite (IH [] 0%nat) by (auto; cbn in *; lia). cbn [bind garbled]. unfold byte. rewrite Z.mod_small by lia. reflexivity.
    + inversion Bs as [|? ? Hd Bt]; subst. cbn [garbled]. rewrite Is. cbn [andb]. destruct (ishex d) eqn:Id.
      * destruct (head_plain d t Hd) as [t' Et]; [apply ishex_ok; auto|]. rewrite Et in *.
        assert (t' = escape t).
        { rewrite escape_cons in Et. destruct (escape1_shape d Hd); cbn [app] in Et; try (inversion Et; reflexivity).
          all: exfalso; injection Et as Ed Et; rewrite <- Ed in Id; vm_compute in Id; discriminate. }
        subst t'. cbn [firstn]. unfold ishex in Id. destruct (digit 16 d) as [v|] eqn:Dd; [|discriminate].
        rewrite (stoi_dig1 a c [d]) by (auto; cbn; lia). rewrite Dd. cbn [bind skipn].
        rewrite (IH t f2) by (auto; cbn [length] in *; lia). cbn [bind].
        pose proof (digit_bounds _ _ Dd). unfold byte, hexval. rewrite Dd, Z.mod_small.
        2: { destruct (isshort_ok c) as [K _]. specialize (K Is). unfold short in K. lia. }
        do 2 f_equal. lia.
      * destruct (head_not_hex d t Hd) as (e & t' & Et & De).
        { intros X. apply ishex_ok in X. congruence. }
        rewrite Et in *. cbn [firstn]. rewrite (stoi_dig1 a c [e]) by (auto; cbn; lia). rewrite De. cbn [bind skipn].
        rewrite <- Et in *. rewrite (IH (d :: t) f2) by (auto; cbn [length] in *; lia). cbn [bind].
        unfold byte. rewrite Z.mod_small by lia. reflexivity.
Qed.

Lemma unescape_escape s : bytes s -> unescape (escape s) = Ok (garbled (length s) s).
Proof. intros B. unfold unescape. apply unescape_escape_; auto; lia. Qed.

Lemma garbled_length fuel : forall s, (length s <= fuel)%nat -> (length (garbled fuel s) <= length s)%nat.
Proof.
  induction fuel as [|fuel IH]; intros s L; [cbn; lia|].
  destruct s as [|c [|d t]]; [cbn; lia|cbn; lia|].
  cbn [garbled]. destruct (isshort c && ishex d).
  - cbn [length]. specialize (IH t). cbn in L. lia.
  - cbn [length]. specialize (IH (d :: t)). cbn in L, IH. lia.
Qed.
Lemma garbled_id fuel : forall s, (length s <= fuel)%nat -> (garbled fuel s = s <-> ~ ambiguous s).
Proof.
  induction fuel as [|fuel IH]; intros s L.
  - destruct s; cbn in L; [|lia]. cbn. tauto.
  - destruct s as [|c [|d t]]; [cbn; tauto|cbn; tauto|].
    cbn [garbled ambiguous]. destruct (isshort c) eqn:A; destruct (ishex d) eqn:H; cbn [andb].
    + split.
      * intros E. exfalso. assert (L2 := f_equal (@length Z) E). cbn [length] in L2.
        pose proof (garbled_length fuel t). cbn in L. lia.
      * intros N. exfalso. apply N. left. split; [apply isshort_ok|apply ishex_ok]; auto.
    + rewrite <- ishex_ok, H. specialize (IH (d :: t)). split.
      * intros E [[_ X]|X]; [discriminate|]. injection E as E. apply IH in E; [auto|cbn in L |- *; lia].
      * intros N. f_equal. apply IH; [cbn in L |- *; lia|]. intros X. apply N. auto.
    + rewrite <- isshort_ok, A. specialize (IH (d :: t)). split.
      * intros E [[X _]|X]; [discriminate|]. injection E as E. apply IH in E; [auto|cbn in L |- *; lia].
      * intros N. f_equal. apply IH; [cbn in L |- *; lia|]. intros X. apply N. auto.
    + rewrite <- isshort_ok, A. specialize (IH (d :: t)). split.
      * intros E [[X _]|X]; [discriminate|]. injection E as E. apply IH in E; [auto|cbn in L |- *; lia].
      * intros N. f_equal. apply IH; [cbn in L |- *; lia|]. intros X. apply N. auto.
Qed.

(** printable output *)
Lemma escape1_printable c x : 0 <= c < 256 -> In x (escape1 c) -> 32 <= x < 127.
Proof.
  intros H I.
  assert (P : forallb (fun x => (32 <=? x) && (x <? 127)) (escape1 c) = true).
  { clear I. revert c H.
    apply (allb_ok (fun c => forallb (fun x => (32 <=? x) && (x <? 127)) (escape1 c))). vm_compute. reflexivity. }
  rewrite forallb_forall in P. specialize (P x I). rewrite andb_true_iff, Z.leb_le, Z.ltb_lt in P. auto.
Qed.

(** unescape never runs out of fuel and never grows its input *)
Lemma stoi_pos base s v p : stoi base s = Ok (v, p) -> (0 < p)%nat.
Proof.
  unfold stoi. destruct (skip s) as [s1 n1].
  destruct (match s1 with c :: t => if c =? 45 then (-1, t, S n1) else if c =? 43 then (1, t, S n1) else (1, s1, n1) | [] => (1, s1, n1) end) as [[sg s2] n2].
  destruct (match s2 with z :: x :: d :: t => _ | _ => _ end) as [s3 n3].
  destruct (digits base s3 0 0) as [w m]. destruct m; [discriminate|]. intros E. inversion E. lia.
Qed.
Lemma unescape_total fuel : forall s, (length s < fuel)%nat ->
  match unescape_ fuel s with Ok r => (length r <= length s)%nat | Raise e => e = ValueError | _ => False end.
Proof.
  assert (SK : forall p (t : list Z), (0 < p)%nat -> (length (skipn p t) <= length t - 1)%nat) by (intros; rewrite skipn_length; lia).
  assert (ST : forall base s, match stoi base s with Ok _ => True | Raise e => e = ValueError | _ => False end).
  { intros. unfold stoi. destruct (skip s) as [s1 n1].
    destruct (match s1 with c :: t => if c =? 45 then (-1, t, S n1) else if c =? 43 then (1, t, S n1) else (1, s1, n1) | [] => (1, s1, n1) end) as [[sg s2] n2].
    destruct (match s2 with z :: x :: d :: t => _ | _ => _ end) as [s3 n3].
    destruct (digits base s3 0 0) as [w m]. destruct m; auto. }
  induction fuel as [|fuel IH]; intros s L; [lia|].
  destruct s as [|b [|c t]]; [cbn; lia|cbn; lia|].
  cbn [unescape_]. cbn [length] in L.
  assert (K : forall x u, (length u < length (b :: c :: t))%nat ->
     match bind (unescape_ fuel u) (fun r => Ok (x :: r)) with Ok r => (length r <= length (b :: c :: t))%nat | Raise e => e = ValueError | _ => False end).
  { intros x u Lu. cbn [length] in Lu. specialize (IH u ltac:(lia)). destruct (unescape_ fuel u); cbn [bind]; auto. cbn [length]. lia. }
  destruct (b =? BSL); [|apply K; cbn; lia].
  destruct (simple c); [apply K; cbn; lia|].
  destruct (c =? 120).
  - destruct t as [|t0 t]; [reflexivity|]. pose proof (ST 16 (firstn 2 (t0 :: t))) as S.
    destruct (stoi 16 (firstn 2 (t0 :: t))) as [[v p]| | |] eqn:E; cbn [bind]; try contradiction; auto.
    apply stoi_pos in E. apply K. specialize (SK p (t0 :: t) E). cbn [length] in *. lia.
  - destruct ((48 <=? c) && (c <=? 55)); [|apply K; cbn; lia].
    pose proof (ST 8 (firstn 3 (c :: t))) as S.
    destruct (stoi 8 (firstn 3 (c :: t))) as [[v p]| | |] eqn:E; cbn [bind]; try contradiction; auto.
    apply stoi_pos in E. apply K. specialize (SK p (c :: t) E). cbn [length] in *. lia.
Qed.
