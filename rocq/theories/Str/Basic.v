(** Slices, bytes and occurrences. *)
From Coq Require Import List ZArith Lia Bool.
From Verif.Common Require Import Result Int64.
From Verif.Str Require Import Model Spec.
Import ListNotations.
Local Open Scope Z_scope.

Lemma len_size s : len s = size s.
Proof. reflexivity. Qed.
Lemma len_nonneg s : 0 <= len s.
Proof. unfold len. lia. Qed.
Lemma len_app a b : len (a ++ b) = len a + len b.
Proof. unfold len. rewrite app_length. lia. Qed.
Lemma len_cons c s : len (c :: s) = 1 + len s.
Proof. unfold len. cbn [length]. lia. Qed.
Lemma len_nil : len [] = 0.
Proof. reflexivity. Qed.
Lemma len_0 s : len s = 0 -> s = [].
Proof. destruct s; [auto|]. unfold len. cbn [length]. lia. Qed.
Lemma len_repeat (c : Z) n : len (repeat c n) = Z.of_nat n.
Proof. unfold len. now rewrite repeat_length. Qed.
#[global] Hint Rewrite len_app len_cons len_nil : len.

Definition byte_at (s : list Z) (i : Z) : Z := nth (Z.to_nat i) s 0.
Definition sub (s : list Z) (i j : Z) : list Z := firstn (Z.to_nat (j - i)) (skipn (Z.to_nat i) s).

Lemma get_ok s i : 0 <= i < len s -> get s i = Ok (byte_at s i).
Proof. intros. unfold get. replace ((0 <=? i) && (i <? len s)) with true by lia. reflexivity. Qed.
Lemma slice_ok s i j : 0 <= i <= j -> j <= len s -> slice_ s i j = Ok (sub s i j).
Proof.
  intros. unfold slice_. replace ((0 <=? i) && (i <=? j) && (j <=? len s)) with true by lia. reflexivity.
Qed.
Lemma sub_len s i j : 0 <= i <= j -> j <= len s -> len (sub s i j) = j - i.
Proof. intros. unfold sub, len in *. rewrite firstn_length, skipn_length. lia. Qed.
Lemma sub_byte s i j x : 0 <= i <= j -> j <= len s -> 0 <= x < j - i -> byte_at (sub s i j) x = byte_at s (i + x).
Proof.
  intros. unfold sub, byte_at. unfold len in *.
  rewrite <- (firstn_skipn (Z.to_nat i) s) at 2.
  rewrite app_nth2; rewrite firstn_length_le by lia; [|lia].
  rewrite <- (firstn_skipn (Z.to_nat (j - i)) (skipn (Z.to_nat i) s)) at 2.
  rewrite app_nth1 by (rewrite firstn_length, skipn_length; lia).
  f_equal. lia.
Qed.
Lemma byte_ext a b : len a = len b -> (forall x, 0 <= x < len a -> byte_at a x = byte_at b x) -> a = b.
Proof.
  unfold len, byte_at. intros L H. apply (nth_ext _ _ 0 0); [lia|].
  intros n Hn. specialize (H (Z.of_nat n) ltac:(lia)). now rewrite Nat2Z.id in H.
Qed.
Lemma byte_app_l a b x : 0 <= x < len a -> byte_at (a ++ b) x = byte_at a x.
Proof. unfold byte_at, len. intros. apply app_nth1. lia. Qed.
Lemma byte_app_r a b x : len a <= x -> byte_at (a ++ b) x = byte_at b (x - len a).
Proof. unfold byte_at, len. intros. rewrite app_nth2 by lia. f_equal. lia. Qed.

Lemma sub_all s : sub s 0 (len s) = s.
Proof.
  unfold sub. cbn [Z.to_nat skipn]. rewrite Z.sub_0_r. unfold len. rewrite Nat2Z.id. apply firstn_all.
Qed.
Lemma sub_empty s i : sub s i i = [].
Proof. unfold sub. now rewrite Z.sub_diag. Qed.
Lemma sub_app_l a b i j : 0 <= i <= j -> j <= len a -> sub (a ++ b) i j = sub a i j.
Proof.
  intros. assert (j <= len (a ++ b)) by (rewrite len_app; pose proof (len_nonneg b); lia).
  apply byte_ext.
  - rewrite !sub_len by lia. lia.
  - intros x. rewrite sub_len by lia. intros. rewrite !sub_byte by lia. apply byte_app_l. lia.
Qed.
Lemma sub_app_r a b i j : len a <= i <= j -> j <= len (a ++ b) -> sub (a ++ b) i j = sub b (i - len a) (j - len a).
Proof.
  intros. pose proof (len_nonneg a). rewrite len_app in *. apply byte_ext.
  - rewrite !sub_len; rewrite ?len_app; lia.
  - intros x. rewrite sub_len by (rewrite ?len_app; lia). intros.
    rewrite !sub_byte by (rewrite ?len_app; lia). rewrite byte_app_r by lia. f_equal. lia.
Qed.
Lemma sub_whole_r a b : sub (a ++ b) (len a) (len (a ++ b)) = b.
Proof.
  pose proof (len_nonneg b). rewrite sub_app_r by (rewrite ?len_app; lia).
  rewrite Z.sub_diag, len_app. replace (len a + len b - len a) with (len b) by lia. apply sub_all.
Qed.
Lemma sub_whole_l a b : sub (a ++ b) 0 (len a) = a.
Proof. pose proof (len_nonneg a). rewrite sub_app_l by lia. apply sub_all. Qed.
Lemma sub_split s i j k : 0 <= i <= j -> j <= k <= len s -> sub s i k = sub s i j ++ sub s j k.
Proof.
  intros. apply byte_ext.
  - rewrite len_app, !sub_len by lia. lia.
  - intros x. rewrite sub_len by lia. intros. destruct (Z.lt_ge_cases x (j - i)).
    + rewrite byte_app_l by (rewrite sub_len; lia). rewrite !sub_byte by lia. reflexivity.
    + rewrite byte_app_r by (rewrite sub_len; lia). rewrite sub_len by lia.
      rewrite !sub_byte by lia. f_equal. lia.
Qed.
Lemma sub_sub s i j a b : 0 <= i <= j -> j <= len s -> 0 <= a <= b -> b <= j - i ->
  sub (sub s i j) a b = sub s (i + a) (i + b).
Proof.
  intros. apply byte_ext.
  - rewrite !sub_len; rewrite ?sub_len by lia; lia.
  - intros x. rewrite sub_len by (rewrite ?sub_len; lia). intros.
    rewrite !sub_byte; rewrite ?sub_len by lia; try lia. f_equal. lia.
Qed.
Lemma sub_cons s i j : 0 <= i < j -> j <= len s -> sub s i j = byte_at s i :: sub s (i + 1) j.
Proof.
  intros. rewrite (sub_split s i (i + 1) j) by lia.
  enough (sub s i (i + 1) = [byte_at s i]) as -> by reflexivity.
  apply byte_ext; [rewrite sub_len by lia; cbn; lia|].
  intros x. rewrite sub_len by lia. intros. rewrite sub_byte by lia.
  replace x with 0 by lia. rewrite Z.add_0_r. reflexivity.
Qed.
Lemma sub_snoc s i j : 0 <= i <= j -> j < len s -> sub s i (j + 1) = sub s i j ++ [byte_at s j].
Proof.
  intros. rewrite (sub_split s i j (j + 1)) by lia. f_equal.
  rewrite sub_cons by lia. now rewrite sub_empty.
Qed.

Lemma bytes_eqb_eq a : forall b, bytes_eqb a b = true <-> a = b.
Proof.
  induction a as [|x a IH]; destruct b as [|y b]; cbn [bytes_eqb]; try (split; congruence).
  rewrite andb_true_iff, IH, Z.eqb_eq. split; [intros [-> ->]|intros [= -> ->]]; auto.
Qed.
Lemma str_eq_eq s t : str_eq s t = true <-> s = t.
Proof.
  unfold str_eq. destruct (Z.eqb_spec (len s) (len t)) as [E|E]; cbn [negb].
  - apply bytes_eqb_eq.
  - split; [discriminate|]. intros ->. congruence.
Qed.

(** ** Occurrences *)

Lemma occurs_bytes p s i :
  occurs p s i <-> 0 <= i /\ i + len p <= len s /\ (forall x, 0 <= x < len p -> byte_at s (i + x) = byte_at p x).
Proof.
  split.
  - intros (a & b & -> & ->). change (size a) with (len a). autorewrite with len.
    pose proof (len_nonneg a); pose proof (len_nonneg b). split; [lia|split; [lia|]].
    intros x Hx. rewrite byte_app_r by lia. rewrite byte_app_l by lia. f_equal. lia.
  - intros (H1 & H2 & H3). exists (sub s 0 i), (sub s (i + len p) (len s)).
    pose proof (len_nonneg p). split.
    + assert (E : sub s i (i + len p) = p).
      { apply byte_ext; rewrite sub_len by lia; [lia|]. intros x Hx. rewrite sub_byte by lia. apply H3. lia. }
      rewrite <- E at 1. rewrite <- !sub_split by lia. now rewrite sub_all.
    + change (size (sub s 0 i)) with (len (sub s 0 i)). rewrite sub_len; lia.
Qed.
Lemma occurs_sub p s i :
  occurs p s i <-> 0 <= i /\ i + len p <= len s /\ sub s i (i + len p) = p.
Proof.
  rewrite occurs_bytes. pose proof (len_nonneg p).
  split; intros (H1 & H2 & H3); split; auto; split; auto.
  - apply byte_ext; rewrite sub_len by lia; [lia|]. intros x Hx. rewrite sub_byte by lia. apply H3. lia.
  - intros x Hx. apply (f_equal (fun l => byte_at l x)) in H3. rewrite sub_byte in H3 by lia. exact H3.
Qed.

Lemma occurs_range p s i : occurs p s i -> 0 <= i /\ i + len p <= len s.
Proof. rewrite occurs_sub. tauto. Qed.

(** Occurrences in a part of a text. *)
Lemma occurs_in_sub p s a e i : 0 <= a <= e -> e <= len s ->
  (occurs p (sub s a e) i <-> 0 <= i /\ a + i + len p <= e /\ occurs p s (a + i)).
Proof.
  intros. pose proof (len_nonneg p). rewrite !occurs_sub, sub_len by lia.
  split.
  - intros (H1' & H2 & H3). rewrite sub_sub in H3 by lia.
    split; [lia|split; [lia|]]. split; [lia|split; [lia|]]. etransitivity; [|exact H3]. f_equal. lia.
  - intros (H1' & H2 & _ & _ & H5). split; [lia|split; [lia|]]. rewrite sub_sub by lia.
    etransitivity; [|exact H5]. f_equal. lia.
Qed.

Lemma memcmp_ok s i t j n : 0 <= i -> 0 <= j -> 0 <= n -> i + n <= len s -> j + n <= len t ->
  memcmp_eq s i t j n = Ok (bytes_eqb (sub s i (i + n)) (sub t j (j + n))).
Proof. intros. unfold memcmp_eq. rewrite !slice_ok by lia. reflexivity. Qed.

(** A text of at least two bytes occurs where its first byte, its last byte and its middle
    match. *)
Lemma occurs_ends p s i : 2 <= len p -> 0 <= i -> i + len p <= len s ->
  (occurs p s i <->
   byte_at p 0 = byte_at s i /\ byte_at p (len p - 1) = byte_at s (i + len p - 1) /\
   bytes_eqb (sub s (i + 1) (i + 1 + (len p - 2))) (sub p 1 (1 + (len p - 2))) = true).
Proof.
  intros Hk H1 H2. rewrite occurs_bytes, bytes_eqb_eq. split.
  - intros (_ & _ & H3). repeat apply conj.
    + rewrite <- (H3 0) by lia. f_equal. lia.
    + rewrite <- (H3 (len p - 1)) by lia. f_equal. lia.
    + apply byte_ext; rewrite !sub_len by lia; [lia|]. intros x Hx. rewrite !sub_byte by lia.
      rewrite <- (H3 (1 + x)) by lia. f_equal. lia.
  - intros (A & B & C). split; auto. split; auto. intros x Hx.
    destruct (Z.eq_dec x 0) as [->|]; [rewrite Z.add_0_r; auto|].
    destruct (Z.eq_dec x (len p - 1)) as [->|]; [rewrite B; f_equal; lia|].
    apply (f_equal (fun l => byte_at l (x - 1))) in C.
    rewrite !sub_byte in C by lia. replace (i + x) with (i + 1 + (x - 1)) by lia. rewrite C.
    f_equal. lia.
Qed.

Lemma memchr_spec c s : match memchr c s with
  | Some i => 0 <= i < len s /\ byte_at s i = c /\ forall j, 0 <= j < i -> byte_at s j <> c
  | None => forall j, 0 <= j < len s -> byte_at s j <> c
  end.
Proof.
  induction s as [|x s IH]; cbn [memchr].
  - intros j Hj. rewrite len_nil in Hj. lia.
  - assert (B0 : byte_at (x :: s) 0 = x) by reflexivity.
    assert (BS : forall j, 0 < j -> byte_at (x :: s) j = byte_at s (j - 1)).
    { intros j Hj. change (x :: s) with ([x] ++ s). rewrite byte_app_r; [reflexivity|]. cbn; lia. }
    destruct (Z.eqb_spec x c) as [->|N].
    + rewrite len_cons. pose proof (len_nonneg s). split; [lia|]. split; [auto|]. lia.
    + destruct (memchr c s) as [i|]; rewrite len_cons.
      * destruct IH as (H1 & H2 & H3). split; [lia|]. split.
        -- rewrite BS by lia. rewrite <- H2. f_equal. lia.
        -- intros j Hj. destruct (Z.eq_dec j 0) as [->|]; [congruence|]. rewrite BS by lia. apply H3. lia.
      * intros j Hj. destruct (Z.eq_dec j 0) as [->|]; [congruence|]. rewrite BS by lia. apply IH. lia.
Qed.

Lemma occurs_1 c s i : occurs [c] s i <-> 0 <= i < len s /\ byte_at s i = c.
Proof.
  rewrite occurs_bytes. autorewrite with len. split.
  - intros (H1 & H2 & H3). split; [lia|]. specialize (H3 0 ltac:(lia)). rewrite Z.add_0_r in H3. auto.
  - intros ((H1 & H2) & H3). split; [lia|]. split; [lia|]. intros x Hx. replace x with 0 by lia.
    rewrite Z.add_0_r. auto.
Qed.
Lemma memchr_first c s : first_position (occurs [c] s) (match memchr c s with Some i => i | None => -1 end).
Proof.
  pose proof (memchr_spec c s) as H. destruct (memchr c s) as [i|].
  - left. destruct H as (H1 & H2 & H3). split; [now rewrite occurs_1|].
    intros j. rewrite occurs_1. intros (Hj & E). destruct (Z.lt_ge_cases j i); [|lia].
    exfalso. apply (H3 j); auto; lia.
  - right. split; auto. intros j. rewrite occurs_1. intros (Hj & E). apply (H j); auto.
Qed.
Lemma first_unique (P : Z -> Prop) r r' : (forall i, P i -> 0 <= i) -> first_position P r -> first_position P r' -> r = r'.
Proof.
  intros N [[A B]|[A B]] [[C D]|[C D]]; try (subst; auto; fail).
  - specialize (B _ C). specialize (D _ A). lia.
  - exfalso. eapply D; eauto.
  - exfalso. eapply B; eauto.
Qed.
