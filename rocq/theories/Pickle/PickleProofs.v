(** Reading back what was pickled. *)
From Coq Require Import List ZArith Lia Bool Permutation ZifyBool.
From Verif.Common Require Import Result Int64 Arr Tac.
From Verif.Dict Require Import Model Spec Flags Cells Proofs OpProofs Run SetModel Properties.
From Verif.Pickle Require Import PickleModel PickleSpec.
Import ListNotations.
Local Open Scope Z_scope.
Local Open Scope res_scope.

Lemma zlen_app {A} (a b : list A) : zlen (a ++ b) = zlen a + zlen b.
Proof. unfold zlen. rewrite app_length. lia. Qed.

(** ** Bytes of numbers *)
Lemma le_len n : forall z, length (le_bytes n z) = n.
Proof. induction n; intros z; cbn; auto. Qed.
Lemma le_value_bytes n : forall z, le_value (le_bytes n z) = z mod 256 ^ Z.of_nat n.
Proof.
  induction n as [|n IH]; intros z.
  - cbn. now rewrite Z.mod_1_r.
  - cbn [le_bytes le_value]. rewrite IH. rewrite Nat2Z.inj_succ, Z.pow_succ_r by lia.
    rewrite Z.rem_mul_r by lia. lia.
Qed.
Lemma int_image z : in64 z -> w64 (le_value (le_bytes 8 z)) = z.
Proof.
  intros H. rewrite le_value_bytes. change (256 ^ Z.of_nat 8) with (2^64).
  rewrite <- (w64_id z H) at 2. apply w64_cong with (k := - (z / 2^64)).
  pose proof (Z.div_mod z (2^64) ltac:(lia)). lia.
Qed.

Lemma image_len t : atomic t = true -> forall x, length (image t x) = sizeof t.
Proof.
  induction t; intros H x; try discriminate; cbn [image sizeof].
  - apply le_len.
  - reflexivity.
  - apply le_len.
  - cbn in H. apply andb_true_iff in H. destruct H as [H1 H2].
    rewrite !app_length, !repeat_length, IHt1, IHt2 by auto. lia.
Qed.
Lemma firstn_app_exact {A} (a b : list A) n : length a = n -> firstn n (a ++ b) = a.
Proof. intros <-. rewrite firstn_app, Nat.sub_diag, firstn_all. cbn. apply app_nil_r. Qed.
Lemma skipn_app_exact {A} (a b : list A) n : length a = n -> skipn n (a ++ b) = b.
Proof. intros <-. rewrite skipn_app, Nat.sub_diag, skipn_all. reflexivity. Qed.

Section Codec.
Context (eqb : forall t, den t -> den t -> bool) (hash : forall t, den t -> Z).
Context (junk : nat -> list Z).
Notation valid := (valid eqb hash). Notation same := (same eqb hash).
Notation pickle := (pickle junk). Notation unpickle := (unpickle eqb hash).

Lemma of_image_image t : atomic t = true -> forall x, valid t x -> of_image t (image t x) = x.
Proof.
  induction t; intros H x V; try discriminate; cbn [image of_image].
  - apply int_image. exact V.
  - destruct x; reflexivity.
  - cbn in V. rewrite le_value_bytes, Z.mod_small; auto.
  - cbn in H. apply andb_true_iff in H. destruct H as [H1 H2]. destruct x as [x y]. cbn [fst snd valid] in *. destruct V as [V1 V2].
    rewrite firstn_app_exact by (now apply image_len). rewrite IHt1 by auto. f_equal.
    rewrite app_assoc. rewrite skipn_app_exact by (rewrite app_length, repeat_length, image_len; auto).
    rewrite firstn_app_exact by (now apply image_len). apply IHt2; auto.
Qed.

(** ** The stream *)
Lemma write_loop fuel : forall out p n, 0 <= n <= zlen p -> (Z.to_nat n < fuel)%nat ->
  loop fuel write_body (out, p, n) = Ok (out ++ firstn (Z.to_nat n) p).
Proof.
  induction fuel as [|fuel IH]; intros out p n Hn Hf; [lia|]. cbn [loop]. unfold write_body at 1.
  destruct (n >? 0) eqn:E.
  - set (b := if n <? LIMIT then n else LIMIT). assert (Hb : 0 < b <= n) by (unfold b, LIMIT; destruct (n <? 2147483647) eqn:E1; lia).
    replace (zlen p <? b) with false by lia.
    rewrite IH; [|unfold zlen in *; rewrite skipn_length; lia|lia]. rewrite <- app_assoc. f_equal. f_equal.
    replace (Z.to_nat n) with (Z.to_nat b + Z.to_nat (n - b))%nat by lia.
    rewrite <- (firstn_skipn (Z.to_nat b) p) at 3. rewrite firstn_app.
    rewrite (firstn_length_le p) by (unfold zlen in *; lia). rewrite firstn_firstn.
    replace (Nat.min (Z.to_nat b + Z.to_nat (n - b)) (Z.to_nat b)) with (Z.to_nat b) by lia. f_equal. f_equal. lia.
  - replace n with 0 by lia. cbn. now rewrite app_nil_r.
Qed.
Lemma write_raw_ok p n : 0 <= n <= zlen p -> write_raw p n = Ok (firstn (Z.to_nat n) p).
Proof. intros H. unfold write_raw. rewrite write_loop by lia. reflexivity. Qed.
Lemma write_raw_all p n : n = zlen p -> write_raw p n = Ok p.
Proof. intros ->. pose proof (zlen_nonneg p). rewrite write_raw_ok by lia. f_equal. apply firstn_all2. unfold zlen. lia. Qed.

Lemma read_loop fuel : forall got bs rest n, zlen bs = n -> (Z.to_nat n < fuel)%nat ->
  loop fuel read_body (got, bs ++ rest, n) = Ok (got ++ bs, rest).
Proof.
  induction fuel as [|fuel IH]; intros got bs rest n Hn Hf; [lia|]. cbn [loop]. unfold read_body at 1.
  pose proof (zlen_nonneg bs). destruct (n >? 0) eqn:E.
  - set (b := if n <? LIMIT then n else LIMIT). assert (Hb : 0 < b <= n) by (unfold b, LIMIT; destruct (n <? 2147483647) eqn:E1; lia).
    assert (EF : firstn (Z.to_nat b) (bs ++ rest) = firstn (Z.to_nat b) bs).
    { rewrite firstn_app. replace (Z.to_nat b - length bs)%nat with 0%nat by (unfold zlen in *; lia). cbn. apply app_nil_r. }
    assert (ES : skipn (Z.to_nat b) (bs ++ rest) = skipn (Z.to_nat b) bs ++ rest).
    { rewrite skipn_app. replace (Z.to_nat b - length bs)%nat with 0%nat by (unfold zlen in *; lia). reflexivity. }
    rewrite EF, ES. replace (zlen (firstn (Z.to_nat b) bs) =? b) with true by (unfold zlen in *; rewrite firstn_length; lia). cbn [negb].
    rewrite IH; [|unfold zlen in *; rewrite skipn_length; lia|lia]. rewrite <- app_assoc, firstn_skipn. reflexivity.
  - replace bs with (@nil Z) by (destruct bs; auto; unfold zlen in *; cbn in *; lia). cbn. now rewrite app_nil_r.
Qed.
Lemma read_short fuel : forall got inp n, zlen inp < n -> (Z.to_nat n < fuel)%nat ->
  loop fuel read_body (got, inp, n) = Raise OtherError.
Proof.
  induction fuel as [|fuel IH]; intros got inp n Hn Hf; [lia|]. cbn [loop]. unfold read_body at 1.
  pose proof (zlen_nonneg inp). replace (n >? 0) with true by lia.
  set (b := if n <? LIMIT then n else LIMIT). assert (Hb : 0 < b <= n) by (unfold b, LIMIT; destruct (n <? 2147483647) eqn:E1; lia).
  destruct (zlen (firstn (Z.to_nat b) inp) =? b) eqn:E; cbn [negb]; [|reflexivity].
  apply IH; [|lia]. unfold zlen in *. rewrite firstn_length in E. rewrite skipn_length. lia.
Qed.

(** ** Decoders that invert an encoding and reject every truncation of it *)
Definition codes {A} (d : list Z -> res (A * list Z)) (bs : list Z) (v : A) : Prop :=
  (forall rest, d (bs ++ rest) = Ok (v, rest)) /\
  (forall p q, bs = p ++ q -> q <> [] -> d p = Raise OtherError).

Lemma codes_ret {A} (v : A) : codes (fun inp => Ok (v, inp)) [] v.
Proof.
  split; [reflexivity|]. intros p q E N. symmetry in E. apply app_eq_nil in E. destruct E; contradiction.
Qed.
Lemma codes_bind {A B} (d : list Z -> res (A * list Z)) (k : A -> list Z -> res (B * list Z)) b1 b2 v w :
  codes d b1 v -> codes (k v) b2 w -> codes (fun inp => ' (x, inp) <- d inp ;; k x inp) (b1 ++ b2) w.
Proof.
  intros [D1 D2] [K1 K2]. split.
  - intros rest. rewrite <- app_assoc, D1. cbn [bind]. apply K1.
  - intros p q E N. assert (H : exists l, (b1 = p ++ l /\ q = l ++ b2) \/ (p = b1 ++ l /\ b2 = l ++ q)) by (apply app_eq_app in E; exact E).
    destruct H as (l & [[-> ->]|[-> ->]]).
    + destruct l as [|x l].
      * cbn [app] in *. rewrite app_nil_r in *. specialize (D1 []). rewrite app_nil_r in D1. rewrite D1. cbn [bind]. apply (K2 [] b2); auto.
      * rewrite (D2 p (x :: l)); auto. discriminate.
    + rewrite D1. cbn [bind]. apply (K2 l q); auto.
Qed.
Lemma codes_ext {A} (d d' : list Z -> res (A * list Z)) bs v : (forall i, d i = d' i) -> codes d bs v -> codes d' bs v.
Proof. intros E [H1 H2]. split; intros; rewrite <- E; eauto. Qed.
Lemma codes_map {A B} (d : list Z -> res (A * list Z)) (f : A -> B) bs v w : codes d bs v -> f v = w ->
  codes (fun inp => ' (x, inp) <- d inp ;; Ok (f x, inp)) bs w.
Proof. intros H <-. rewrite <- (app_nil_r bs). eapply codes_bind; eauto. apply codes_ret. Qed.
Lemma codes_raw bs n : n = zlen bs -> codes (fun inp => read_raw inp n) bs bs.
Proof.
  intros ->. pose proof (zlen_nonneg bs). split.
  - intros rest. unfold read_raw. rewrite read_loop by lia. reflexivity.
  - intros p q E N. unfold read_raw. apply read_short; [|lia]. subst bs. rewrite zlen_app.
    destruct q; [contradiction|]. unfold zlen. cbn. lia.
Qed.
Lemma codes_read t x : atomic t = true -> valid t x -> codes (read t) (image t x) x.
Proof.
  intros H V. unfold read. eapply codes_map; [apply codes_raw; unfold zlen; now rewrite image_len|].
  now apply of_image_image.
Qed.
Lemma write_ok t x : atomic t = true -> write t x = Ok (image t x).
Proof. intros H. unfold write. apply write_raw_all. unfold zlen. now rewrite image_len. Qed.

Lemma Forall_len_bound {A} (l : list A) : zlen l < 2^63 -> in64 (zlen l).
Proof. intros H. unfold in64, min64, max64. pose proof (zlen_nonneg l). lia. Qed.

(** ** Sequences *)
Lemma cut_concat t (H : atomic t = true) l : Forall (valid t) l -> cut t (length l) (concat (map (image t) l)) = l.
Proof.
  induction 1 as [|x l V F IH]; cbn [length cut map concat]; auto.
  rewrite firstn_app_exact, skipn_app_exact by (now apply image_len). rewrite IH, of_image_image by auto. reflexivity.
Qed.
Lemma concat_len t (H : atomic t = true) l : zlen (concat (map (image t) l)) = zlen l * Z.of_nat (sizeof t).
Proof.
  induction l as [|x l IH]; cbn [map concat]; [reflexivity|]. rewrite zlen_app, IH. unfold zlen at 1. rewrite image_len by auto.
  unfold zlen. cbn [length]. lia.
Qed.

Lemma all_ok {A} (R : A -> A -> Prop) (f : A -> res (list Z)) (d : list Z -> res (A * list Z)) (l : list A) :
  Forall (fun x => exists bs x', f x = Ok bs /\ codes d bs x' /\ R x x') l ->
  exists bs l', pickle_all f l = Ok bs /\ codes (unpickle_all d (length l)) bs l' /\ Forall2 R l l'.
Proof.
  induction 1 as [|x l (b1 & x' & E1 & C1 & R1) F (b2 & l' & E2 & C2 & R2)]; cbn [pickle_all unpickle_all length].
  - exists [], []. split; auto. split; [apply codes_ret|constructor].
  - exists (b1 ++ b2), (x' :: l'). rewrite E1, E2. split; auto. split; [|constructor; auto].
    eapply codes_bind; eauto. eapply codes_map; eauto.
Qed.

Lemma plain_same t : plain t = true -> forall x y, same t x y -> x = y.
Proof.
  induction t; intros H x y S; try discriminate; cbn [PickleSpec.same] in S; auto.
  - cbn in H. induction S as [|a b l l' Hab S IH]; auto. f_equal; auto.
  - cbn in H. apply andb_true_iff in H. destruct H. destruct x, y, S. f_equal; auto.
Qed.

(** ** Hash tables, element by element *)
Section Tables.
Context {K V : Type} (keq : K -> K -> bool) (kh : K -> Z) (KO : key_ok keq kh).

Lemma uniq_keys (l l' : list (K * V)) : Forall2 (fun e e' => fst e = fst e') l l' -> keys_uniq keq l -> keys_uniq keq l'.
Proof.
  induction 1 as [|e e' l l' He F IH]; intros U; [constructor|]. inversion U as [|? ? F1 F2]; subst. constructor.
  - rewrite <- He. clear -F1 F. induction F; [constructor|]. inversion F1; subst. constructor; auto. congruence.
  - now apply IH.
Qed.
Lemma uniq_free (m : list (K * V)) k v l : keys_uniq keq (m ++ (k, v) :: l) -> free keq m k.
Proof.
  destruct KO as (_ & S & _). intros U.
  apply (keys_uniq_perm keq S _ _ (Permutation_sym (Permutation_middle _ _ _))) in U.
  inversion U as [|? ? F1 F2]; subst. rewrite Forall_forall in F1. intros k' v' I. rewrite S. apply (F1 (k', v')). apply in_or_app. auto.
Qed.

Lemma into_codes {X A} (R : X -> A -> Prop) (g : A -> K * V) (f : X -> res (list Z)) (d : list Z -> res (A * list Z)) (put : tbl K V -> A -> res (tbl K V)) :
  (forall t a, put t a = setitem keq kh t (fst (g a)) (snd (g a))) ->
  forall l l', Forall2 (fun x a => R x a /\ exists bs, f x = Ok bs /\ codes d bs a) l l' ->
  forall t m, repr keq kh t m -> keys_uniq keq (m ++ map g l') -> zlen (m ++ map g l') <= 2^60 ->
  exists bs t', pickle_all f l = Ok bs /\ codes (unpickle_into d put (length l) t) bs t' /\ repr keq kh t' (m ++ map g l').
Proof.
  intros HP. induction 1 as [|x a l l' (Rx & b1 & E1 & C1) F IH]; intros t m Rm U L; cbn [pickle_all unpickle_into length map].
  - exists [], t. split; auto. split; [apply codes_ret|]. now rewrite app_nil_r.
  - cbn [map] in U, L. destruct (g a) as [k v] eqn:G. pose proof (uniq_free _ _ _ _ U) as FR. destruct KO as (_ & S1 & S2 & S3).
    assert (Lm : zlen m <= 2^60). { rewrite zlen_app in L. pose proof (zlen_nonneg ((k, v) :: map g l')). lia. }
    pose proof (setitem_ok keq kh S1 S2 S3 t m k v Rm Lm) as W. apply wp_inv in W. destruct W as (t1 & Et & R1).
    rewrite (free_store keq m k v FR) in R1.
    assert (EL : (m ++ [(k, v)]) ++ map g l' = m ++ (k, v) :: map g l') by (now rewrite <- app_assoc).
    destruct (IH t1 (m ++ [(k, v)])) as (b2 & t' & E2 & C2 & R2); rewrite ?EL; auto.
    exists (b1 ++ b2), t'. rewrite E1, E2. split; auto. split; [|now rewrite <- EL].
    eapply codes_bind; [exact C1|]. apply codes_ext with (d := unpickle_into d put (length l) t1); auto.
    intros i. rewrite HP, G. cbn [fst snd]. rewrite Et. reflexivity.
Qed.

(** ** Hash tables, as memory *)
Lemma relaid (t : tbl K V) fl ks vs : wfn keq kh t -> fsize (nb t) <= zlen fl ->
  (forall i, 0 <= i < nb t -> dbit fl i = dbit (flags t) i /\ ebit fl i = ebit (flags t) i) ->
  zlen ks = nb t -> zlen vs = nb t ->
  (forall i, 0 <= i < nb t -> liveb (flags t) i = true -> zn None ks i = zn None (keys t) i /\ zn None vs i = zn None (vals t) i) ->
  let t' := T (nb t) (sz t) (nocc t) (ub t) fl ks vs in wfn keq kh t' /\ ents t' = ents t.
Proof.
  intros W FL FB KL VL EQ. cbv zeta. pose proof (w_pow _ _ t W) as P.
  assert (LV : forall j, 0 <= j < nb t -> liveb fl j = liveb (flags t) j).
  { intros j Hj. unfold liveb. destruct (FB j Hj) as [-> ->]. reflexivity. }
  assert (OC : forall j, 0 <= j < nb t -> occb fl j = occb (flags t) j).
  { intros j Hj. unfold occb. destruct (FB j Hj) as [_ ->]. reflexivity. }
  split.
  - constructor; cbn [nb sz nocc ub flags keys vals]; auto; try apply W.
    + intros i Hi LI. rewrite LV in LI by auto. destruct (EQ i Hi LI) as [-> ->]. apply W; auto.
    + intros i k Hi LI Ek. rewrite LV in LI by auto. destruct (EQ i Hi LI) as [E1 _]. rewrite E1 in Ek.
      eapply reach_mono; [auto| |apply (w_reach _ _ t W); eauto]. intros j Hj. now rewrite OC.
    + intros i j k k' Hi Hj LI LJ. rewrite LV in LI, LJ by auto. destruct (EQ i Hi LI) as [-> _], (EQ j Hj LJ) as [-> _]. apply (w_uniq _ _ t W); auto.
    + rewrite (w_sz _ _ t W). apply cnt_ext. intros; symmetry; now apply LV.
    + rewrite (w_nocc _ _ t W). apply cnt_ext. intros; symmetry; now apply OC.
  - unfold ents. cbn [nb flags keys vals]. apply cells_ext. intros j Hj. rewrite LV by auto. split; auto.
Qed.
End Tables.

Lemma slot_len t (H : atomic t = true) i c : length (slot_image junk t i c) = sizeof t.
Proof.
  destruct c; cbn [slot_image]; [now apply image_len|]. rewrite firstn_length, app_length, repeat_length. lia.
Qed.
Lemma slots_len t (H : atomic t = true) cs : forall i, zlen (slots_image junk t i cs) = zlen cs * Z.of_nat (sizeof t).
Proof.
  induction cs as [|c cs IH]; intros i; cbn [slots_image]; [reflexivity|]. rewrite zlen_app, IH. unfold zlen at 1. rewrite slot_len by auto.
  unfold zlen. cbn [length]. lia.
Qed.
Lemma cut_len t n : forall bs, length (cut t n bs) = n.
Proof. induction n; intros; cbn; auto. Qed.
Lemma cut_slots t (H : atomic t = true) cs : forall j i x, nth i cs None = Some x -> valid t x ->
  nth i (map Some (cut t (length cs) (slots_image junk t j cs))) None = Some x.
Proof.
  induction cs as [|c cs IH]; intros j i x E V; [destruct i; discriminate|]. cbn [length cut slots_image map].
  rewrite firstn_app_exact, skipn_app_exact by (now apply slot_len). destruct i as [|i]; cbn [nth] in *.
  - subst c. cbn [slot_image]. now rewrite of_image_image.
  - now apply IH.
Qed.
Lemma words_len fl : zlen (words_image fl) = zlen fl * 4.
Proof.
  unfold words_image. induction fl as [|z fl IH]; cbn [map concat]; [reflexivity|]. rewrite zlen_app, IH. unfold zlen. rewrite le_len. cbn [length]. lia.
Qed.
Lemma words_cut n : forall fl, (n <= length fl)%nat ->
  cut_words n (firstn (4 * n) (words_image fl)) = map (fun z => z mod 2^32) (firstn n fl).
Proof.
  induction n as [|n IH]; intros fl H; [reflexivity|]. destruct fl as [|z fl]; [cbn in H; lia|].
  replace (4 * S n)%nat with (4 + 4 * n)%nat by lia. unfold words_image. cbn [cut_words map concat].
  set (B := concat _).
  assert (E : firstn (4 + 4 * n) (le_bytes 4 z ++ B) = le_bytes 4 z ++ firstn (4 * n) B).
  { rewrite <- (le_len 4 z) at 1. now rewrite firstn_app_2. }
  rewrite E, firstn_app_exact, skipn_app_exact by (apply le_len). rewrite le_value_bytes. cbn [firstn map]. f_equal.
  apply IH. cbn in H. lia.
Qed.
Lemma fsize_bound n : pow2 n -> fsize n <= 2^58.
Proof.
  intros P. pose proof (pow2_bounds n P). unfold fsize. destruct (n <? 16); [lia|]. rewrite shr4. 
  apply Z.div_le_upper_bound; lia.
Qed.

Lemma flags_raw {K V} keq kh (d : tbl K V) : wfn keq kh d ->
  exists fb, write_raw (words_image (flags d)) (w64 (fsize (nb d) * 4)) = Ok fb /\
    w64 (fsize (nb d) * 4) = zlen fb /\
    let fl := cut_words (Z.to_nat (fsize (nb d))) fb in
    fsize (nb d) <= zlen fl /\
    forall i, 0 <= i < nb d -> dbit fl i = dbit (flags d) i /\ ebit fl i = ebit (flags d) i.
Proof.
  intros W. pose proof (w_pow _ _ d W) as P. pose proof (fsize_bound _ P). pose proof (fsize_pos _ P). pose proof (w_flags _ _ d W) as FL.
  rewrite w64_id by (unfold in64, min64, max64; lia).
  exists (firstn (Z.to_nat (fsize (nb d) * 4)) (words_image (flags d))).
  split; [apply write_raw_ok; rewrite words_len; lia|].
  split. { unfold zlen. rewrite firstn_length. pose proof (words_len (flags d)) as WL. unfold zlen in *. lia. }
  cbv zeta. replace (Z.to_nat (fsize (nb d) * 4)) with (4 * Z.to_nat (fsize (nb d)))%nat by lia.
  rewrite words_cut by (unfold zlen in FL; lia). split.
  - unfold zlen. rewrite map_length, firstn_length. unfold zlen in FL. lia.
  - intros i Hi. pose proof (fsize_enough _ i P Hi). assert (0 <= i / 16) by (apply Z.div_pos; lia). pose proof (mod16 i).
    assert (E : word (map (fun z => z mod 2^32) (firstn (Z.to_nat (fsize (nb d))) (flags d))) i = (word (flags d) i) mod 2^32).
    { unfold word, zn. rewrite (nth_indep _ _ (0 mod 2^32)) by (rewrite map_length, firstn_length; unfold zlen in FL; lia).
      rewrite (map_nth (fun z => z mod 2^32)). f_equal. apply (firstn_zn 0). lia. }
    unfold dbit, ebit. rewrite E. now rewrite !Z.mod_pow2_bits_low by lia.
Qed.
Lemma slots_raw t n cs : atomic t = true -> zlen cs = n -> n * Z.of_nat (sizeof t) < 2^63 ->
  write_raw (slots_image junk t 0 cs) (w64 (n * Z.of_nat (sizeof t))) = Ok (slots_image junk t 0 cs) /\
  w64 (n * Z.of_nat (sizeof t)) = zlen (slots_image junk t 0 cs).
Proof.
  intros H E L. pose proof (zlen_nonneg cs). rewrite w64_id by (unfold in64, min64, max64; nia).
  rewrite slots_len, E by auto. split; auto. apply write_raw_all. rewrite slots_len, E by auto. reflexivity.
Qed.
Lemma live_ent {K V} keq kh (d : tbl K V) i : wfn keq kh d -> 0 <= i < nb d -> liveb (flags d) i = true ->
  exists k v, zn None (keys d) i = Some k /\ zn None (vals d) i = Some v /\ In (k, v) (ents d).
Proof.
  intros W Hi L. destruct (w_full _ _ d W i Hi L) as (k & v & Ek & Ev). exists k, v. split; auto. split; auto.
  apply in_cells. exists i. auto.
Qed.
Lemma in64_cnt P n : 0 <= n <= 2^62 -> in64 (cnt P n).
Proof.
  intros H. assert (B : 0 <= cnt P n <= n).
  { unfold cnt. pose proof (zseq_length n). split; [apply zlen_nonneg|]. assert (G : forall l, zlen (flat_map (marks P) l) <= zlen l).
    { unfold zlen. induction l as [|a l IH]; cbn [flat_map length]; [lia|]. rewrite app_length. unfold marks at 1. destruct (P a); cbn [length]; lia. }
    etransitivity; [apply G|]. unfold zlen. lia. }
  unfold in64, min64, max64. lia.
Qed.
Lemma fields_in64 {K V} keq kh (d : tbl K V) : wf keq kh d -> in64 (nb d) /\ in64 (sz d) /\ in64 (nocc d) /\ in64 (ub d).
Proof.
  assert (I0 : in64 0) by (unfold in64, min64, max64; lia).
  intros [->|W]; [cbn; auto|]. pose proof (w_pow _ _ d W) as P. pose proof (pow2_bounds _ P) as B. pose proof (upper_bounds _ P) as [U _].
  rewrite (w_sz _ _ d W), (w_nocc _ _ d W), (w_ub _ _ d W).
  do 2 (split; [first [apply in64_cnt; lia|unfold in64, min64, max64; lia]|]). split; [apply in64_cnt; lia|].
  assert (0 <= nb d / 2) by (apply Z.div_pos; lia). unfold in64, min64, max64. lia.
Qed.

Lemma in64_prod a n : 0 <= a -> a * Z.of_nat n < 2^63 -> in64 (a * Z.of_nat n).
Proof. intros H1 H2. unfold in64, min64, max64. pose proof (Z.mul_nonneg_nonneg a (Z.of_nat n) H1 ltac:(lia)). lia. Qed.
Lemma F2_impl {A B} (R S : A -> B -> Prop) : (forall a b, R a b -> S a b) -> forall l l', Forall2 R l l' -> Forall2 S l l'.
Proof. intros H. induction 1; constructor; auto. Qed.
Lemma F2_len {A B} (R : A -> B -> Prop) l l' : Forall2 R l l' -> length l = length l'.
Proof. induction 1; cbn; auto. Qed.
Lemma read_int z : in64 z -> codes (read TInt) (image TInt z) z.
Proof. intros H. apply codes_read; auto. Qed.

Lemma resize_new {K V} keq kh (KO : key_ok keq kh) n : in64 n -> exists t, kh_resize kh (@new K V) n = Ok t /\ repr keq kh t [].
Proof.
  intros H. destruct KO as (_ & S1 & _). assert (W : wf keq kh (@new K V)) by now left.
  pose proof (resize_spec keq kh S1 _ n W H) as R. apply wp_inv in R. destruct R as (t & E & Wt & P & _).
  exists t. split; auto. split; auto.
Qed.

Theorem pickle_ok t : forall v, valid t v ->
  exists bs v', pickle t v = Ok bs /\ codes (unpickle t) bs v' /\ same t v v'.
Proof.
  induction t as [| |w| |e IHe|a IHa b IHb|k IHk v IHv|k IHk]; intros x V; cbn [PickleModel.pickle PickleModel.unpickle PickleSpec.same].
  - exists (image TInt x), x. rewrite write_ok by auto. split; auto. split; auto. now apply codes_read.
  - exists (image TBool x), x. rewrite write_ok by auto. split; auto. split; auto. now apply codes_read.
  - exists (image (TBits w) x), x. rewrite write_ok by auto. split; auto. split; auto. now apply codes_read.
  - cbn in V. exists (image TInt (zlen x) ++ x), x. rewrite write_ok, write_raw_all by auto. split; auto. split; auto.
    eapply codes_bind; [apply read_int; now apply Forall_len_bound|]. now apply codes_raw.
  - destruct V as (V1 & V2 & V3). rewrite write_ok by auto. cbn [bind].
    pose proof (zlen_nonneg x) as L0. destruct (atomic e) eqn:A.
    + rewrite w64_id by (now apply in64_prod).
      exists (image TInt (zlen x) ++ concat (map (image e) x)), x.
      rewrite write_raw_all by (now rewrite concat_len). split; auto. split.
      * eapply codes_bind; [apply read_int; now apply Forall_len_bound|].
        rewrite w64_id by (now apply in64_prod).
        eapply codes_map; [apply codes_raw; now rewrite concat_len|]. unfold zlen. rewrite Nat2Z.id. now apply cut_concat.
      * clear -A. assert (G : forall t, atomic t = true -> forall y, same t y y).
        { induction t; intros H y; try discriminate; cbn; auto. cbn in H. apply andb_true_iff in H. destruct H. auto. }
        induction x; constructor; auto.
    + assert (F : Forall (fun y => exists bs y', pickle e y = Ok bs /\ codes (unpickle e) bs y' /\ same e y y') x).
      { eapply Forall_impl; [|exact V3]. auto. }
      destruct (all_ok (same e) _ _ _ F) as (bs & l' & E & C & S). exists (image TInt (zlen x) ++ bs), l'.
      rewrite E. split; auto. split; auto. eapply codes_bind; [apply read_int; now apply Forall_len_bound|].
      unfold zlen. now rewrite Nat2Z.id.
  - destruct V as [V1 V2]. destruct (IHa _ V1) as (b1 & x1 & E1 & C1 & S1), (IHb _ V2) as (b2 & x2 & E2 & C2 & S2).
    exists (b1 ++ b2), (x1, x2). rewrite E1, E2. split; auto. split; auto.
    eapply codes_bind; [exact C1|]. eapply codes_map; [exact C2|reflexivity].
  - change (den (TDict k v)) with (tbl (den k) (den v)) in x. destruct V as (PK & KO & B1 & B2 & m & R & Lm & F). pose proof R as (W & PM).
    destruct (fields_in64 _ _ _ W) as (I1 & I2 & I3 & I4). destruct (atomic k && atomic v) eqn:A.
    + apply andb_true_iff in A. destruct A as [A1 A2]. rewrite !write_ok by auto. cbn [bind].
      destruct W as [->|W].
      * cbn [nb sz nocc ub flags keys vals new]. change (w64 ((if 0 >? 0 then fsize 0 else 0) * 4)) with 0. change (w64 (0 * _)) with 0.
        eexists; exists new. split; [reflexivity|]. split.
        -- cbn [app]. do 3 (eapply codes_bind; [apply read_int; exact I1|]).
           rewrite <- (app_nil_r (image TInt 0)) at 1. eapply codes_bind; [apply read_int; exact I1|]. apply codes_ret.
        -- exists m, m. split; auto. split; auto. cbn in PM. apply Permutation_nil in PM. subst m. constructor.
      * pose proof (w_pow _ _ x W) as P. pose proof (pow2_bounds _ P) as PB. replace (nb x >? 0) with true by lia. cbv zeta iota.
        destruct (flags_raw _ _ x W) as (fb & Ef & Lf & FL & FB).
        destruct (slots_raw k (nb x) (keys x) A1 (w_keys _ _ x W) B1) as [Ek Lk].
        destruct (slots_raw v (nb x) (vals x) A2 (w_vals _ _ x W) B2) as [Ev Lv].
        rewrite Ef, Ek, Ev. cbn [bind].
        set (fl := cut_words (Z.to_nat (fsize (nb x))) fb) in *.
        set (ks := map Some (cut k (Z.to_nat (nb x)) (slots_image junk k 0 (keys x)))).
        set (vs := map Some (cut v (Z.to_nat (nb x)) (slots_image junk v 0 (vals x)))).
        assert (NK : Z.to_nat (nb x) = length (keys x)) by (rewrite <- (w_keys _ _ x W); unfold zlen; lia).
        assert (NV : Z.to_nat (nb x) = length (vals x)) by (rewrite <- (w_vals _ _ x W); unfold zlen; lia).
        rewrite Forall_forall in F.
        destruct (relaid (eqb k) (hash k) x fl ks vs W FL FB) as (W' & E').
        { unfold ks, zlen. rewrite map_length, cut_len. lia. }
        { unfold vs, zlen. rewrite map_length, cut_len. lia. }
        { intros i Hi Li. destruct (live_ent _ _ x i W Hi Li) as (kk & vv & Hk & Hv & I). 
          destruct (F (kk, vv)) as [F1 F2]; [eapply Permutation_in; eauto|]. cbn [fst snd] in F1, F2. unfold ks, vs. split.
          - rewrite Hk, NK. unfold zn in *. now apply cut_slots.
          - rewrite Hv, NV. unfold zn in *. now apply cut_slots. }
        assert (R' : repr (eqb k) (hash k) (T (nb x) (sz x) (nocc x) (ub x) fl ks vs) m) by (split; [now right|now rewrite E']).
        eexists; exists (T (nb x) (sz x) (nocc x) (ub x) fl ks vs). split; [reflexivity|]. split.
        -- eapply codes_bind; [apply read_int; exact I1|]. eapply codes_bind; [apply read_int; exact I2|].
           eapply codes_bind; [apply read_int; exact I3|]. eapply codes_bind; [apply read_int; exact I4|].
           cbv zeta. replace (nb x >? 0) with true by lia.
           eapply codes_bind; [apply codes_raw; exact Lf|]. eapply codes_bind; [apply codes_raw; exact Lk|].
           eapply codes_map; [apply codes_raw; exact Lv|]. reflexivity.
        -- exists m, m. split; [exact R|]. split; [exact R'|].
           assert (G : forall t, atomic t = true -> forall y, same t y y).
           { clear. induction t; intros H y; try discriminate; cbn; auto. cbn in H. apply andb_true_iff in H. destruct H. auto. }
           clear -G A2. induction m; constructor; auto.
    + rewrite !write_ok by auto. cbn [bind]. rewrite (items_spec (eqb k) (hash k) x W). cbn [bind].
      assert (F' : Forall (fun e => valid k (fst e) /\ valid v (snd e)) (ents x)).
      { rewrite Forall_forall in *. intros e I. apply F. eapply Permutation_in; eauto. }
      assert (Hl : exists l', Forall2 (fun e e' => (fst e = fst e' /\ same v (snd e) (snd e')) /\ exists bs,
          (u <- pickle k (fst e) ;; y <- pickle v (snd e) ;; Ok (u ++ y)) = Ok bs /\
          codes (fun inp => ' (x, inp) <- unpickle k inp ;; ' (y, inp) <- unpickle v inp ;; Ok ((x, y), inp)) bs e') (ents x) l').
      { clear -IHk IHv PK F'. induction F' as [|[kk vv] l [V1 V2] F' (l' & IH)]; [exists []; apply Forall2_nil|]. cbn [fst snd] in V1, V2.
        destruct (IHk _ V1) as (b1 & x1 & E1 & C1 & S1), (IHv _ V2) as (b2 & x2 & E2 & C2 & S2).
        exists ((x1, x2) :: l'). constructor; auto. cbn [fst snd]. split; [split; auto; now apply (plain_same k PK)|].
        exists (b1 ++ b2). rewrite E1, E2. split; auto. eapply codes_bind; [exact C1|]. eapply codes_map; [exact C2|reflexivity]. }
      destruct Hl as (l' & Hl). destruct (resize_new (V := den v) (eqb k) (hash k) KO (nb x) I1) as (t0 & E0 & R0).
      assert (U : keys_uniq (eqb k) l').
      { eapply uniq_keys; [|apply (wf_keys_uniq (eqb k) (hash k) x W)]. eapply F2_impl; [|exact Hl]. cbn. intros e e' [[? _] _]; auto. }
      assert (LL : zlen l' <= 2^60).
      { apply F2_len in Hl. apply Permutation_length in PM. unfold zlen in *. lia. }
      destruct (into_codes (eqb k) (hash k) KO _ (fun e => e) _ _ (fun d e => setitem (eqb k) (hash k) d (fst e) (snd e)) (fun _ _ => eq_refl)
         (ents x) l' Hl t0 [] R0) as (bs & t' & E & C & R'); rewrite ?map_id; auto.
      rewrite map_id in R'. cbn [app] in R'. eexists; exists t'. rewrite E. split; [reflexivity|]. split.
      * eapply codes_bind; [apply read_int; exact I1|]. eapply codes_bind; [apply read_int; exact I2|].
        eapply codes_ext; [|exact C]. intros i. rewrite E0. cbn [bind].
        rewrite (wf_sz _ _ _ W). unfold zlen. now rewrite Nat2Z.id.
      * exists (ents x), l'. split; [split; auto|]. split; auto. eapply F2_impl; [|exact Hl]. cbn. intros ? ? [? _]; auto.
  - change (den (TSet k)) with (tbl (den k) unit) in x. destruct V as (PK & KO & B1 & m & R & Lm & F). pose proof R as (W & PM).
    destruct (fields_in64 _ _ _ W) as (I1 & I2 & I3 & I4). destruct (atomic k) eqn:A.
    + rewrite !write_ok by auto. cbn [bind].
      destruct W as [->|W].
      * cbn [nb sz nocc ub flags keys vals new]. change (w64 ((if 0 >? 0 then fsize 0 else 0) * 4)) with 0. change (w64 (0 * _)) with 0.
        eexists; exists new. split; [reflexivity|]. split.
        -- cbn [app]. do 3 (eapply codes_bind; [apply read_int; exact I1|]).
           rewrite <- (app_nil_r (image TInt 0)) at 1. eapply codes_bind; [apply read_int; exact I1|]. apply codes_ret.
        -- exists m. split; auto.
      * pose proof (w_pow _ _ x W) as P. pose proof (pow2_bounds _ P) as PB. replace (nb x >? 0) with true by lia. cbv zeta iota.
        destruct (flags_raw _ _ x W) as (fb & Ef & Lf & FL & FB).
        destruct (slots_raw k (nb x) (keys x) A (w_keys _ _ x W) B1) as [Ek Lk].
        rewrite Ef, Ek. cbn [bind].
        set (fl := cut_words (Z.to_nat (fsize (nb x))) fb) in *.
        set (ks := map Some (cut k (Z.to_nat (nb x)) (slots_image junk k 0 (keys x)))).
        set (vs := repeat (Some tt) (Z.to_nat (nb x))).
        assert (NK : Z.to_nat (nb x) = length (keys x)) by (rewrite <- (w_keys _ _ x W); unfold zlen; lia).
        rewrite Forall_forall in F.
        destruct (relaid (eqb k) (hash k) x fl ks vs W FL FB) as (W' & E').
        { unfold ks, zlen. rewrite map_length, cut_len. lia. }
        { unfold vs, zlen. rewrite repeat_length. lia. }
        { intros i Hi Li. destruct (live_ent _ _ x i W Hi Li) as (kk & [] & Hk & Hv & I). 
          pose proof (F (kk, tt)) as F1. cbn [fst] in F1. unfold ks, vs. split.
          - rewrite Hk, NK. unfold zn in *. apply cut_slots; auto. apply F1. eapply Permutation_in; eauto.
          - rewrite Hv. unfold zn. rewrite (nth_indep _ None (Some tt)) by (rewrite repeat_length; lia). apply nth_repeat. }
        assert (R' : repr (eqb k) (hash k) (T (nb x) (sz x) (nocc x) (ub x) fl ks vs) m) by (split; [now right|now rewrite E']).
        eexists; exists (T (nb x) (sz x) (nocc x) (ub x) fl ks vs). split; [reflexivity|]. split.
        -- eapply codes_bind; [apply read_int; exact I1|]. eapply codes_bind; [apply read_int; exact I2|].
           eapply codes_bind; [apply read_int; exact I3|]. eapply codes_bind; [apply read_int; exact I4|].
           cbv zeta. replace (nb x >? 0) with true by lia.
           eapply codes_bind; [apply codes_raw; exact Lf|].
           eapply codes_map; [apply codes_raw; exact Lk|]. reflexivity.
        -- exists m. split; [exact R|exact R'].
    + rewrite !write_ok by auto. cbn [bind]. unfold elems. rewrite (items_spec (eqb k) (hash k) x W). cbn [bind].
      assert (Hl : Forall2 (fun u u' => u = u' /\ exists bs, pickle k u = Ok bs /\ codes (unpickle k) bs u') (map fst (ents x)) (map fst (ents x))).
      { assert (F' : Forall (fun e => valid k (fst e)) (ents x)).
        { rewrite Forall_forall in *. intros e I. apply F. eapply Permutation_in; eauto. }
        clear -IHk PK F'. induction F' as [|e l V F' IH]; [apply Forall2_nil|apply Forall2_cons; auto]. split; auto. destruct (IHk _ V) as (b1 & x1 & E1 & C1 & S1).
        apply (plain_same k PK) in S1. subst x1. eauto. }
      destruct (resize_new (V := unit) (eqb k) (hash k) KO (nb x) I1) as (t0 & E0 & R0).
      assert (EM : map (fun u => (u, tt)) (map fst (ents x)) = ents x).
      { rewrite map_map. erewrite map_ext; [apply map_id|]. now intros [u []]. }
      assert (LL : zlen (ents x) <= 2^60) by (apply Permutation_length in PM; unfold zlen in *; lia).
      destruct (into_codes (eqb k) (hash k) KO _ (fun u => (u, tt)) _ _ (fun d u => add (eqb k) (hash k) d u) (fun _ _ => eq_refl)
         _ _ Hl t0 [] R0) as (bs & t' & E & C & R'); rewrite ?EM; auto.
      { apply (wf_keys_uniq (eqb k) (hash k) x W). }
      rewrite EM in R'. cbn [app] in R'. eexists; exists t'. rewrite E. split; [reflexivity|]. split.
      * eapply codes_bind; [apply read_int; exact I1|]. eapply codes_bind; [apply read_int; exact I2|].
        eapply codes_ext; [|exact C]. intros i. rewrite E0. cbn [bind].
        rewrite (wf_sz _ _ _ W). unfold zlen. now rewrite map_length, Nat2Z.id.
      * exists m. split; auto. destruct R' as [W' P']. split; auto. now rewrite P'.
Qed.
End Codec.
