(** Conversion of an int to a float gives zero only for zero. *)
From Coq Require Import List ZArith Lia Bool ZifyBool Floats.SpecFloat.
From Verif.Common Require Import Result Int64.
From Verif.Ir Require Import Num.
Local Open Scope Z_scope.

Lemma digits_bound p : 2 ^ (Z.pos (digits2_pos p) - 1) <= Z.pos p < 2 ^ Z.pos (digits2_pos p).
Proof.
  induction p as [p IH|p IH|]; cbn [digits2_pos]; [| |cbn; lia].
  all: set (d := Z.pos (digits2_pos p)) in *; assert (0 < d) by (subst d; lia).
  all: replace (Z.pos (Pos.succ (digits2_pos p))) with (d + 1) by (subst d; lia).
  all: replace (d + 1 - 1) with (d - 1 + 1) by lia; rewrite !Z.pow_add_r, !Z.pow_1_r by lia; lia.
Qed.

Lemma shr_1_m m : 0 <= shr_m m -> shr_m (shr_1 m) = shr_m m / 2.
Proof. destruct m as [[|[p|p|]|p] r s]; cbn [shr_m shr_1]; intros H; try reflexivity; try lia.
  - apply Z.div_unique with (r := 1); lia.
  - apply Z.div_unique with (r := 0); lia.
 Qed.
Lemma iter_shr p : forall m, 0 <= shr_m m -> shr_m (iter_pos shr_1 p m) = shr_m m / 2 ^ Z.pos p.
Proof.
  induction p as [p IH|p IH|]; intros m Hm; cbn [iter_pos].
  - pose proof (shr_1_m m Hm) as E. assert (0 <= shr_m (shr_1 m)) by (rewrite E; apply Z.div_pos; lia).
    assert (0 <= shr_m (iter_pos shr_1 p (shr_1 m))) by (rewrite IH by auto; apply Z.div_pos; lia).
    rewrite !IH, E by auto. rewrite !Z.div_div by lia. f_equal.
    replace (Z.pos p~1) with (1 + Z.pos p + Z.pos p) by lia. rewrite !Z.pow_add_r by lia. lia.
  - assert (0 <= shr_m (iter_pos shr_1 p m)) by (rewrite IH by auto; apply Z.div_pos; lia).
    rewrite !IH by auto. rewrite !Z.div_div by lia. f_equal.
    replace (Z.pos p~0) with (Z.pos p + Z.pos p) by lia. rewrite !Z.pow_add_r by lia. lia.
  - rewrite shr_1_m by auto. reflexivity.
Qed.

Lemma shr_record_m m l : shr_m (shr_record_of_loc m l) = m.
Proof. destruct l as [|[]]; reflexivity. Qed.

(** Shifting a positive mantissa to 53 bits keeps it positive. *)
Lemma shr_fexp_pos m e l : -1074 <= e -> 0 < m ->
  let '(r, e') := shr_fexp prec emax m e l in 0 < shr_m r /\ -1074 <= e'.
Proof.
  intros He Hm. unfold shr_fexp, shr. destruct (fexp prec emax (Zdigits2 m + e) - e) as [|p|p] eqn:E.
  - rewrite shr_record_m. auto.
  - split; [|lia]. rewrite iter_shr by (rewrite shr_record_m; lia). rewrite shr_record_m.
    destruct m as [|m|m]; try lia. cbn [Zdigits2] in E.
    unfold fexp, emin, prec, emax in E. pose proof (digits_bound m) as D.
    assert (L : Z.pos p <= Z.pos (digits2_pos m) - 1) by lia.
    apply Z.div_str_pos. split; [lia|]. etransitivity; [apply Z.pow_le_mono_r; [lia|exact L]|lia].
  - rewrite shr_record_m. auto.
Qed.
Lemma rne_pos m l : 0 < m -> 0 < round_nearest_even m l.
Proof. intros H. unfold round_nearest_even. destruct l as [|[]]; try destruct (Z.even m); lia. Qed.
Lemma round_aux_nz m e l s : -1074 <= e -> 0 < m -> forall b, binary_round_aux prec emax s m e l <> S754_zero b.
Proof.
  intros He Hm b. unfold binary_round_aux.
  pose proof (shr_fexp_pos m e l He Hm) as H1. destruct (shr_fexp prec emax m e l) as [r1 e1]. destruct H1 as [H1 He1].
  pose proof (shr_fexp_pos _ e1 loc_Exact He1 (rne_pos (shr_m r1) (loc_of_shr_record r1) H1)) as H2.
  destruct (shr_fexp prec emax (round_nearest_even _ _) e1 loc_Exact) as [r2 e2]. destruct H2 as [H2 _].
  destruct (shr_m r2); try lia. destruct (_ <=? _); discriminate.
Qed.
Lemma i2f_nonzero z : z <> 0 -> forall b, i2f z <> S754_zero b.
Proof.
  intros Hz b. unfold i2f, binary_normalize.
  assert (R : forall p s, binary_round prec emax s p 0 <> S754_zero b).
  { intros p s. unfold binary_round. unfold shl_align.
    destruct (fexp prec emax (Z.pos (digits2_pos p) + 0) - 0) as [|d|d] eqn:E; apply round_aux_nz; try lia.
    unfold fexp, emin, prec, emax in *. lia. }
  destruct z; [congruence| |]; apply R.
Qed.
Lemma i2f_zero z : foeq (i2f z) fzero = (z =? 0).
Proof.
  destruct (Z.eqb_spec z 0) as [->|N]; [reflexivity|].
  pose proof (i2f_nonzero z N) as H. unfold foeq, SFeqb, SFcompare, fzero. destruct (i2f z) as [b|[]| |[] m e]; auto. now destruct (H b).
Qed.
