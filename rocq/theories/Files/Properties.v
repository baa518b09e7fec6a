(** Properties of reading compressed files by lines (C78). *)
From Coq Require Import List ZArith Bool Lia.
From Verif.Common Require Import Result Arr.
From Verif.Files Require Import Spec Model Proofs.
Import ListNotations.
Local Open Scope Z_scope.

(** Every text has exactly one division into lines. *)
Theorem C78_lines : forall text, exists ls t, splits text ls t /\ forall ls' t', splits text ls' t' -> ls' = ls /\ t' = t.
Proof.
  intros text. destruct (splits_exists text) as (ls & t & H). exists ls, t. split; [assumption|].
  intros ls' t' H'. destruct (splits_unique _ _ _ H _ _ H'). now split.
Qed.

(** C78: a loop over a bzip2 file gives its lines in order and then ends with everything read; if
    the file is damaged, it gives the complete lines before the damage and then raises. No byte is
    read or written outside the buffer, which would be [Undef]. *)
Theorem C78_bz_iter : forall text (damaged : bool) ls t fuel, splits text ls t -> (length text + 2 < fuel)%nat ->
  if damaged then iter bz_getline false fuel (opened text damaged) = (ls, Raise OtherError)
  else exists f, iter bz_getline false fuel (opened text damaged) = (all_lines ls t, Ok f) /\ rest f = [].
Proof.
  intros text damaged ls t fuel H F.
  assert (R := iter_ok bz_getline bz_fine (fun _ => True) (fun _ => True) bz_HL bz_HT bz_HE false text ls t H (opened text damaged) fuel eq_refl (or_introl eq_refl) I
    (proj2 (Forall_forall _ _) (fun _ _ => I)) F).
  cbn [bad opened] in R. rewrite !(map_ext (shown false) (fun l => l)), !map_id in R by reflexivity. exact R.
Qed.
(** C78: [read()] gives the whole text. *)
Theorem C78_bz_read : forall text (damaged : bool) fuel, (length text + 2 < fuel)%nat ->
  read_all bz_getline fuel (opened text damaged) = if damaged then Raise OtherError else Ok text.
Proof.
  intros text damaged fuel F. destruct (splits_exists text) as (ls & t & H).
  exact (read_ok bz_getline bz_fine (fun _ => True) (fun _ => True) bz_HL bz_HT bz_HE text ls t (opened text damaged) fuel H eq_refl (or_introl eq_refl) I
    (proj2 (Forall_forall _ _) (fun _ _ => I)) F).
Qed.
(** C78: the loop without newlines gives each line without its newline. *)
Theorem C78_bz_trim : forall text (damaged : bool) ls t fuel, splits text ls t -> (length text + 2 < fuel)%nat ->
  fst (iter bz_getline true fuel (opened text damaged)) = map without_newline (if damaged then ls else all_lines ls t).
Proof.
  intros text damaged ls t fuel H F.
  assert (R := iter_ok bz_getline bz_fine (fun _ => True) (fun _ => True) bz_HL bz_HT bz_HE true text ls t H (opened text damaged) fuel eq_refl (or_introl eq_refl) I
    (proj2 (Forall_forall _ _) (fun _ _ => I)) F).
  cbn [bad opened] in R. destruct damaged; [rewrite R; reflexivity|]. destruct R as (f & -> & _). reflexivity.
Qed.

(** C78: the same for gzip files without zero bytes and without lines of a gigabyte or more.
    Full statement: the same for every text; refuted below. *)
Definition gz_readable (text : list Z) (ls : list (list Z)) (t : list Z) : Prop :=
  ~ In 0 text /\ Forall (fun l => zlen l < 2 ^ 30) (all_lines ls t).
Lemma gz_conditions text ls t : splits text ls t -> gz_readable text ls t -> gz_tok t /\ Forall (fun l => gz_lok (removelast l)) ls.
Proof.
  intros H. induction H as [t Nt|l r ls t Nl Sr IH]; intros (Z0 & B).
  - split; [|constructor]. split.
    + apply Forall_forall. intros x Hx ->. contradiction.
    + destruct t; [reflexivity|]. now inversion B.
  - assert (W : all_lines ((l ++ [10]) :: ls) t = (l ++ [10]) :: all_lines ls t) by (destruct t; reflexivity).
    rewrite W in B. inversion B as [|? ? B1 B2]; subst. destruct IH as (A & C).
    { split; [|assumption]. intros X. apply Z0. apply in_app_iff. right. now right. }
    split; [assumption|]. constructor; [|assumption]. rewrite removelast_last. rewrite zlen_snoc in B1. split; [|assumption].
    apply Forall_forall. intros x Hx ->. apply Z0. apply in_app_iff. now left.
Qed.
Theorem C78_gz_iter_partial : forall text (damaged : bool) ls t fuel, splits text ls t -> gz_readable text ls t -> (length text + 2 < fuel)%nat ->
  if damaged then iter gz_getline false fuel (opened text damaged) = (ls, Raise OtherError)
  else exists f, iter gz_getline false fuel (opened text damaged) = (all_lines ls t, Ok f) /\ rest f = [].
Proof.
  intros text damaged ls t fuel H G F. destruct (gz_conditions text ls t H G) as (T & A).
  assert (R := iter_ok gz_getline gz_fine gz_lok gz_tok gz_HL gz_HT gz_HE false text ls t H (opened text damaged) fuel eq_refl (or_introl eq_refl) T A F).
  cbn [bad opened] in R. rewrite !(map_ext (shown false) (fun l => l)), !map_id in R by reflexivity. exact R.
Qed.
Theorem C78_gz_read_partial : forall text (damaged : bool) ls t fuel, splits text ls t -> gz_readable text ls t -> (length text + 2 < fuel)%nat ->
  read_all gz_getline fuel (opened text damaged) = if damaged then Raise OtherError else Ok text.
Proof.
  intros text damaged ls t fuel H G F. destruct (gz_conditions text ls t H G) as (T & A).
  exact (read_ok gz_getline gz_fine gz_lok gz_tok gz_HL gz_HT gz_HE text ls t (opened text damaged) fuel H eq_refl (or_introl eq_refl) T A F).
Qed.
Theorem C78_gz_trim_partial : forall text (damaged : bool) ls t fuel, splits text ls t -> gz_readable text ls t -> (length text + 2 < fuel)%nat ->
  fst (iter gz_getline true fuel (opened text damaged)) = map without_newline (if damaged then ls else all_lines ls t).
Proof.
  intros text damaged ls t fuel H G F. destruct (gz_conditions text ls t H G) as (T & A).
  assert (R := iter_ok gz_getline gz_fine gz_lok gz_tok gz_HL gz_HT gz_HE true text ls t H (opened text damaged) fuel eq_refl (or_introl eq_refl) T A F).
  cbn [bad opened] in R. destruct damaged; [rewrite R; reflexivity|]. destruct R as (f & -> & _). reflexivity.
Qed.

(** A case: a line longer than the first buffer, an empty line and an unfinished one. *)
Example C78_case : let text := repeat 97 130 ++ [10; 10; 98] in
  splits text [repeat 97 130 ++ [10]; [10]] [98] /\ gz_readable text [repeat 97 130 ++ [10]; [10]] [98] /\
  fst (iter gz_getline false 140 (opened text false)) = [repeat 97 130 ++ [10]; [10]; [98]] /\
  iter bz_getline false 140 (opened text true) = ([repeat 97 130 ++ [10]; [10]], Raise OtherError).
Proof.
  cbv zeta. split; [|split; [|split; vm_compute; reflexivity]].
  - apply s_line; [intros H; apply repeat_spec in H; discriminate|]. apply (s_line [] [98] [] [98]); [intros []|]. constructor. intros [H|[]]; discriminate.
  - split; [|repeat constructor]. intros H. apply in_app_iff in H as [H|H]; [apply repeat_spec in H; discriminate|]. cbn in H. repeat (destruct H as [H|H]; [discriminate|]). destruct H.
Qed.

(** C78: a gzip file with a zero byte: memory before the buffer is read, or part of the text is lost. *)
Theorem C78_gz_zero_refuted :
  iter gz_getline false 9 (opened [0; 10] false) = ([], Undef) /\
  read_all gz_getline 9 (opened [97; 0; 98; 10; 99; 10] false) = Ok [97; 99; 10].
Proof. split; vm_compute; reflexivity. Qed.

(** C78: after a line of 2^30 bytes, the rest of a gzip file is dropped without an error. *)
Theorem C78_gz_long_refuted : forall l r, ~ In 0 l -> ~ In 10 l -> zlen (l ++ [10]) = 2 ^ 30 ->
  forall fuel, (length l < fuel)%nat -> exists f, iter gz_getline false (S fuel) (opened (l ++ 10 :: r) false) = ([l ++ [10]], Ok f) /\ rest f = r.
Proof.
  intros l r Z0 N L fuel F. rewrite zlen_snoc in L. apply gz_long; try assumption. apply Forall_forall. intros x Hx ->. contradiction.
Qed.
Example C78_long_case : exists l : list Z, ~ In 0 l /\ ~ In 10 l /\ zlen (l ++ [10]) = 2 ^ 30.
Proof.
  exists (repeat 97 (Z.to_nat (2 ^ 30 - 1))). split; [|split].
  - intros H. apply repeat_spec in H. discriminate.
  - intros H. apply repeat_spec in H. discriminate.
  - rewrite zlen_snoc. unfold zlen. rewrite repeat_length. lia.
Qed.

Print Assumptions C78_lines.
Print Assumptions C78_bz_iter.
Print Assumptions C78_bz_read.
Print Assumptions C78_bz_trim.
Print Assumptions C78_gz_iter_partial.
Print Assumptions C78_gz_read_partial.
Print Assumptions C78_gz_trim_partial.
Print Assumptions C78_gz_zero_refuted.
Print Assumptions C78_gz_long_refuted.
