(** C42-C45: strings.

    The vocabulary ([occurs], [split_left], [words], [lines], [expand], ...) is in Spec.v.  The
    hypotheses on sizes say that texts are shorter than 2^63 - 1 bytes. *)
From Coq Require Import List ZArith Lia Bool.
From Verif.Common Require Import Result Int64.
From Verif.List Require Import SliceSpec.
From Verif.Parser Require Import Escape.
From Verif.Str Require Import Model Spec Basic FindProofs SplitProofs WordProofs ReplaceProofs SearchProofs MiscProofs.
Import ListNotations.
Local Open Scope Z_scope.

Definition a_text (s : list Z) : Prop := size s < 2 ^ 63 - 1.
Definition an_int (v : Z) : Prop := - 2 ^ 63 <= v < 2 ^ 63.
Definition an_end (e : option Z) : Prop := match e with Some v => an_int v | None => True end.
Lemma an_int_in64 v : an_int v -> in64 v.
Proof. unfold an_int, in64, min64, max64. lia. Qed.
Lemma an_end_end64 e : an_end e -> end64 e.
Proof. destruct e; cbn; auto using an_int_in64. Qed.

(** ** C42: searching *)

(** [s.find(p, start, end)] is the first position of [p] in the window, or -1. *)
Theorem C42_find : forall s p start e, a_text s -> a_text p -> an_int start -> an_end e ->
  exists r, str_find s p start e = Ok r /\ first_position (occurs_within p s start e) r.
Proof. intros s p start e Hs Hp Hst He. apply find_ok; auto using an_int_in64, an_end_end64. Qed.
Print Assumptions C42_find.

(** [s.index(p, start, end)] is the same, with an exception in place of -1. *)
Theorem C42_index : forall s p start e, a_text s -> a_text p -> an_int start -> an_end e ->
  match str_index s p start e with
  | Ok r => occurs_within p s start e r /\ forall i, occurs_within p s start e i -> r <= i
  | Raise ValueError => forall i, ~ occurs_within p s start e i
  | _ => False
  end.
Proof. intros s p start e Hs Hp Hst He. apply index_ok; auto using an_int_in64, an_end_end64. Qed.
Print Assumptions C42_index.

Theorem C42_contains : forall s p, a_text s -> a_text p ->
  exists r, str_contains s p = Ok r /\ (r = true <-> exists i, occurs p s i).
Proof. intros s p Hs Hp. now apply contains_ok. Qed.
Print Assumptions C42_contains.

(** [s.count(p, start, end)]: the cuts that splitting the window at [p] makes; for the empty
    [p] the places between bytes. *)
Theorem C42_count : forall s p start e, a_text s -> a_text p -> an_int start -> an_end e ->
  let a := window_start (size s) start in
  let b := window_end (size s) e in
  exists r, str_count s p start e = Ok r /\
    if size p =? 0 then r = (if a <=? b then b - a + 1 else 0)
    else exists l, split_left p (-1) (between a b s) l /\ r = size (map (fun _ => 0) l) - 1.
Proof.
  intros s p start e Hs Hp Hst He a b.
  destruct (count_ok s p start e) as (r & C & R); auto using an_int_in64, an_end_end64.
  exists r. split; auto. change (size p) with (len p). destruct (len p =? 0); auto.
  destruct R as (l & S & ->). exists l. split; auto. unfold size. now rewrite map_length.
Qed.
Print Assumptions C42_count.

(** [s.rfind(p, start, end)] is the last position.  [_partial]: for patterns of at least two
    bytes only when the number of candidate positions in the window leaves a remainder below
    10 modulo 16; see the refutations below. *)
Theorem C42_rfind_partial : forall s p start e, a_text s -> a_text p -> an_int start -> an_end e ->
  let w := between (window_start (size s) start) (window_end (size s) e) s in
  size p <= 1 \/ (size w - size p + 1) mod 16 < 10 ->
  exists r, str_rfind s p start e = Ok r /\ last_position (occurs_within p s start e) r.
Proof.
  intros s p start e Hs Hp Hst He w H. apply rfind_ok; auto using an_int_in64, an_end_end64.
  unfold rfind_fits. change (sub s (window_start (len s) start) (window_end (len s) e)) with w.
  apply orb_true_iff. destruct H as [H|H]; [left|right]; rewrite ?Z.leb_le, ?Z.ltb_lt; exact H.
Qed.
Print Assumptions C42_rfind_partial.
Theorem C42_rindex_partial : forall s p start e, a_text s -> a_text p -> an_int start -> an_end e ->
  let w := between (window_start (size s) start) (window_end (size s) e) s in
  size p <= 1 \/ (size w - size p + 1) mod 16 < 10 ->
  match str_rindex s p start e with
  | Ok r => occurs_within p s start e r /\ forall i, occurs_within p s start e i -> i <= r
  | Raise ValueError => forall i, ~ occurs_within p s start e i
  | _ => False
  end.
Proof.
  intros s p start e Hs Hp Hst He w H. apply rindex_ok; auto using an_int_in64, an_end_end64.
  unfold rfind_fits. change (sub s (window_start (len s) start) (window_end (len s) e)) with w.
  apply orb_true_iff. destruct H as [H|H]; [left|right]; rewrite ?Z.leb_le, ?Z.ltb_lt; exact H.
Qed.
Print Assumptions C42_rindex_partial.

(** "abcdefghijklmnopqrstuvwxyz12" contains "ab", and [rfind] says it does not. *)
Definition misses_text : list Z := map (fun i => 97 + Z.of_nat i) (seq 0 26) ++ [49; 50].
Theorem C42_rfind_misses_refuted :
  str_rfind misses_text [97; 98] 0 None = Ok (-1) /\ occurs [97; 98] misses_text 0.
Proof. split; [vm_compute; reflexivity|]. exists [], (skipn 2 misses_text). split; reflexivity. Qed.
Print Assumptions C42_rfind_misses_refuted.
(** "hello world".rfind("zz") reads memory outside the string. *)
Theorem C42_rfind_reads_outside_refuted :
  str_rfind [104; 101; 108; 108; 111; 32; 119; 111; 114; 108; 100] [122; 122] 0 None = Undef.
Proof. vm_compute. reflexivity. Qed.
Print Assumptions C42_rfind_reads_outside_refuted.

(** [s.startswith(p, start, end)]: [p] is at the start of the window.  [_partial]: not for a
    [start] before the beginning, an [end] before the beginning, or two negative bounds. *)
Definition affix_range (n start : Z) (e : option Z) : Prop :=
  (0 <= start /\ match e with Some v => - n <= v | None => True end) \/
  (- n <= start < 0 /\ match e with Some v => 0 <= v | None => True end).
Theorem C42_startswith_partial : forall s p start e, a_text s -> a_text p -> an_int start -> an_end e ->
  affix_range (size s) start e ->
  exists r, str_startswith s p start e = Ok r /\
    (r = true <-> occurs_within p s start e (window_start (size s) start)).
Proof. intros s p start e Hs Hp Hst He Ha. apply startswith_ok; auto using an_int_in64, an_end_end64. Qed.
Print Assumptions C42_startswith_partial.
Theorem C42_endswith_partial : forall s p start e, a_text s -> a_text p -> an_int start -> an_end e ->
  affix_range (size s) start e ->
  exists r, str_endswith s p start e = Ok r /\
    (r = true <-> occurs_within p s start e (window_end (size s) e - size p)).
Proof. intros s p start e Hs Hp Hst He Ha. apply endswith_ok; auto using an_int_in64, an_end_end64. Qed.
Print Assumptions C42_endswith_partial.
(** "abc".startswith("a", -4) reads before the string; so does "abc".startswith("c", -1, -1);
    "abc".startswith("", 0, -10) is False although the empty text is everywhere. *)
Theorem C42_startswith_refuted :
  str_startswith [97; 98; 99] [97] (-4) None = Undef /\
  str_startswith [97; 98; 99] [99] (-1) (Some (-1)) = Undef /\
  str_startswith [97; 98; 99] [] 0 (Some (-10)) = Ok false /\
  occurs_within [] [97; 98; 99] 0 (Some (-10)) 0.
Proof.
  split; [vm_compute; reflexivity|]. split; [vm_compute; reflexivity|]. split; [vm_compute; reflexivity|].
  split; [exists [], [97; 98; 99]; auto|]. vm_compute. split; discriminate.
Qed.
Print Assumptions C42_startswith_refuted.
(** "abc".endswith("ab", -2, -1) is True although the window is "b";
    "abc".endswith("abcd", -10) reads before the string. *)
Theorem C42_endswith_refuted :
  (str_endswith [97; 98; 99] [97; 98] (-2) (Some (-1)) = Ok true /\
   ~ occurs_within [97; 98] [97; 98; 99] (-2) (Some (-1)) (window_end 3 (Some (-1)) - 2)) /\
  str_endswith [97; 98; 99] [97; 98; 99; 100] (-10) None = Undef.
Proof.
  split; [split|]; [vm_compute; reflexivity| |vm_compute; reflexivity].
  intros (_ & H & _). vm_compute in H. congruence.
Qed.
Print Assumptions C42_endswith_refuted.

Example C42_ex_find : str_find [97; 98; 97; 98] [97; 98] (-3) None = Ok 2.
Proof. vm_compute. reflexivity. Qed.
Example C42_ex_block : (* found in the second block of sixteen, and in the rest *)
  str_find (repeat 120 20 ++ [97; 98; 99] ++ repeat 120 30) [97; 98; 99] 0 None = Ok 20 /\
  str_find (repeat 120 38 ++ [97; 98; 99]) [97; 98; 99] 0 None = Ok 38.
Proof. vm_compute. auto. Qed.
Example C42_ex_hyps : a_text [97; 98] /\ an_int (-3) /\ an_end None /\ affix_range 2 (-1) None.
Proof. unfold a_text, an_int, an_end, affix_range. cbn. repeat split; try lia. Qed.
Example C42_ex_rfind : str_rfind [97; 98; 97; 98] [97; 98] 0 None = Ok 2.
Proof. vm_compute. reflexivity. Qed.
Example C42_ex_count : str_count [97; 97; 97; 97; 97] [97; 97] 0 None = Ok 2.
Proof. vm_compute. reflexivity. Qed.

(** ** C43: splitting, joining, replacing, stripping *)

(** [s.split(sep, m)] cuts from the left at most [m] times. *)
Theorem C43_split : forall s sep m, a_text s ->
  if size sep =? 0 then str_split s (Some sep) m = Raise ValueError
  else exists l, str_split s (Some sep) m = Ok l /\ split_left sep m s l.
Proof. intros. now apply str_split_ok. Qed.
Print Assumptions C43_split.
(** The pieces are determined, and joining them gives the text back. *)
Theorem C43_split_pieces : forall sep m s l, split_left sep m s l ->
  join sep l = s /\ forall l', split_left sep m s l' -> l' = l.
Proof. intros sep m s l H. split; [eapply join_split_left; eauto|]. intros l' H'. symmetry. eapply split_left_fun; eauto. Qed.
Print Assumptions C43_split_pieces.

(** [s.rsplit(sep, m)] cuts from the right.  [_partial]: for separators of at least two bytes
    only when the text is at most eight bytes longer (the search is [rfind]'s). *)
Theorem C43_rsplit_partial : forall s sep m, a_text s -> size sep <= 1 \/ size s < size sep + 9 ->
  if size sep =? 0 then str_rsplit s (Some sep) m = Raise ValueError
  else exists l, str_rsplit s (Some sep) m = Ok l /\ split_right sep m s l.
Proof. intros. now apply str_rsplit_ok. Qed.
Print Assumptions C43_rsplit_partial.
Theorem C43_rsplit_pieces : forall sep m s l, split_right sep m s l ->
  join sep l = s /\ forall l', split_right sep m s l' -> l' = l.
Proof. intros sep m s l H. split; [eapply join_split_right; eauto|]. intros l' H'. symmetry. eapply split_right_fun; eauto. Qed.
Print Assumptions C43_rsplit_pieces.
(** "hello world".rsplit("zz") reads outside the string, and the text above is not cut. *)
Theorem C43_rsplit_refuted :
  str_rsplit [104; 101; 108; 108; 111; 32; 119; 111; 114; 108; 100] (Some [122; 122]) (-1) = Undef /\
  str_rsplit misses_text (Some [97; 98]) (-1) = Ok [misses_text].
Proof. split; vm_compute; reflexivity. Qed.
Print Assumptions C43_rsplit_refuted.

(** [s.split(None, m)] and [s.rsplit(None, m)] give the words. *)
Theorem C43_split_words : forall s m, a_text s -> exists ws, str_split s None m = Ok ws /\ words m s ws.
Proof. intros. now apply split_words_ok. Qed.
Print Assumptions C43_split_words.
Theorem C43_rsplit_words : forall s m, a_text s -> exists ws, str_rsplit s None m = Ok ws /\ rwords m s ws.
Proof. intros. now apply rsplit_words_ok. Qed.
Print Assumptions C43_rsplit_words.

(** [s.splitlines(keepends)] *)
Theorem C43_splitlines : forall s keep, exists ls, str_splitlines s keep = Ok ls /\ lines keep s ls.
Proof. intros. apply splitlines_ok. Qed.
Print Assumptions C43_splitlines.
(** Kept line ends: the lines together are the text. *)
Theorem C43_lines_kept : forall s ls, lines true s ls -> concat ls = s.
Proof.
  induction 1 as [|s H1 H2|s e r l H1 H2 H3 IH]; cbn [concat]; rewrite ?app_nil_r; auto.
  now rewrite IH, <- app_assoc.
Qed.
Print Assumptions C43_lines_kept.

(** [s.partition(sep)]: around the first occurrence, or everything on the left. *)
Theorem C43_partition : forall s sep,
  if size sep =? 0 then str_partition s sep = Raise ValueError
  else exists a m b, str_partition s sep = Ok (a, m, b) /\
    ((m = [] /\ a = s /\ b = [] /\ forall i, ~ occurs sep s i) \/
     (m = sep /\ s = a ++ sep ++ b /\ forall i, occurs sep s i -> size a <= i)).
Proof. intros. apply partition_ok. Qed.
Print Assumptions C43_partition.
Theorem C43_rpartition_partial : forall s sep, size sep <= 1 \/ (size s - size sep + 1) mod 16 < 10 ->
  if size sep =? 0 then str_rpartition s sep = Raise ValueError
  else exists a m b, str_rpartition s sep = Ok (a, m, b) /\
    ((m = [] /\ a = [] /\ b = s /\ forall i, ~ occurs sep s i) \/
     (m = sep /\ s = a ++ sep ++ b /\ forall i, occurs sep s i -> i <= size a)).
Proof.
  intros s sep H. apply rpartition_ok. unfold rfind_fits. apply orb_true_iff.
  destruct H as [H|H]; [left|right]; rewrite ?Z.leb_le, ?Z.ltb_lt; exact H.
Qed.
Print Assumptions C43_rpartition_partial.

(** [sep.join(l)] of a list, and of a generator. *)
Theorem C43_join : forall sep l, str_join sep l = Ok (join sep l).
Proof. intros. apply join_ok. Qed.
Print Assumptions C43_join.
Theorem C43_join_generator : forall sep l, size (join sep l) <= 2 ^ 62 -> str_join_gen sep l = Ok (join sep l).
Proof. intros. now apply join_gen_ok. Qed.
Print Assumptions C43_join_generator.

(** [s.replace(old, new, m)]: split at [old], join with [new]; for the empty [old] insert
    [new] before each byte and at the end.  A result of 2^63 bytes or more is an error. *)
Theorem C43_replace : forall s old new m, a_text s -> size old <> 0 ->
  exists l, split_left old m s l /\
    str_replace s old new m = if size (join new l) <? 2 ^ 63 then Ok (join new l) else Raise OverflowError.
Proof.
  intros s old new m Hs H. pose proof (replace_ok s old new m Hs) as R.
  change (len old) with (size old) in R. replace (size old =? 0) with false in R by lia.
  destruct R as (l & S & R). exists l. split; auto. rewrite R. unfold fits. change (len (join new l)) with (size (join new l)).
  unfold MAX, max64. now replace (size (join new l) <=? 2 ^ 63 - 1) with (size (join new l) <? 2 ^ 63) by lia.
Qed.
Print Assumptions C43_replace.
Theorem C43_replace_empty : forall s new m, a_text s ->
  str_replace s [] new m =
    if size (insert_before new m s) <? 2 ^ 63 then Ok (insert_before new m s) else Raise OverflowError.
Proof.
  intros s new m Hs. pose proof (replace_ok s [] new m Hs) as R. cbn [len length Z.of_nat Z.eqb] in R. rewrite R.
  unfold fits, MAX, max64. change (len (insert_before new m s)) with (size (insert_before new m s)).
  now replace (size (insert_before new m s) <=? 2 ^ 63 - 1) with (size (insert_before new m s) <? 2 ^ 63) by lia.
Qed.
Print Assumptions C43_replace_empty.

(** [lstrip], [rstrip], [strip]: the bytes of [chars], or white space when it is empty. *)
Definition stripped_bytes (chars : list Z) (c : Z) : Prop := match chars with [] => white c | _ => In c chars end.
Theorem C43_strip : forall s chars,
  (exists r, str_lstrip s chars = Ok r /\ stripped_left (stripped_bytes chars) s r) /\
  (exists r, str_rstrip s chars = Ok r /\ stripped_right (stripped_bytes chars) s r) /\
  (exists t r, str_strip s chars = Ok r /\ stripped_left (stripped_bytes chars) s t /\ stripped_right (stripped_bytes chars) t r).
Proof.
  intros s chars. split; [|split].
  - exact (lstrip_ok s chars).
  - exact (rstrip_ok s chars).
  - exact (strip_ok s chars).
Qed.
Print Assumptions C43_strip.

Example C43_ex_split : str_split [97; 44; 98; 44; 44; 99] (Some [44]) 2 = Ok [[97]; [98]; [44; 99]].
Proof. vm_compute. reflexivity. Qed.
Example C43_ex_split2 : str_split [97; 44; 44; 98] (Some [44; 44]) (-1) = Ok [[97]; [98]].
Proof. vm_compute. reflexivity. Qed.
Example C43_ex_words : str_split [32; 97; 32; 32; 98; 32; 99; 32] None 2 = Ok [[97]; [98]; [99; 32]].
Proof. vm_compute. reflexivity. Qed.
Example C43_ex_lines : str_splitlines [97; 13; 10; 98; 10; 10] true = Ok [[97; 13; 10]; [98; 10]; [10]].
Proof. vm_compute. reflexivity. Qed.
Example C43_ex_replace : str_replace [97; 98; 97; 98; 97] [97] [120; 121] 2 = Ok [120; 121; 98; 120; 121; 98; 97]
  /\ str_replace [97; 98] [] [45] (-1) = Ok [45; 97; 45; 98; 45]
  /\ str_replace [97; 98; 97; 98] [97; 98] [99; 100] 1 = Ok [99; 100; 97; 98]
  /\ str_replace [97; 98; 97; 98] [97; 98] [] (-1) = Ok [].
Proof. vm_compute. auto. Qed.
Example C43_ex_strip : str_strip [32; 97; 32; 98; 10] [] = Ok [97; 32; 98].
Proof. vm_compute. reflexivity. Qed.
Example C43_ex_join : str_join_gen [45] [[97]; []; [98]] = Ok [97; 45; 45; 98].
Proof. vm_compute. reflexivity. Qed.

(** ** C44: comparison, concatenation, slices, padding *)

(** The comparisons are lexicographic order on bytes, a strict total order. *)
Theorem C44_compare : forall s t,
  (str_lt s t = true <-> lex_lt s t) /\ (str_gt s t = true <-> lex_lt t s) /\
  (str_le s t = true <-> lex_lt s t \/ s = t) /\ (str_ge s t = true <-> lex_lt t s \/ s = t) /\
  (str_eq s t = true <-> s = t).
Proof. exact compare_ok. Qed.
Print Assumptions C44_compare.
Theorem C44_order : forall s t u, ~ lex_lt s s /\ (lex_lt s t -> lex_lt t u -> lex_lt s u) /\ (lex_lt s t \/ s = t \/ lex_lt t s).
Proof.
  intros s t u. split; [apply lex_irrefl|]. split; [apply lex_trans|].
  rewrite <- !cmp_lt, <- cmp_eq, (cmp_opp s t). lia.
Qed.
Print Assumptions C44_order.

Theorem C44_add : forall s t, str_add s t = Ok (s ++ t).
Proof. exact add_ok. Qed.
Print Assumptions C44_add.

(** [s * x].  [_partial]: not for a negative [x]. *)
Theorem C44_mul_partial : forall s x, 0 <= x -> x * size s < 2 ^ 63 ->
  str_mul s x = Ok (concat (repeat s (Z.to_nat x))).
Proof. intros s x H1 H2. apply mul_ok; auto. change (len s) with (size s). unfold MAX, max64. lia. Qed.
Print Assumptions C44_mul_partial.
(** "ab" * -1 is not the empty string: the code makes a string with a negative length. *)
Theorem C44_mul_negative_refuted : str_mul [97; 98] (-1) <> Ok [].
Proof. vm_compute. discriminate. Qed.
Print Assumptions C44_mul_negative_refuted.

Theorem C44_item : forall s i, a_text s -> an_int i ->
  str_getitem s i = if (- size s <=? i) && (i <? size s) then Ok [byte s (if i <? 0 then i + size s else i)]
                    else Raise IndexError.
Proof. intros s i Hs Hi. apply getitem_ok; auto using an_int_in64. Qed.
Print Assumptions C44_item.
(** [s[i:j:k]]: the bytes at the positions that Python's definition of slices selects. *)
Definition slice_ints (sl : slice) : Prop := an_end (sl_start sl) /\ an_end (sl_stop sl) /\ an_end (sl_step sl).
Theorem C44_slice : forall s sl, size s <= 2 ^ 62 -> slice_ints sl ->
  str_slice s sl = if py_step sl =? 0 then Raise ValueError else Ok (map (byte s) (py_positions (size s) sl)).
Proof.
  intros s sl Hs (S1 & S2 & S3). apply slice_str_ok; auto.
  split; [|split]; intros x E; apply an_int_in64.
  - rewrite E in S1. exact S1.
  - rewrite E in S2. exact S2.
  - rewrite E in S3. exact S3.
Qed.
Print Assumptions C44_slice.

(** [ljust], [rjust], [center], [zfill] *)
Theorem C44_pad : forall s width c, a_text s -> an_int width ->
  let missing := Z.to_nat (width - size s) in
  let half := Z.to_nat ((width - size s) / 2) in
  str_ljust s width [c] = Ok (s ++ repeat c missing) /\
  str_rjust s width [c] = Ok (repeat c missing ++ s) /\
  str_center s width [c] = Ok (repeat c half ++ s ++ repeat c (missing - half)).
Proof.
  intros s width c Hs Hw missing half. repeat split.
  - apply ljust_ok; auto using an_int_in64.
  - apply rjust_ok; auto using an_int_in64.
  - apply center_ok; auto using an_int_in64.
Qed.
Print Assumptions C44_pad.
Theorem C44_pad_fill : forall s width fill, size fill <> 1 ->
  str_ljust s width fill = Raise ValueError /\ str_rjust s width fill = Raise ValueError /\
  str_center s width fill = Raise ValueError.
Proof. exact pad_fill_ok. Qed.
Print Assumptions C44_pad_fill.
Theorem C44_zfill : forall s width, a_text s -> an_int width ->
  str_zfill s width = Ok (zeros_after_sign (Z.to_nat (width - size s)) s).
Proof. intros s width Hs Hw. apply zfill_ok; auto using an_int_in64. Qed.
Print Assumptions C44_zfill.

Theorem C44_expandtabs : forall s tab, an_int tab ->
  str_expandtabs s tab = if size (expand tab 0 s) <? 2 ^ 63 then Ok (expand tab 0 s) else Raise OverflowError.
Proof.
  intros s tab Ht. rewrite expandtabs_ok by auto using an_int_in64. change (len (expand tab 0 s)) with (size (expand tab 0 s)).
  unfold MAX, max64. now replace (size (expand tab 0 s) <=? 2 ^ 63 - 1) with (size (expand tab 0 s) <? 2 ^ 63) by lia.
Qed.
Print Assumptions C44_expandtabs.
Theorem C44_translate : forall s (map : Z -> option (option (list Z))),
  str_translate s map = Ok (flat_map (fun c => match map c with None => [c] | Some None => [] | Some (Some v) => v end) s).
Proof. intros. apply translate_ok. Qed.
Print Assumptions C44_translate.

Example C44_ex_lt : str_lt [97; 98] [97; 98; 99] = true /\ str_lt [255] [97] = false.
Proof. vm_compute. auto. Qed.
Example C44_ex_slice : str_slice [97; 98; 99; 100] (Slice (Some (-1)) None (Some (-2))) = Ok [100; 98].
Proof. vm_compute. reflexivity. Qed.
Example C44_ex_pad : str_center [97; 98] 5 [45] = Ok [45; 97; 98; 45; 45] /\ str_zfill [45; 53] 4 = Ok [45; 48; 48; 53].
Proof. vm_compute. auto. Qed.
Example C44_ex_tabs : str_expandtabs [97; 9; 98; 10; 9; 99] 4 = Ok [97; 32; 32; 32; 98; 10; 32; 32; 32; 32; 99].
Proof. vm_compute. reflexivity. Qed.
Example C44_ex_mul : str_mul [97; 98] 2 = Ok [97; 98; 97; 98].
Proof. vm_compute. reflexivity. Qed.

(** ** C45: [repr] *)

(** The representation of any text is a string literal, in printable ASCII, that the parser
    reads back as the same text. *)
Theorem C45_repr_round_trip : forall s, Forall (fun c => 0 <= c < 256) s -> exists q body,
  str_repr s = [q] ++ body ++ [q] /\ (q = 34 \/ q = 39) /\ literal_body q body /\
  Forall (fun d => 32 <= d <= 126) body /\ unescape body = Ok s.
Proof. exact repr_ok. Qed.
Print Assumptions C45_repr_round_trip.
(** So different texts have different representations. *)
Theorem C45_repr_injective : forall s t, Forall (fun c => 0 <= c < 256) s -> Forall (fun c => 0 <= c < 256) t ->
  str_repr s = str_repr t -> s = t.
Proof.
  intros s t Hs Ht E.
  destruct (repr_ok s Hs) as (q & b & E1 & _ & _ & _ & U1).
  destruct (repr_ok t Ht) as (q' & b' & E2 & _ & _ & _ & U2).
  rewrite E1, E2 in E. injection E as -> E. apply app_inj_tail in E. destruct E as [-> _]. congruence.
Qed.
Print Assumptions C45_repr_injective.
Example C45_ex : str_repr [39; 10; 200; 92] = [34; 39; 92; 110; 92; 120; 99; 56; 92; 92; 34].
Proof. vm_compute. reflexivity. Qed.
