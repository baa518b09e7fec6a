(** [replace]: all the specialised versions compute the same text. *)
From Coq Require Import List ZArith Lia Bool.
From Verif.Common Require Import Result Int64.
From Verif.Str Require Import Model Spec Basic FindProofs SplitProofs WordProofs.
Import ListNotations.
Local Open Scope Z_scope.

(** A search that returns the first occurrence of [old]. *)
Definition finds (find : str -> res Z) (old : str) : Prop :=
  forall t, exists r, find t = Ok r /\ first_position (occurs old t) r.
Definition find_byte (c : Z) (t : str) : res Z := Ok (match memchr c t with Some i => i | None => -1 end).
Lemma finds_byte c : finds (find_byte c) [c].
Proof. intros t. eexists. split; [reflexivity|]. apply memchr_first. Qed.
Lemma finds_str old : finds (fun t => forward_find t old) old.
Proof. intros t. apply forward_find_ok. Qed.

(** ** Writing into a new buffer *)
Definition copy_body (find : str -> res Z) (new : str) (cap : Z) (s : str) (k : Z) :
  Z * Z * str -> res ((Z * Z * str) + (Z * str)) :=
  fun '(count, start, out) =>
    if 0 <? count then
      bind (slice_ s start (len s)) (fun sl => bind (find sl) (fun r =>
      if r =? -1 then Ok (inr (start, out))
      else
        bind (slice_ s start (start + r)) (fun w => bind (put cap out w) (fun out =>
        bind (put cap out new) (fun out => Ok (inl (count - 1, start + r + k, out)))))))
    else Ok (inr (start, out)).

Lemma copy_loop find old new cap s : finds find old -> 1 <= len old -> forall f c start out,
  0 <= start <= len s -> (Z.to_nat (len s - start) < f)%nat -> 0 <= c ->
  exists l, split_left old c (sub s start (len s)) l /\
    (len out + len (join new l) <= cap -> exists start' out',
      loop f (copy_body find new cap s (len old)) (c, start, out) = Ok (start', out') /\
      0 <= start' <= len s /\ out' ++ sub s start' (len s) = out ++ join new l).
Proof.
  intros Hfind Hk f. induction f as [|f IH]; intros c start out H1 H2 Hc; [lia|]. cbn [loop].
  unfold copy_body at 1. destruct (Z.ltb_spec 0 c) as [P|P].
  - rewrite slice_ok by lia. cbn [bind].
    destruct (Hfind (sub s start (len s))) as (r & -> & F). cbn [bind].
    destruct (cut_first s old start r H1 F) as [(-> & N)|(R1 & R2 & E & M)].
    + exists [sub s start (len s)]. split; [constructor; auto|]. intros _. exists start, out. auto.
    + replace (r =? -1) with false by lia. rewrite slice_ok by lia. cbn [bind].
      destruct (IH (c - 1) (start + r + len old) ((out ++ sub s start (start + r)) ++ new)) as (l & S & L); [lia|lia|lia|].
      exists (sub s start (start + r) :: l). split; [rewrite E; constructor; [lia|exact M|auto]|].
      intros Hcap. pose proof (split_left_nonempty _ _ _ _ S) as NE.
      assert (J : join new (sub s start (start + r) :: l) = sub s start (start + r) ++ new ++ join new l).
      { destruct l; [congruence|reflexivity]. }
      rewrite J, !len_app in Hcap. pose proof (len_nonneg (join new l)). pose proof (len_nonneg new).
      rewrite put_ok by lia. cbn [bind]. rewrite put_ok by (rewrite len_app; lia). cbn [bind].
      destruct L as (s' & o' & L & B & A); [rewrite !len_app; lia|].
      exists s', o'. split; auto. split; auto. rewrite A, J, <- !app_assoc. reflexivity.
  - exists [sub s start (len s)]. split; [constructor; left; lia|]. intros _. exists start, out. auto.
Qed.

(** The buffer has exactly the length of the result. *)
Lemma copy_ok find old new cap s m l body : finds find old -> 1 <= len old -> split_left old m s l ->
  (forall x, body x = copy_body find new cap s (len old) x) -> cap = len (join new l) ->
  bind (loop (fuel s) body (Z.of_nat (length l) - 1, 0, [])) (fun '(start, out) =>
    bind (slice_ s start (len s)) (fun rest => bind (put cap out rest) (fun out => full cap out)))
  = Ok (join new l).
Proof.
  intros Hfind Hk S Hb Hcap. pose proof (len_nonneg s).
  rewrite (loop_ext _ _ Hb).
  pose proof (split_left_nonempty _ _ _ _ S) as NE.
  assert (0 <= Z.of_nat (length l) - 1) by (destruct l; [congruence|cbn [length]; lia]).
  destruct (copy_loop find old new cap s Hfind Hk (fuel s) (Z.of_nat (length l) - 1) 0 []) as (l' & S' & L);
    [lia|unfold fuel, len; lia|lia|].
  rewrite sub_all in S'. apply split_left_count in S. destruct S as [S _].
  assert (l' = l) as -> by (eapply split_left_fun; eauto).
  destruct L as (s' & o' & L & B & A); [rewrite len_nil; lia|]. unfold str in *. rewrite L. cbn [bind].
  rewrite slice_ok by lia. cbn [bind].
  assert (len o' + len (sub s s' (len s)) = cap).
  { rewrite Hcap. change (join new l) with ([] ++ join new l). rewrite <- A, len_app. reflexivity. }
  rewrite put_ok by lia. cbn [bind]. rewrite full_ok by (rewrite len_app; lia). f_equal. exact A.
Qed.

Lemma put_nil cap (out w : str) {A} (k : str -> res A) :
  bind (put cap out w) k = bind (put cap out w) (fun out => bind (put cap out []) k).
Proof.
  unfold put. destruct (Z.leb_spec (len out + len w) cap); [|reflexivity]. cbn [bind].
  rewrite !len_app, len_nil. replace (len out + len w + 0 <=? cap) with true by lia. cbn [bind].
  now rewrite app_nil_r.
Qed.
Lemma put_empty cap (out new : str) {A} (k : str -> res A) :
  bind (put cap out []) (fun out => bind (put cap out new) k) = bind (put cap out new) k.
Proof.
  unfold put. rewrite len_nil. pose proof (len_nonneg new).
  destruct (Z.leb_spec (len out + 0) cap); cbn [bind].
  - now rewrite app_nil_r.
  - now replace (len out + len new <=? cap) with false by lia.
Qed.

Lemma byte_body c s start {A} (k : Z -> res A) (k0 : res A) :
  bind (slice_ s start (len s)) (fun sl => match memchr c sl with None => k0 | Some p => k p end) =
  bind (slice_ s start (len s)) (fun sl => bind (find_byte c sl) (fun r => if r =? -1 then k0 else k r)).
Proof.
  destruct (slice_ s start (len s)) as [sl| | |]; cbn [bind]; auto.
  unfold find_byte. cbn [bind]. pose proof (memchr_spec c sl) as M. destruct (memchr c sl) as [p|]; auto.
  now replace (p =? -1) with false by lia.
Qed.
Lemma slice_start s start : slice_ s start (len s) <> Undef -> slice_ s start start = Ok [].
Proof.
  unfold slice_. destruct ((0 <=? start) && (start <=? len s) && (len s <=? len s)) eqn:E; [|congruence].
  intros _. replace ((0 <=? start) && (start <=? start) && (start <=? len s)) with true by lia.
  now rewrite Z.sub_diag.
Qed.

Lemma parts_count m s old l : split_left old m s l -> 1 <= Z.of_nat (length l).
Proof. intros S. apply split_left_nonempty in S. destruct l; [congruence|cbn [length]; lia]. Qed.
Lemma parts_one m s old l : split_left old m s l -> Z.of_nat (length l) - 1 = 0 -> forall new, join new l = s.
Proof.
  intros S E new. destruct S as [m s H|m a b l Hm Hf S]; [reflexivity|].
  apply parts_count in S. cbn [length] in E. lia.
Qed.

(** ** Deleting *)
Lemma delete_char_ok s c maxcount m : 0 < maxcount -> limit maxcount m (len s) ->
  exists l, split_left [c] m s l /\ replace_delete_char s c maxcount = Ok (join [] l).
Proof.
  intros Hp Hl. destruct (countchar_ok s c maxcount m Hp Hl) as (l & S & C). exists l. split; auto.
  unfold replace_delete_char. rewrite C. cbn [bind]. pose proof (join_length [] _ _ _ _ S) as JL.
  autorewrite with len in JL. pose proof (len_nonneg (join [] l)).
  destruct (Z.eqb_spec (Z.of_nat (length l) - 1) 0) as [E|E]; [now rewrite (parts_one _ _ _ _ S E)|].
  cbv zeta. rewrite alloc_ok by lia. cbn [bind].
  apply (copy_ok (find_byte c) [c] [] (len s - (Z.of_nat (length l) - 1)) s m l); auto using finds_byte.
  - rewrite len_cons, len_nil. lia.
  - intros [[count start] out]. unfold copy_body. destruct (0 <? count); auto.
    rewrite (byte_body c s start (fun p => bind (slice_ s start (start + p)) (fun w => _)) (Ok (inr (start, out)))).
    destruct (slice_ s start (len s)) as [sl| | |]; cbn [bind]; auto.
    destruct (find_byte c sl) as [r| | |]; cbn [bind]; auto. destruct (r =? -1); auto.
    destruct (slice_ s start (start + r)) as [w| | |]; cbn [bind]; auto. apply put_nil.
  - lia.
Qed.
Lemma delete_substring_ok s old maxcount m : 1 <= len old -> 0 < maxcount -> limit maxcount m (len s) ->
  exists l, split_left old m s l /\ replace_delete_substring s old maxcount = Ok (join [] l).
Proof.
  intros Hk Hp Hl. destruct (count_max_ok s old maxcount m Hk Hp Hl) as (l & S & C). exists l. split; auto.
  unfold replace_delete_substring. rewrite C. cbn [bind]. pose proof (join_length [] _ _ _ _ S) as JL.
  autorewrite with len in JL. pose proof (len_nonneg (join [] l)).
  destruct (Z.eqb_spec (Z.of_nat (length l) - 1) 0) as [E|E]; [now rewrite (parts_one _ _ _ _ S E)|].
  cbv zeta. rewrite alloc_ok by lia. cbn [bind].
  apply (copy_ok (fun t => forward_find t old) old [] (len s - (Z.of_nat (length l) - 1) * len old) s m l); auto using finds_str.
  - intros [[count start] out]. unfold copy_body. destruct (0 <? count); auto.
    destruct (slice_ s start (len s)) as [sl| | |]; cbn [bind]; auto.
    destruct (forward_find sl old) as [r| | |]; cbn [bind]; auto. destruct (r =? -1); auto.
    destruct (slice_ s start (start + r)) as [w| | |]; cbn [bind]; auto. apply put_nil.
  - lia.
Qed.

(** ** Texts of different lengths *)
(** The result, or an error when it would be too long. *)
Definition fits (t : str) : res str := if len t <=? MAX then Ok t else Raise OverflowError.

Lemma quot_fits n count d : 0 <= n -> 0 < count -> (n / count <? d) = negb (count * d <=? n).
Proof.
  intros Hn Hc. destruct (Z.leb_spec (count * d) n) as [L|L]; cbn [negb].
  - apply Z.ltb_ge. apply Z.div_le_lower_bound; lia.
  - apply Z.ltb_lt. apply Z.div_lt_upper_bound; lia.
Qed.
Lemma replace_char_ok s c new maxcount m : len s < MAX -> 0 < maxcount -> limit maxcount m (len s) ->
  exists l, split_left [c] m s l /\ replace_char s c new maxcount = fits (join new l).
Proof.
  intros Hs Hp Hl. destruct (countchar_ok s c maxcount m Hp Hl) as (l & S & C). exists l. split; auto.
  unfold replace_char. rewrite C. cbn [bind]. pose proof (join_length new _ _ _ _ S) as JL.
  autorewrite with len in JL. pose proof (len_nonneg (join new l)). pose proof (parts_count _ _ _ _ S).
  pose proof (len_nonneg s).
  destruct (Z.eqb_spec (Z.of_nat (length l) - 1) 0) as [E|E].
  { rewrite (parts_one _ _ _ _ S E). unfold fits. now replace (len s <=? MAX) with true by lia. }
  cbv zeta. unfold MAX, max64 in Hs. rewrite sdiv_pos by (unfold MAX, max64; lia). cbn [bind].
  rewrite quot_fits by (unfold MAX, max64; lia). unfold fits.
  replace (len (join new l) <=? MAX) with ((Z.of_nat (length l) - 1) * (len new - 1) <=? MAX - len s) by lia.
  destruct ((Z.of_nat (length l) - 1) * (len new - 1) <=? MAX - len s) eqn:F; cbn [negb]; auto.
  rewrite alloc_ok by lia. cbn [bind].
  apply (copy_ok (find_byte c) [c] new (len s + (Z.of_nat (length l) - 1) * (len new - 1)) s m l); auto using finds_byte.
  - rewrite len_cons, len_nil. lia.
  - intros [[count start] out]. unfold copy_body. destruct (0 <? count); auto.
    rewrite (byte_body c s start (fun p => if p =? 0 then _ else _) (Ok (inr (start, out)))).
    destruct (slice_ s start (len s)) as [sl| | |] eqn:Es; cbn [bind]; auto.
    destruct (find_byte c sl) as [r| | |]; cbn [bind]; auto. destruct (Z.eqb_spec r (-1)); auto.
    destruct (Z.eqb_spec r 0) as [->|]; auto.
    rewrite Z.add_0_r. rewrite (slice_start s start) by congruence. cbn [bind].
    rewrite put_empty. reflexivity.
Qed.
Lemma replace_substring_ok s old new maxcount m : 1 <= len old -> len s < MAX -> 0 < maxcount -> limit maxcount m (len s) ->
  exists l, split_left old m s l /\ replace_substring s old new maxcount = fits (join new l).
Proof.
  intros Hk Hs Hp Hl. destruct (count_max_ok s old maxcount m Hk Hp Hl) as (l & S & C). exists l. split; auto.
  unfold replace_substring. rewrite C. cbn [bind]. pose proof (join_length new _ _ _ _ S) as JL.
  pose proof (len_nonneg (join new l)). pose proof (parts_count _ _ _ _ S).
  pose proof (len_nonneg s).
  destruct (Z.eqb_spec (Z.of_nat (length l) - 1) 0) as [E|E].
  { rewrite (parts_one _ _ _ _ S E). unfold fits. now replace (len s <=? MAX) with true by lia. }
  cbv zeta. unfold MAX, max64 in Hs. rewrite sdiv_pos by (unfold MAX, max64; lia). cbn [bind].
  rewrite quot_fits by (unfold MAX, max64; lia). unfold fits.
  replace (len (join new l) <=? MAX) with ((Z.of_nat (length l) - 1) * (len new - len old) <=? MAX - len s) by lia.
  destruct ((Z.of_nat (length l) - 1) * (len new - len old) <=? MAX - len s) eqn:F; cbn [negb]; auto.
  rewrite alloc_ok by lia. cbn [bind].
  apply (copy_ok (fun t => forward_find t old) old new (len s + (Z.of_nat (length l) - 1) * (len new - len old)) s m l);
    auto using finds_str.
  intros [[count start] out]. unfold copy_body. destruct (0 <? count); auto.
  destruct (slice_ s start (len s)) as [sl| | |] eqn:Es; cbn [bind]; auto.
  destruct (forward_find sl old) as [r| | |]; cbn [bind]; auto. destruct (Z.eqb_spec r (-1)); auto.
  destruct (Z.eqb_spec r 0) as [->|]; auto.
  rewrite Z.add_0_r. rewrite (slice_start s start) by congruence. cbn [bind].
  rewrite put_empty. reflexivity.
Qed.

(** ** In place *)
Definition place_body (find : str -> res Z) (new : str) (n k : Z) :
  Z * Z * str -> res ((Z * Z * str) + str) :=
  fun '(maxcount, start, buf) =>
    if 0 <? maxcount then
      bind (slice_ buf start n) (fun sl => bind (find sl) (fun r =>
      if r =? -1 then Ok (inr buf)
      else bind (overwrite buf (start + r) new) (fun buf => Ok (inl (maxcount - 1, start + (r + k), buf)))))
    else Ok (inr buf).
Lemma overwrite_ok buf i src : 0 <= i -> i + len src <= len buf ->
  overwrite buf i src = Ok (sub buf 0 i ++ src ++ sub buf (i + len src) (len buf)).
Proof.
  intros H1 H2. unfold overwrite. replace ((0 <=? i) && (i + len src <=? len buf)) with true by lia.
  f_equal. unfold sub. f_equal; [f_equal; lia|]. f_equal.
  replace (Z.to_nat (i + len src)) with (Z.to_nat i + length src)%nat by (unfold len; lia).
  symmetry. apply firstn_all2. rewrite skipn_length. unfold len in *. lia.
Qed.
Lemma place_loop find old new n : finds find old -> 1 <= len old -> len new = len old -> forall f mc start buf m,
  len buf = n -> 0 <= start <= n -> (Z.to_nat (n - start) < f)%nat -> limit mc m (n - start) ->
  exists l, split_left old m (sub buf start n) l /\
    loop f (place_body find new n (len old)) (mc, start, buf) = Ok (sub buf 0 start ++ join new l).
Proof.
  intros Hfind Hk Hn f. induction f as [|f IH]; intros mc start buf m Hb H1 H2 Hl; [lia|]. cbn [loop].
  assert (D0 : forall j, 0 <= j <= n -> buf = sub buf 0 j ++ sub buf j n).
  { intros j Hj. rewrite <- sub_split by lia. subst n. symmetry. apply sub_all. }
  unfold place_body at 1. destruct (Z.ltb_spec 0 mc) as [P|P].
  - rewrite slice_ok by lia. cbn [bind].
    destruct (Hfind (sub buf start n)) as (r & -> & F). cbn [bind]. subst n.
    destruct (cut_first buf old start r H1 F) as [(-> & N)|(R1 & R2 & E & M)].
    + exists [sub buf start (len buf)]. split; [constructor; auto|]. cbn. f_equal. now apply D0.
    + replace (r =? -1) with false by lia. rewrite overwrite_ok by lia. cbn [bind].
      set (buf' := sub buf 0 (start + r) ++ new ++ sub buf (start + r + len new) (len buf)).
      assert (Lb : len buf' = len buf) by (unfold buf'; rewrite !len_app, !sub_len by lia; lia).
      destruct (IH (mc - 1) (start + (r + len old)) buf' (m - 1)) as (l & S & L); [lia|lia|lia|unfold limit in *; lia|].
      assert (E1 : sub buf' (start + (r + len old)) (len buf) = sub buf (start + r + len old) (len buf)).
      { replace (start + (r + len old)) with (len (sub buf 0 (start + r) ++ new)) by (rewrite len_app, sub_len by lia; lia).
        transitivity (sub buf' (len (sub buf 0 (start + r) ++ new)) (len buf')); [now rewrite Lb|].
        unfold buf'. rewrite app_assoc, sub_whole_r. now rewrite Hn. }
      assert (E2 : sub buf' 0 (start + (r + len old)) = sub buf 0 (start + r) ++ new).
      { replace (start + (r + len old)) with (len (sub buf 0 (start + r) ++ new)) by (rewrite len_app, sub_len by lia; lia).
        unfold buf'. rewrite app_assoc. apply sub_whole_l. }
      rewrite E1 in S. exists (sub buf start (start + r) :: l). split.
      * rewrite E. constructor; [unfold limit in *; lia|exact M|auto].
      * rewrite L, E2. f_equal. pose proof (split_left_nonempty _ _ _ _ S) as NE.
        rewrite (sub_split buf 0 start (start + r)) by lia. rewrite <- !app_assoc. f_equal.
        destruct l; [congruence|reflexivity].
  - exists [sub buf start n]. split; [constructor; unfold limit in *; lia|]. cbn. f_equal. now apply D0.
Qed.

Lemma char_in_place_ok s c d maxcount m : 0 < maxcount -> limit maxcount m (len s) ->
  exists l, split_left [c] m s l /\ replace_char_in_place s c d maxcount = Ok (join [d] l).
Proof.
  intros Hp Hl. pose proof (len_nonneg s).
  destruct (place_loop (find_byte c) [c] [d] (len s) (finds_byte c) ltac:(rewrite len_cons, len_nil; lia) eq_refl
              (S (fuel s)) maxcount 0 s m) as (l & S & L); [lia|lia|unfold fuel, len; lia|now rewrite Z.sub_0_r|].
  rewrite sub_all in S. exists l. split; auto. rewrite sub_empty in L. cbn [app] in L. rewrite <- L.
  unfold replace_char_in_place. cbn [loop]. unfold place_body at 1. replace (0 <? maxcount) with true by lia.
  rewrite slice_ok, sub_all by lia. cbn [bind]. unfold find_byte at 1. cbn [bind].
  pose proof (memchr_spec c s) as M. destruct (memchr c s) as [p|]; auto.
  replace (p =? -1) with false by lia. rewrite Z.add_0_l.
  destruct (overwrite s p [d]) as [buf| | |]; cbn [bind]; auto.
  replace (0 + (p + len [c])) with (p + 1) by (rewrite len_cons, len_nil; lia).
  apply loop_ext. intros [[mc start] b]. unfold place_body. destruct (0 <? mc); auto.
  destruct (slice_ b start (len s)) as [sl| | |]; cbn [bind]; auto. unfold find_byte. cbn [bind].
  pose proof (memchr_spec c sl) as Msl. destruct (memchr c sl) as [q|]; auto.
  replace (q =? -1) with false by lia.
  replace (start + (q + len [c])) with (start + q + 1) by (rewrite len_cons, len_nil; lia). reflexivity.
Qed.
Lemma substring_in_place_ok s old new maxcount m : 1 <= len old -> len new = len old -> 0 < maxcount -> limit maxcount m (len s) ->
  exists l, split_left old m s l /\ replace_substring_in_place s old new maxcount = Ok (join new l).
Proof.
  intros Hk Hn Hp Hl. pose proof (len_nonneg s).
  destruct (place_loop (fun t => forward_find t old) old new (len s) (finds_str old) Hk Hn
              (S (fuel s)) maxcount 0 s m) as (l & S & L); [lia|lia|unfold fuel, len; lia|now rewrite Z.sub_0_r|].
  rewrite sub_all in S. exists l. split; auto. rewrite sub_empty in L. cbn [app] in L. rewrite <- L.
  unfold replace_substring_in_place. cbn [loop]. unfold place_body at 1. replace (0 <? maxcount) with true by lia.
  rewrite (slice_ok s 0) by lia. rewrite sub_all. cbn [bind].
  destruct (forward_find s old) as [r| | |]; cbn [bind]; auto. destruct (r =? -1); auto.
  rewrite slice_ok by lia. cbn [bind]. rewrite <- Hn, sub_all, Hn. rewrite Z.add_0_l.
  destruct (overwrite s r new) as [buf| | |]; cbn [bind]; auto.
Qed.

(** ** Replacing nothing *)
Fixpoint weave (new : str) (k : nat) (s : str) : str :=
  match k, s with
  | S k, c :: s => c :: new ++ weave new k s
  | _, _ => s
  end.
Lemma weave_len new k : forall s, (k <= length s)%nat -> len (weave new k s) = len s + Z.of_nat k * len new.
Proof.
  induction k as [|k IH]; intros s H; [cbn [weave]; lia|]. destruct s as [|c s]; cbn [length] in H; [lia|].
  cbn [weave]. rewrite !len_cons, len_app, IH by lia. lia.
Qed.
Lemma insert_weave new k : forall s, (k <= length s)%nat -> insert_before new (Z.of_nat k + 1) s = new ++ weave new k s.
Proof.
  induction k as [|k IH]; intros s H.
  - destruct s as [|c s]; [reflexivity|]. cbn. destruct s; reflexivity.
  - destruct s as [|c s]; cbn [length] in H; [lia|]. cbn [insert_before weave].
    destruct (Z.eqb_spec (Z.of_nat (S k) + 1) 0); [lia|].
    replace (Z.of_nat (S k) + 1 - 1) with (Z.of_nat k + 1) by lia. rewrite IH by lia. reflexivity.
Qed.
Lemma insert_all new : forall s m, m < 0 \/ len s < m -> insert_before new m s = new ++ weave new (length s) s.
Proof.
  induction s as [|c s IH]; intros m H.
  - cbn in *. now replace (m =? 0) with false by (unfold len in H; cbn in H; lia).
  - rewrite len_cons in H. pose proof (len_nonneg s). cbn [insert_before length weave].
    replace (m =? 0) with false by lia. rewrite IH by lia. reflexivity.
Qed.
Lemma insert_nil : forall s m, insert_before [] m s = s.
Proof.
  induction s as [|c s IH]; intros m; cbn [insert_before app]; destruct (m =? 0); auto. now rewrite IH.
Qed.
Lemma interleave_ok s new cap : forall k i out, 0 <= i -> i + Z.of_nat k <= len s ->
  len out + len s - i + Z.of_nat k * len new <= cap ->
  exists out', interleave k s new i cap out = Ok (i + Z.of_nat k, out') /\
    out' ++ sub s (i + Z.of_nat k) (len s) = out ++ weave new k (sub s i (len s)).
Proof.
  induction k as [|k IH]; intros i out Hi Hk Hc.
  - cbn [interleave weave]. exists out. rewrite Nat2Z.inj_0, Z.add_0_r. split; auto.
  - cbn [interleave]. pose proof (len_nonneg new). rewrite get_ok by lia. cbn [bind].
    assert (0 <= Z.of_nat k * len new) by (apply Z.mul_nonneg_nonneg; lia).
    rewrite put_ok by (rewrite len_cons, len_nil; lia). cbn [bind].
    rewrite put_ok by (autorewrite with len; lia). cbn [bind].
    destruct (IH (i + 1) ((out ++ [byte_at s i]) ++ new)) as (out' & I & A); [lia|lia|autorewrite with len; lia|].
    exists out'. replace (i + Z.of_nat (S k)) with (i + 1 + Z.of_nat k) by lia. split; auto.
    rewrite A. rewrite (sub_cons s i) by lia. cbn [weave]. now rewrite <- !app_assoc.
Qed.
Lemma replace_interleave_ok s new maxcount m : len s < MAX -> 0 < maxcount ->
  (m < 0 /\ maxcount = MAX) \/ m = maxcount ->
  replace_interleave s new maxcount = fits (insert_before new m s).
Proof.
  intros Hs Hp Hm. pose proof (len_nonneg s). pose proof (len_nonneg new). unfold replace_interleave.
  set (count := if maxcount <=? len s then maxcount else len s + 1).
  assert (Hc : 1 <= count <= len s + 1) by (unfold count; destruct (Z.leb_spec maxcount (len s)); lia).
  assert (I : insert_before new m s = new ++ weave new (Z.to_nat (count - 1)) s).
  { unfold count. destruct (Z.leb_spec maxcount (len s)).
    - assert (m = maxcount) as -> by (destruct Hm as [[? ->]|]; lia).
      rewrite <- insert_weave by (unfold len in *; lia). f_equal. lia.
    - rewrite insert_all by (unfold MAX, max64 in *; lia). f_equal. f_equal. unfold len. lia. }
  assert (LI : len (insert_before new m s) = len s + count * len new).
  { rewrite I, len_app, weave_len by (unfold len in *; lia). rewrite Z2Nat.id by lia. lia. }
  clearbody count. unfold MAX, max64 in Hs. rewrite sdiv_pos by (unfold MAX, max64; lia). cbn [bind].
  rewrite quot_fits by (unfold MAX, max64; lia). unfold fits. rewrite LI.
  replace (len s + count * len new <=? MAX) with (count * len new <=? MAX - len s) by lia.
  destruct (Z.leb_spec (count * len new) (MAX - len s)) as [F|F]; cbn [negb]; auto.
  cbv zeta. unfold MAX, max64 in F.
  assert (0 <= count * len new) by (apply Z.mul_nonneg_nonneg; lia).
  rewrite (w64_id (count * len new)) by (unfold in64, min64, max64; lia).
  rewrite w64_id by (unfold in64, min64, max64; lia). rewrite alloc_ok by lia. cbn [bind].
  rewrite put_ok by (rewrite len_nil; nia). cbn [bind app].
  destruct (interleave_ok s new (count * len new + len s) (Z.to_nat (count - 1)) 0 new) as (out' & -> & A);
    [lia|lia|rewrite Z2Nat.id by lia; nia|].
  cbn [bind]. rewrite Z.add_0_l in *. rewrite slice_ok by lia. cbn [bind].
  rewrite sub_all in A.
  assert (L : len out' + len (sub s (Z.of_nat (Z.to_nat (count - 1))) (len s)) = count * len new + len s).
  { rewrite <- len_app, A, <- I. lia. }
  rewrite put_ok by lia. cbn [bind]. rewrite full_ok by (rewrite len_app; lia). f_equal. rewrite A, I. reflexivity.
Qed.

(** ** [replace] *)
Lemma fits_ok t : len t <= MAX -> fits t = Ok t.
Proof. intros. unfold fits. now replace (len t <=? MAX) with true by lia. Qed.
Lemma len_1 (s : str) : len s = 1 -> exists c, s = [c].
Proof.
  destruct s as [|c [|d s]]; rewrite ?len_cons, ?len_nil; try (pose proof (len_nonneg s)); intros; try lia. eauto.
Qed.

Theorem replace_ok s old new m : len s < MAX ->
  if len old =? 0 then str_replace s old new m = fits (insert_before new m s)
  else exists l, split_left old m s l /\ str_replace s old new m = fits (join new l).
Proof.
  intros Hs. pose proof (len_nonneg s). pose proof (len_nonneg old). pose proof (len_nonneg new).
  unfold str_replace.
  assert (Lm : m <> 0 -> let mc := if m <? 0 then MAX else m in 0 < mc /\ limit mc m (len s)).
  { intros Hm. cbv zeta. unfold limit. destruct (Z.ltb_spec m 0); [|lia]. unfold MAX, max64 in *. lia. }
  assert (Short : forall t, len t <= len s -> fits t = Ok t) by (intros; apply fits_ok; lia).
  destruct (Z.eqb_spec (len old) 0) as [E0|E0].
  - replace (len s <? len old) with false by lia.
    destruct (Z.eqb_spec m 0) as [->|Hm].
    { rewrite Short; destruct s; cbn; auto; lia. }
    destruct (Lm Hm) as [Hp Hl]. cbv zeta.
    destruct (Z.eqb_spec (len new) 0) as [En|En].
    + apply len_0 in En. subst new. rewrite insert_nil. rewrite Short by lia. reflexivity.
    + apply replace_interleave_ok; auto. destruct (Z.ltb_spec m 0); auto.
  - destruct (Z.ltb_spec (len s) (len old)) as [L|L].
    { exists [s]. split; [|cbn; rewrite Short by lia; reflexivity]. constructor. right. intros i O.
      apply occurs_range in O. lia. }
    destruct (Z.eqb_spec m 0) as [->|Hm].
    { exists [s]. split; [constructor; auto|]. cbn. rewrite Short by lia. reflexivity. }
    destruct (Lm Hm) as [Hp Hl]. cbv zeta. set (mc := if m <? 0 then MAX else m) in *. clearbody mc.
    assert (JS : forall l, split_left old m s l -> len new <= len old -> fits (join new l) = Ok (join new l)).
    { intros l S Hn. apply Short. rewrite (join_length new _ _ _ _ S). pose proof (parts_count _ _ _ _ S). nia. }
    destruct (Z.eqb_spec (len new) 0) as [En|En].
    + pose proof En as En'. apply len_0 in En. subst new. destruct (Z.eqb_spec (len old) 1) as [E1|E1].
      * destruct (len_1 _ E1) as [c ->]. cbn [get nth]. unfold get. rewrite E1. cbn [bind Z.leb Z.ltb andb Z.compare].
        change (nth (Z.to_nat 0) [c] 0) with c. cbn [bind].
        destruct (delete_char_ok s c mc m Hp Hl) as (l & S & R). exists l. split; auto. rewrite JS by (auto; lia). exact R.
      * destruct (delete_substring_ok s old mc m ltac:(lia) Hp Hl) as (l & S & R). exists l. split; auto.
        rewrite JS by (auto; lia). exact R.
    + destruct (Z.eqb_spec (len old) (len new)) as [Ee|Ee].
      * destruct (Z.eqb_spec (len old) 1) as [E1|E1].
        -- destruct (len_1 _ E1) as [c ->]. destruct (len_1 new ltac:(lia)) as [d ->].
           change (get [c] 0) with (Ok c). change (get [d] 0) with (Ok d). cbn [bind].
           destruct (char_in_place_ok s c d mc m Hp Hl) as (l & S & R). exists l. split; auto.
           rewrite JS by (auto; lia). exact R.
        -- destruct (substring_in_place_ok s old new mc m ltac:(lia) ltac:(lia) Hp Hl) as (l & S & R). exists l. split; auto.
           rewrite JS by (auto; lia). exact R.
      * destruct (Z.eqb_spec (len old) 1) as [E1|E1].
        -- destruct (len_1 _ E1) as [c ->]. change (get [c] 0) with (Ok c). cbn [bind].
           now apply replace_char_ok.
        -- apply replace_substring_ok; auto. lia.
Qed.
