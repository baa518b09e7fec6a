(** Proofs about matching, splitting and replacing. *)
From Coq Require Import List ZArith Bool Lia.
From Verif.Common Require Import Result.
From Verif.Re Require Import Spec Model.
Import ListNotations.
Local Open Scope Z_scope.
Local Open Scope res_scope.

Lemma leftmost_some f : forall k pos s e, leftmost f pos k = Some (s, e) -> pos <= s < pos + Z.of_nat k /\ f s = Some e /\ forall s', pos <= s' < s -> f s' = None.
Proof.
  induction k as [|k IH]; intros pos s e H; [discriminate|]. cbn [leftmost] in H. destruct (f pos) as [e'|] eqn:E.
  - inversion H; subst. split; [lia|]. split; [assumption|]. intros s' Hs. lia.
  - destruct (IH _ _ _ H) as (A & B & C). split; [lia|]. split; [assumption|]. intros s' Hs. destruct (Z.eq_dec s' pos) as [->|]; [assumption|]. apply C. lia.
Qed.
Lemma leftmost_none f : forall k pos, leftmost f pos k = None -> forall s, pos <= s < pos + Z.of_nat k -> f s = None.
Proof.
  induction k as [|k IH]; intros pos H s Hs; [lia|]. cbn [leftmost] in H. destruct (f pos) as [e'|] eqn:E; [discriminate|].
  destruct (Z.eq_dec s pos) as [->|]; [assumption|]. apply (IH _ H). lia.
Qed.
Lemma re_some p pos n s e : pos <= n -> re_match p pos n = Some (s, e) -> pos <= s <= n /\ at_ p s = Some e /\ forall s', pos <= s' < s -> at_ p s' = None.
Proof. intros L H. apply leftmost_some in H as (A & B & C). split; [lia|]. now split. Qed.
Lemma re_none p pos n : pos <= n -> re_match p pos n = None -> forall s, pos <= s <= n -> at_ p s = None.
Proof. intros L H s Hs. apply (leftmost_none _ _ _ H). lia. Qed.

(** ** For every pattern: an end, and matches in order *)
Lemma loop_total n p : proper n p -> forall fuel pos, 0 <= pos <= n -> n - pos < Z.of_nat fuel ->
  exists ms, match_loop fuel p pos n = Ok ms /\ ordered n pos ms /\ Forall (fun m => at_ p (fst m) = Some (snd m)) ms.
Proof.
  intros (P1 & _). induction fuel as [|fuel IH]; intros pos L F; [lia|]. cbn [match_loop]. destruct (re_match p pos n) as [[s e]|] eqn:E.
  - destruct (re_some p pos n s e ltac:(lia) E) as (A & B & _). destruct (P1 s e B) as (Q1 & Q2).
    destruct (Z.eqb_spec pos n) as [->|N].
    + cbn [bind]. exists [(s, e)]. split; [reflexivity|]. cbn [ordered]. split; [split; lia|]. now constructor.
    + destruct (Z.eqb_spec pos e) as [->|N2].
      * assert (s = e) by lia. subst s. destruct (IH (e + 1) ltac:(lia) ltac:(lia)) as (ms & -> & O & A'). cbn [bind]. exists ((e, e) :: ms).
        split; [reflexivity|]. split; [|now constructor]. cbn [ordered]. split; [lia|]. destruct ms as [|[s' e'] ms]; cbn [ordered] in *; [lia|]. split; [lia|]. apply O.
      * destruct (IH e ltac:(lia) ltac:(lia)) as (ms & -> & O & A'). cbn [bind]. exists ((s, e) :: ms). split; [reflexivity|]. split; [|now constructor]. cbn [ordered]. split; [lia|assumption].
  - exists []. split; [reflexivity|]. split; [cbn; lia|constructor].
Qed.

(** ** For steady patterns: the matches of Python *)
Lemma scan_skip n p q l : ne p q = None -> scan n p (q + 1) None l -> scan n p q (Some q) l.
Proof.
  intros N H. assert (Hq : forall s, q < s -> here p (Some q) s = here p None s) by (intros s L; unfold here; destruct (Z.eqb_spec q s); [lia|reflexivity]).
  assert (Z0 : here p (Some q) q = None) by (unfold here; rewrite Z.eqb_refl; assumption).
  inversion H as [pos b A|pos b s e l' A B C D]; subst.
  - constructor. intros s L. destruct (Z.eq_dec s q) as [->|]; [assumption|]. rewrite Hq by lia. apply A. lia.
  - apply scan_next with (s := s) (e := e); [lia|rewrite Hq by lia; assumption| |assumption].
    intros s' L. destruct (Z.eq_dec s' q) as [->|]; [assumption|]. rewrite Hq by lia. apply C. lia.
Qed.
Lemma loop_scan n p pos0 : proper n p -> steady p pos0 -> 0 <= pos0 -> forall fuel pos, pos0 <= pos <= n -> n - pos < Z.of_nat fuel ->
  exists ms, match_loop fuel p pos n = Ok ms /\ scan n p pos None ms.
Proof.
  intros (P1 & P2 & P3 & P4) St L0. induction fuel as [|fuel IH]; intros pos L F; [lia|]. cbn [match_loop]. destruct (re_match p pos n) as [[s e]|] eqn:E.
  - destruct (re_some p pos n s e ltac:(lia) E) as (A & B & C). destruct (P1 s e B) as (Q1 & Q2).
    destruct (Z.eqb_spec pos n) as [->|N].
    + cbn [bind]. assert (s = n) by lia. assert (e = n) by lia. subst. exists [(n, n)]. split; [reflexivity|].
      apply scan_next; [lia|exact B|intros; lia|]. rewrite Z.eqb_refl. constructor. intros s Hs. assert (s = n) by lia. subst. unfold here. rewrite Z.eqb_refl.
      destruct (ne p n) eqn:E2; [|reflexivity]. destruct (P2 _ _ E2). lia.
    + destruct (Z.eqb_spec pos e) as [->|N2].
      * assert (s = e) by lia. subst s. destruct (IH (e + 1) ltac:(lia) ltac:(lia)) as (ms & -> & Sc). cbn [bind]. exists ((e, e) :: ms). split; [reflexivity|].
        apply scan_next; [lia|exact B|intros; lia|]. rewrite Z.eqb_refl. apply scan_skip; [|assumption]. now apply (St e).
      * destruct (IH e ltac:(lia) ltac:(lia)) as (ms & -> & Sc). cbn [bind]. exists ((s, e) :: ms). split; [reflexivity|].
        apply scan_next; [lia|exact B|exact C|]. destruct (Z.eqb_spec s e) as [->|]; [|assumption]. exfalso.
        destruct (St e B) as (_ & [->|H]); [lia|]. apply H. apply C. lia.
  - exists []. split; [reflexivity|]. constructor. exact (re_none p pos n ltac:(lia) E).
Qed.
Lemma scan_unique n p pos b l : scan n p pos b l -> forall l', scan n p pos b l' -> l = l'.
Proof.
  induction 1 as [pos b A|pos b s e l A B C D IH]; intros l' H; inversion H as [pos' b' A'|pos' b' s' e' l'' A' B' C' D']; subst.
  - reflexivity.
  - rewrite A in B' by lia. discriminate.
  - rewrite A' in B by lia. discriminate.
  - assert (s = s'). { destruct (Z.lt_trichotomy s s') as [X|[X|X]]; [rewrite C' in B by lia; discriminate|assumption|rewrite C in B' by lia; discriminate]. }
    subst s'. rewrite B in B'. inversion B'; subst. f_equal. now apply IH.
Qed.

(** ** Splitting *)
Lemma part_end text a : 0 <= a -> part text a (Z.of_nat (length text)) = skipn (Z.to_nat a) text.
Proof. intros H. unfold part. apply firstn_all2. rewrite skipn_length. lia. Qed.
Lemma split_ok {T} (wrap : list Z -> T) cb text count : forall ms pieces a k, ordered (Z.of_nat (length text)) a ms -> 0 <= a -> 0 <= k -> 0 <= count -> (count = 0 \/ k <= count) ->
  split_loop wrap cb text count ms pieces a k =
    (let w := if count =? 0 then ms else firstn (Z.to_nat (count - k)) ms in (pieces ++ between text wrap cb a w, k + Z.of_nat (length w))).
Proof.
  induction ms as [|[s e] ms IH]; intros pieces a k O A K C Ck; cbn [split_loop].
  - rewrite part_end by assumption. rewrite firstn_nil. destruct (count =? 0); cbn; do 2 f_equal; lia.
  - cbn [ordered] in O. destruct O as (O1 & O2). destruct (Z.eqb_spec count 0) as [->|N].
    + cbn [Z.ltb Z.compare andb fst snd]. rewrite IH by (try assumption; try lia; now left). cbn [Z.eqb between length]. cbv zeta. rewrite <- !app_assoc. cbn [app]. f_equal. lia.
    + destruct (Z.ltb_spec 0 count); [|lia]. destruct (Z.leb_spec count k).
      * assert (k = count) by lia. subst k. cbn [andb]. rewrite Z.sub_diag. cbn [Z.to_nat firstn between length]. cbv zeta. rewrite part_end by assumption. f_equal. lia.
      * cbn [andb fst snd]. rewrite IH by (try assumption; try lia; right; lia). destruct (Z.eqb_spec count 0); [lia|]. cbv zeta.
        replace (Z.to_nat (count - k)) with (S (Z.to_nat (count - (k + 1)))) by lia. cbn [firstn between length]. rewrite <- !app_assoc. cbn [app]. f_equal. lia.
Qed.
Lemma concat_between text repl a ms : concat (between text (fun x => x) (fun m => [repl m]) a ms) = replaced text repl a ms.
Proof.
  revert a. induction ms as [|[s e] ms IH]; intros a; cbn [between replaced concat app]; [apply app_nil_r|]. now rewrite IH.
Qed.
Lemma part_glue text a b : 0 <= a <= b -> part text a b ++ skipn (Z.to_nat b) text = skipn (Z.to_nat a) text.
Proof.
  intros H. unfold part. replace (Z.to_nat b) with (Z.to_nat (b - a) + Z.to_nat a)%nat by lia.
  assert (G : forall i j (l : list Z), skipn (i + j) l = skipn i (skipn j l)).
  { clear. intros i j. induction j as [|j IH]; intros l; [rewrite Nat.add_0_r; reflexivity|]. replace (i + S j)%nat with (S (i + j)) by lia. destruct l as [|x l]; [now rewrite !skipn_nil|]. cbn [skipn]. apply IH. }
  rewrite G. apply firstn_skipn.
Qed.
Lemma replaced_self n text ms : forall a, ordered n a ms -> 0 <= a -> replaced text (fun m => part text (fst m) (snd m)) a ms = skipn (Z.to_nat a) text.
Proof.
  induction ms as [|[s e] ms IH]; intros a O A; [reflexivity|]. cbn [ordered replaced fst snd] in *. destruct O as (O1 & O2). rewrite IH by (try assumption; lia).
  rewrite part_glue by lia. apply part_glue. lia.
Qed.
Lemma split_fun {T} fuel p (wrap : list Z -> T) cb text count : proper (Z.of_nat (length text)) p -> Z.of_nat (length text) < Z.of_nat fuel ->
  exists ms, finditer fuel p (Z.of_nat (length text)) None None = Ok ms /\ ordered (Z.of_nat (length text)) 0 ms /\
    split_ fuel p wrap cb text count = Ok (between text wrap cb 0 (wanted count ms), Z.of_nat (length (wanted count ms))).
Proof.
  intros P F. set (n := Z.of_nat (length text)) in *. assert (0 <= n) by lia. destruct (loop_total n p P fuel 0 ltac:(lia) ltac:(lia)) as (ms & E & O & _).
  exists ms. assert (Ef : finditer fuel p n None None = Ok ms). { unfold finditer, clamp. destruct (Z.ltb_spec n 0); [lia|assumption]. }
  split; [assumption|]. split; [assumption|]. unfold split_, wanted. fold n. destruct (Z.ltb_spec count 0).
  - destruct (Z.eqb_spec count 0); [lia|]. replace (Z.to_nat count) with 0%nat by lia. reflexivity.
  - rewrite Ef. cbn [bind]. rewrite (split_ok wrap cb text count ms [] 0 0) by (try assumption; lia). cbv zeta. rewrite Z.sub_0_r. reflexivity.
Qed.
