(** nsmallest and nlargest. *)
From Coq Require Import List ZArith Lia Bool Permutation Sorted ZifyBool.
From Verif.Common Require Import Result Arr Ord Stable Tac.
From Verif.Heap Require Import Model Spec Proofs.
Import ListNotations.
Local Open Scope Z_scope.
Local Arguments Z.mul : simpl never.
Local Arguments Z.add : simpl never.
Local Arguments Z.sub : simpl never.

Section Best.
Context {T K E : Type} (mk : T -> Z -> E) (key : T -> K) (ekey : E -> K) (elem : E -> T).
Context (better : K -> K -> bool) (klt : T -> T -> bool) (blt : E -> E -> bool).
Context (step : Z) (srt : list E -> res (list E)) (post : list E -> list E).
Context (W : strict_weak klt) (WE : strict_weak blt).
Context (Hstep : step * step = 1).
Context (Hkey : forall x y i, better (key x) (ekey (mk y i)) = klt x y).
Context (Helem : forall x i, elem (mk x i) = x).
Context (Hblt : forall x y t u, t < u -> blt (mk x (step * t)) (mk y (step * u)) = negb (klt y x)).
Context (Hblt' : forall x y t u, klt x y = true -> blt (mk x (step * t)) (mk y (step * u)) = true).
Context (Hpost : post [] = [])
  (Hsrt : forall l, exists r, srt l = Ok r /\ is_sort_of blt l (post r)).

Notation ent := (fun p : T * Z => mk (fst p) (step * snd p)).
Definition plt (p q : T * Z) : bool := klt (fst p) (fst q).

Definition before (p q : T * Z) : Prop := klt (fst q) (fst p) = false /\ (snd p < snd q \/ klt (fst p) (fst q) = true).
Definition strictly (TT : list (T * Z)) : Prop := StronglySorted before TT.
Definition below (o : Z) (TT : list (T * Z)) : Prop := Forall (fun p => snd p < o) TT.

Lemma before_ent p q : before p q -> blt (ent p) (ent q) = true.
Proof.
  intros (H1 & [H2|H2]); [|now apply Hblt'].
  rewrite Hblt by auto. now rewrite H1.
Qed.
Lemma strictly_ent TT : strictly TT -> StronglySorted (fun x y => blt x y = true) (map ent TT).
Proof.
  induction 1 as [|p TT S IH F]; cbn [map]; constructor; auto.
  rewrite Forall_forall in *. intros e He. apply in_map_iff in He. destruct He as (q & <- & Hq). apply before_ent; auto.
Qed.
Lemma strictly_sorted TT : strictly TT -> sorted_by klt (map fst TT).
Proof.
  induction 1 as [|p TT S IH F]; cbn [map]; constructor; auto.
  rewrite Forall_forall in *. intros e He. apply in_map_iff in He. destruct He as (q & <- & Hq). apply (F q Hq).
Qed.

Lemma insT_strictly x o TT : strictly TT -> below o TT -> strictly (ins plt (x, o) TT).
Proof.
  intros S B. induction S as [|p TT S IH F]; cbn [ins]; [repeat constructor|].
  inversion B as [|? ? B1 B2]; subst.
  assert (WP : strict_weak plt) by (apply (sw_map fst klt W)).
  destruct (plt (x, o) p) eqn:Ep; unfold plt in Ep; cbn [fst] in Ep.
  - constructor; [constructor; auto|]. constructor.
    + split; [now apply (sw_asym klt W)|now right].
    + rewrite Forall_forall in F |- *. intros q Hq. destruct (F q Hq) as (F1 & _).
      assert (klt x (fst q) = true).
      { destruct (klt x (fst q)) eqn:Eq; auto. pose proof (sw_negtrans klt W _ _ _ Eq F1). congruence. }
      split; [now apply (sw_asym klt W)|now right].
  - constructor; [now apply IH|]. rewrite Forall_forall in *. intros q Hq.
    apply (Permutation_in _ (Permutation_sym (ins_perm plt (x, o) TT))) in Hq. destruct Hq as [<-|Hq]; auto.
    split; [auto|left; auto].
Qed.
Lemma ins_map x o TT : map fst (ins plt (x, o) TT) = ins klt x (map fst TT).
Proof. induction TT as [|p TT IH]; cbn [ins map]; auto. unfold plt at 1. cbn [fst]. destruct (klt x (fst p)); cbn [map]; auto. now rewrite IH. Qed.
Lemma ins_below x o o' TT : below o' TT -> o < o' -> below o' (ins plt (x, o) TT).
Proof.
  intros B H. unfold below in *. rewrite Forall_forall in *. intros q Hq.
  apply (Permutation_in _ (Permutation_sym (ins_perm plt (x, o) TT))) in Hq. destruct Hq as [<-|Hq]; auto.
Qed.
Lemma below_weaken o o' TT : o <= o' -> below o TT -> below o' TT.
Proof. intros H. apply Forall_impl. intros; lia. Qed.

(** The state of the heap after the items [done] have been seen. *)
Record st (n : nat) (dn : list T) (h : list E) (o : Z) (TT : list (T * Z)) : Prop := ST {
  s_perm : Permutation h (map ent TT);
  s_strict : strictly TT;
  s_below : below o TT;
  s_spec : map fst TT = firstn n (ssort klt dn) }.

Lemma fill_spec n : forall i dn rest TT, strictly TT -> below i TT -> map fst TT = ssort klt dn ->
  exists dn2 TT2 r rest2, fill mk n (step * i) step rest = (r, rest2) /\ rest = dn2 ++ rest2 /\
    Permutation (r ++ map ent TT) (map ent TT2) /\ strictly TT2 /\ below (i + Z.of_nat n) TT2 /\
    map fst TT2 = ssort klt (dn ++ dn2) /\ length r = length dn2 /\ (length dn2 <= n)%nat /\ ((length dn2 < n)%nat -> rest2 = []).
Proof.
  induction n as [|n IH]; intros i dn rest TT S B M; cbn [fill].
  - exists [], TT, [], rest. rewrite app_nil_r. cbn [app length]. split; auto. split; auto. split; auto. split; auto.
    split; [apply (below_weaken i); auto; lia|]. split; auto. split; auto. split; auto. lia.
  - destruct rest as [|x rest].
    + exists [], TT, [], []. rewrite !app_nil_r. cbn [app length]. split; auto. split; auto. split; auto. split; auto.
      split; [apply (below_weaken i); auto; lia|]. split; auto. split; auto. split; auto. lia.
    + replace (step * i + step) with (step * (i + 1)) by lia.
      destruct (IH (i + 1) (dn ++ [x]) rest (ins plt (x, i) TT)) as (dn2 & TT2 & r & rest2 & E1 & E2 & P & S2 & B2 & M2 & L1 & L2 & L3).
      * now apply insT_strictly.
      * apply ins_below; [|lia]. apply (below_weaken i); auto; lia.
      * rewrite ins_map, M, ssort_snoc. reflexivity.
      * rewrite E1. exists (x :: dn2), TT2, (mk x (step * i) :: r), rest2. subst rest. split; auto. split; auto.
        split. { rewrite <- P. cbn [app]. rewrite Permutation_middle. apply Permutation_app_head.
                 rewrite <- (ins_perm plt (x, i) TT). reflexivity. }
        split; auto. split; [apply (below_weaken (i + 1 + Z.of_nat n)); auto; lia|].
        split; [rewrite M2, <- app_assoc; reflexivity|]. cbn [length]. split; [lia|]. split; [lia|]. intros. apply L3. lia.
Qed.

Lemma last_split (TT : list (T * Z)) : TT <> [] -> exists T0 x o, TT = T0 ++ [(x, o)].
Proof. intros H. destruct (exists_last H) as (T0 & [x o] & ->). eauto. Qed.

(** The root of the heap is the entry of the last pair. *)
Lemma root_last h T0 x o d : Permutation h (map ent (T0 ++ [(x, o)])) -> strictly (T0 ++ [(x, o)]) ->
  heap_from (flip blt) d 0 h -> zn d h 0 = mk x (step * o).
Proof.
  intros P S HH.
  assert (L : 0 < zlen h). { unfold zlen. rewrite (Permutation_length P), map_length, app_length. simpl. lia. }
  assert (I : In (zn d h 0) h). { unfold zn. apply nth_In. unfold zlen in L. simpl. lia. }
  pose proof (heap_root (flip blt) d (sw_flip _ WE) h HH L (mk x (step * o))) as R. unfold flip in R.
  assert (R' : blt (zn d h 0) (mk x (step * o)) = false).
  { apply R. apply (Permutation_in _ (Permutation_sym P)). rewrite map_app. apply in_or_app. right. now left. }
  apply (Permutation_in _ P) in I. rewrite map_app in I. apply in_app_or in I. destruct I as [I|[I|[]]]; auto.
  apply in_map_iff in I. destruct I as (q & Hq0 & Hq). exfalso.
  assert (B : before q (x, o)).
  { clear - S Hq. unfold strictly in S. induction T0 as [|p T0 IH]; [destruct Hq|]. simpl in S. inversion S as [|? ? S' F]; subst.
    destruct Hq as [<-|Hq]; [|auto]. rewrite Forall_forall in F. apply F. apply in_or_app. right. now left. }
  apply before_ent in B. rewrite <- Hq0 in R'. cbn [fst snd] in *. congruence.
Qed.

Lemma drain_spec rest : forall n dn h o TT d, st (S n) dn h o TT -> heap_from (flip blt) d 0 h -> length TT = S n ->
  wp (drain mk key ekey better (flip blt) h (ekey (zn d h 0)) (step * o) step rest)
     (fun h' => exists o' TT', st (S n) (dn ++ rest) h' o' TT').
Proof.
  induction rest as [|x rest IH]; intros n dn h o TT d [P SS B M] HH L; cbn [drain].
  - apply wp_ok. rewrite app_nil_r. exists o, TT. constructor; auto.
  - destruct (last_split TT) as (T0 & l & ol & ->); [intros ->; discriminate|].
    rewrite app_length in L. simpl in L. assert (L0 : length T0 = n) by lia.
    pose proof (root_last h T0 l ol d P SS HH) as R0.
    replace (dn ++ x :: rest) with ((dn ++ [x]) ++ rest) by (rewrite <- app_assoc; reflexivity).
    assert (SPLIT : exists R, ssort klt dn = map fst T0 ++ l :: R).
    { exists (skipn (S n) (ssort klt dn)). rewrite <- (firstn_skipn (S n) (ssort klt dn)) at 1.
      rewrite <- M, map_app, <- app_assoc. reflexivity. }
    destruct SPLIT as (R & ES).
    assert (LM : length (map fst T0) = n) by (now rewrite map_length).
    rewrite R0, Hkey. destruct (klt x l) eqn:Exl.
    + assert (Lh : 0 < zlen h). { unfold zlen. rewrite (Permutation_length P), map_length, app_length. simpl. lia. }
      apply wp_bind. eapply wp_conseq. { apply (heapreplace_spec (flip blt) d h (mk x (step * o)) Lh). }
      intros [m h1] (Em & P1 & H1). cbv beta iota. rewrite R0 in Em. subst m.
      assert (HH1 := H1 (sw_flip _ WE) HH).
      assert (P2 : Permutation h1 (map ent (ins plt (x, o) T0))).
      { rewrite <- (ins_perm plt (x, o) T0). cbn [map fst snd].
        apply (Permutation_cons_inv (a := mk l (step * ol))). rewrite P1, P, map_app. cbn [map fst snd].
        rewrite perm_swap. apply perm_skip. symmetry. apply Permutation_cons_append. }
      assert (Lh1 : 0 < zlen h1). { unfold zlen. rewrite (Permutation_length P2), map_length, ins_length. lia. }
      apply wp_bind. rewrite (aget_ok d) by lia. apply wp_ok.
      replace (step * o + step) with (step * (o + 1)) by lia.
      unfold below in B. rewrite Forall_app in B. destruct B as [B _].
      assert (S0 : strictly T0).
      { clear - SS. unfold strictly in *. induction T0 as [|p T0 IH]; [constructor|]. simpl in SS. inversion SS as [|? ? S' F]; subst.
        constructor; auto. rewrite Forall_app in F. apply F. }
      apply (IH n (dn ++ [x]) h1 (o + 1) (ins plt (x, o) T0)); auto.
      * constructor; auto.
        -- now apply insT_strictly.
        -- apply ins_below; [|lia]. apply (below_weaken o); auto. lia.
        -- rewrite ins_map, ssort_snoc, ES. rewrite <- LM. symmetry. now apply firstn_ins_lt.
      * rewrite ins_length. lia.
    + rewrite <- R0. apply (IH n (dn ++ [x]) h o (T0 ++ [(l, ol)])); auto.
      * constructor; auto. rewrite ssort_snoc, ES, <- LM, firstn_ins_ge; auto.
        -- now rewrite map_app.
        -- rewrite <- ES. apply ssort_stable; auto.
      * rewrite app_length. simpl. lia.
Qed.

Theorem nbest_spec n l : exists r, nbest mk key ekey better (flip blt) srt n step l = Ok r /\
  map elem (post r) = firstn (Z.to_nat n) (ssort klt l).
Proof.
  unfold nbest. destruct (fill_spec (Z.to_nat n) 0 [] l []) as (dn2 & TT & r & rest & E1 & E2 & P & S & B & M & L1 & L2 & L3); auto; try constructor.
  rewrite Z.mul_0_r in E1. rewrite E1. cbn [app map] in *. rewrite app_nil_r in P.
  destruct r as [|e0 r0] eqn:Er.
  - exists []. split; auto. rewrite Hpost. cbn [map]. destruct (Z.to_nat n) as [|m] eqn:En; [reflexivity|].
    destruct dn2; [|discriminate]. rewrite L3 in E2 by (simpl; lia). subst l. reflexivity.
  - rewrite <- Er in *. assert (Hr : r <> []) by (now rewrite Er). set (d := e0). clearbody d. clear Er e0 r0.
    assert (HP : 0 < n). { destruct r; [congruence|]. cbn [length] in L1. lia. }
    assert (N : exists h, heapify (flip blt) r = Ok h /\ Permutation r h /\ heap_from (flip blt) d 0 h).
    { pose proof (heapify_spec (flip blt) d r) as Hs. destruct (heapify (flip blt) r) as [h| | |]; simpl in Hs; try contradiction.
      destruct Hs as [P1 P2]. exists h. split; auto. split; auto. apply P2. apply (sw_flip _ WE). }
    destruct N as (h & Eh & Ph & HH). rewrite Eh. cbn [bind].
    assert (Lh : 0 < zlen h). { unfold zlen. rewrite <- (Permutation_length Ph). destruct r; [congruence|]. simpl. lia. }
    rewrite (aget_ok d) by lia. cbn [bind].
    assert (LT : length TT = length dn2). { rewrite <- (map_length fst), M. apply ssort_length; auto. }
    assert (N2 : exists h' o' TT', drain mk key ekey better (flip blt) h (ekey (zn d h 0)) (n * step) step rest = Ok h' /\
       st (Z.to_nat n) l h' o' TT').
    { destruct (Nat.eq_dec (length dn2) (Z.to_nat n)) as [EL|NL].
      - assert (exists m, Z.to_nat n = Datatypes.S m) as (m & Em) by (exists (pred (Z.to_nat n)); lia).
        pose proof (drain_spec rest m dn2 h n TT d) as D. replace (step * n) with (n * step) in D by lia.
        assert (ST0 : st (Datatypes.S m) dn2 h n TT).
        { constructor; auto.
          - now rewrite <- Ph.
          - apply (below_weaken (0 + Z.of_nat (Z.to_nat n))); auto. lia.
          - rewrite M. symmetry. apply firstn_all2. rewrite ssort_length by auto. lia. }
        specialize (D ST0 HH ltac:(lia)).
        destruct (drain mk key ekey better (flip blt) h (ekey (zn d h 0)) (n * step) step rest) as [h'| | |]; simpl in D; try contradiction.
        destruct D as (o' & TT' & D). exists h', o', TT'. split; auto. rewrite Em. subst l. auto.
      - rewrite L3 in * by lia. rewrite app_nil_r in E2. subst l. exists h, (0 + Z.of_nat (Z.to_nat n)), TT. split; auto.
        constructor; auto.
        + now rewrite <- Ph.
        + rewrite M. symmetry. apply firstn_all2. rewrite ssort_length by auto. lia. }
    destruct N2 as (h' & o' & TT' & Ed & [P' S' B' M']). rewrite Ed. cbn [bind].
    destruct (Hsrt h') as (rr & Es & Ps & Ss). rewrite Es. exists rr. split; auto.
    assert (U : map ent TT' = post rr).
    { apply (strict_unique blt); auto; [now apply strictly_ent|]. now rewrite <- P'. }
    rewrite <- M', <- U, map_map. apply map_ext. intros p. apply Helem.
Qed.
End Best.

Section First.
Context {T : Type} (klt : T -> T -> bool) (W : strict_weak klt).
Lemma first_best_spec l : forall dn v, v = firstn 1 (ssort klt dn) -> first_best klt v l = firstn 1 (ssort klt (dn ++ l)).
Proof.
  induction l as [|x l IH]; intros dn v E; cbn [first_best].
  - now rewrite app_nil_r.
  - replace (dn ++ x :: l) with ((dn ++ [x]) ++ l) by (rewrite <- app_assoc; reflexivity). apply IH.
    rewrite ssort_snoc. pose proof (ssort_stable klt W dn) as S. destruct (ssort klt dn) as [|b r] eqn:Es; subst v.
    + reflexivity.
    + cbn [firstn]. destruct (klt x b) eqn:Eb.
      * cbn [ins]. now rewrite Eb.
      * cbn [ins]. now rewrite Eb.
Qed.
End First.

(** ** The comparison of tuples *)
Section Tuples.
Context {K T : Type} (lt eq : K -> K -> bool) (ltT eqT : T -> T -> bool).
Context (W : strict_weak lt) (Heq : forall x y, eq x y = negb (lt x y) && negb (lt y x)).
Context (WT : strict_weak ltT) (HeqT : forall x y, eqT x y = negb (ltT x y) && negb (ltT y x)).

Lemma lt2_lex a b : lt2 lt eq a b = lex (fun x y => lt (fst x) (fst y)) (fun x y => snd x <? snd y) a b.
Proof.
  destruct a as [a i], b as [b j]. unfold lt2, lex. cbn [fst snd]. rewrite Heq.
  destruct (lt a b), (lt b a); cbn; auto. destruct (i <? j); auto. now destruct (i =? j).
Qed.
Lemma lt2_sw : strict_weak (lt2 lt eq).
Proof.
  pose proof (lex_sw _ _ (sw_map (@fst K Z) lt W) (sw_map (@snd K Z) Z.ltb sw_Zlt)) as L.
  split; intros *; rewrite !lt2_lex; apply L.
Qed.
Lemma ge2_spec a b : ge2 lt eq a b = negb (lt2 lt eq a b).
Proof.
  destruct a as [a i], b as [b j]. unfold lt2, ge2. cbn [fst snd]. rewrite Heq.
  destruct (lt a b) eqn:E1, (lt b a) eqn:E2; cbn; auto.
  - now rewrite (sw_asym lt W _ _ E1) in E2.
  - destruct (Z.ltb_spec i j), (Z.ltb_spec j i), (Z.eqb_spec i j); cbn; auto; lia.
Qed.
Lemma eq2_spec a b : eq2 eq a b = negb (lt2 lt eq a b) && negb (lt2 lt eq b a).
Proof.
  destruct a as [a i], b as [b j]. unfold lt2, eq2. cbn [fst snd]. rewrite !Heq.
  destruct (lt a b) eqn:E1, (lt b a) eqn:E2; cbn; auto.
  destruct (Z.ltb_spec i j), (Z.ltb_spec j i), (Z.eqb_spec i j), (Z.eqb_spec j i); cbn; auto; lia.
Qed.

Notation k3 := (fun x : K * Z * T => fst x).
Lemma lt3_lex a b : lt3 lt eq ltT eqT a b =
  lex (fun x y => lt2 lt eq (k3 x) (k3 y)) (fun x y => ltT (snd x) (snd y)) a b.
Proof.
  destruct a as [[a i] x], b as [[b j] y]. unfold lt3, lex, lt2. cbn [fst snd]. rewrite !Heq, HeqT.
  destruct (lt a b) eqn:E1, (lt b a) eqn:E2; cbn; auto.
  destruct (Z.ltb_spec i j), (Z.ltb_spec j i), (Z.eqb_spec i j), (Z.eqb_spec j i); cbn; auto; try lia.
  destruct (ltT x y), (ltT y x); auto.
Qed.
Lemma lt3_sw : strict_weak (lt3 lt eq ltT eqT).
Proof.
  pose proof (lex_sw _ _ (sw_map (fun x : K * Z * T => fst x) _ lt2_sw) (sw_map (@snd (K * Z) T) _ WT)) as L.
  split; intros *; rewrite !lt3_lex; apply L.
Qed.
Lemma ge3_spec a b : ge3 lt eq ltT eqT a b = negb (lt3 lt eq ltT eqT a b).
Proof.
  destruct a as [[a i] x], b as [[b j] y]. unfold lt3, ge3. rewrite !Heq, HeqT.
  destruct (lt a b) eqn:E1, (lt b a) eqn:E2; cbn; auto.
  - now rewrite (sw_asym lt W _ _ E1) in E2.
  - destruct (Z.ltb_spec i j), (Z.ltb_spec j i), (Z.eqb_spec i j); cbn; auto; try lia.
    destruct (ltT x y) eqn:E3, (ltT y x) eqn:E4; cbn; auto. now rewrite (sw_asym ltT WT _ _ E3) in E4.
Qed.
Lemma eq3_spec a b : eq3 eq eqT a b = negb (lt3 lt eq ltT eqT a b) && negb (lt3 lt eq ltT eqT b a).
Proof.
  destruct a as [[a i] x], b as [[b j] y]. unfold lt3, eq3. cbn [fst snd]. rewrite !Heq, !HeqT.
  destruct (lt a b) eqn:E1, (lt b a) eqn:E2; cbn; auto.
  destruct (Z.ltb_spec i j), (Z.ltb_spec j i), (Z.eqb_spec i j), (Z.eqb_spec j i); cbn; auto; try lia.
  destruct (ltT x y) eqn:E3, (ltT y x) eqn:E4; cbn; auto.
Qed.
End Tuples.
