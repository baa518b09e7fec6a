(** Proofs about [_heapify] and [_heap_sort] (heapsort.codon). *)
From Coq Require Import List ZArith Lia Bool Permutation.
From Verif.Common Require Import Result Arr Ord Tac.
From Verif.Sort Require Import Model.
Import ListNotations.
Local Open Scope Z_scope.

Section Heap.
Context {A : Type} (lt : A -> A -> bool) (d : A).
Notation zn := (@zn A d).
Notation swp := (@swp A d).
Notation same_out := (@same_out A d).
Notation sorted_rng := (@sorted_rng A lt d).

(** Node [i] of the heap view is not smaller than its children below [n]. *)
Definition okn (off n : Z) (a : list A) (i : Z) : Prop :=
  (2*i+1 < n -> lt (zn a (off+i)) (zn a (off+(2*i+1))) = false) /\
  (2*i+2 < n -> lt (zn a (off+i)) (zn a (off+(2*i+2))) = false).

Lemma heapify_spec fuel : forall off arr begin end_,
  0 <= off -> 0 <= begin -> 0 <= end_ -> off + end_ <= zlen arr ->
  (Z.to_nat (end_ - begin) < fuel)%nat ->
  wp (heapify lt fuel off arr begin end_)
     (fun r => Permutation arr r /\ same_out arr r (off + begin) (off + end_) /\
       (strict_weak lt -> forall k0, 0 <= k0 <= begin ->
         (forall i, k0 <= i -> i <> begin -> okn off end_ arr i) ->
         (forall p c, k0 <= p -> (2*p+1 = begin \/ 2*p+2 = begin) ->
                      (c = 2*begin+1 \/ c = 2*begin+2) -> c < end_ ->
                      lt (zn arr (off+p)) (zn arr (off+c)) = false) ->
         forall i, k0 <= i -> okn off end_ r i)).
Proof.
  induction fuel as [|fuel IH]; intros off arr begin end_ Ho Hb He HL Hf; [lia|].
  cbn [heapify].
  (* the index selected by the two comparisons *)
  apply wp_bind.
  apply (wp_conseq _ (fun r1 =>
     (r1 = begin \/ (r1 = 2*begin+1 /\ r1 < end_ /\
                     lt (zn arr (off+begin)) (zn arr (off+r1)) = true)) /\
     (r1 = begin -> 2*begin+1 < end_ -> lt (zn arr (off+begin)) (zn arr (off+(2*begin+1))) = false))).
  { wps d; zb; wpr d; [|split; [auto|lia]].
    destruct (lt (zn arr (off+begin)) (zn arr (off+(2*begin+1)))) eqn:E1;
      (split; [try (right; repeat split; auto; fail); auto | intros; auto; lia]). }
  intros r1 (Hr1 & Hn1).
  apply wp_bind.
  apply (wp_conseq _ (fun r2 =>
     (r2 = r1 \/ (r2 = 2*begin+2 /\ r2 < end_ /\
                  lt (zn arr (off+r1)) (zn arr (off+r2)) = true)) /\
     (r2 = r1 -> 2*begin+2 < end_ -> lt (zn arr (off+r1)) (zn arr (off+(2*begin+2))) = false))).
  { wps d; zb; wpr d; [|split; [auto|lia]].
    destruct (lt (zn arr (off+r1)) (zn arr (off+(2*begin+2)))) eqn:E1;
      (split; [try (right; repeat split; auto; fail); auto | intros; auto; lia]). }
  intros r2 (Hr2 & Hn2).
  wps d; zb.
  - assert (Hrb : (r2 = 2*begin+1 \/ r2 = 2*begin+2) /\ r2 < end_) by lia.
    destruct Hrb as [Hrc Hre].
    wpr d.
    eapply wp_conseq.
    { apply (IH off (swp arr (off+begin) (off+r2)) r2 end_); rewrite ?zlen_swp; lia. }
    intros r (HP & HO & HH). rewrite ?zlen_swp in *.
    split; [|split].
    + rewrite <- HP. symmetry. apply swp_perm; lia.
    + intros i Hi Hout. rewrite HO by (rewrite ?zlen_swp; lia).
      rewrite zn_swp by lia.
      destruct (Z.eqb_spec i (off+r2)); [lia|].
      destruct (Z.eqb_spec i (off+begin)); [lia|]. reflexivity.
    + intros W k0 Hk0 Hok Hgp.
      apply (HH W k0); [lia| |].
      * intros i Hi1 Hi2. unfold okn. rewrite !zn_swp by lia.
        pose proof (sw_asym lt W) as Asym.
        destruct (Z.eq_dec i begin) as [->|Hne].
        { (* the old root position now holds the larger child *)
          rewrite Z.eqb_refl. destruct (Z.eqb_spec (off+begin) (off+r2)); [lia|].
          destruct (Z.eqb_spec (off+(2*begin+1)) (off+r2)) as [E1|E1];
          destruct (Z.eqb_spec (off+(2*begin+1)) (off+begin)); try lia;
          destruct (Z.eqb_spec (off+(2*begin+2)) (off+r2)) as [E2|E2];
          destruct (Z.eqb_spec (off+(2*begin+2)) (off+begin)); try lia.
          - (* r2 = left *)
            assert (r2 = 2*begin+1) by lia. subst r2.
            assert (r1 = 2*begin+1) by lia. subst r1.
            destruct Hr1 as [?|(_ & _ & Hlt)]; [lia|].
            split; intros Hc; [now apply Asym|]. apply Hn2; lia.
          - assert (r2 = 2*begin+2) by lia. subst r2.
            destruct Hr2 as [?|(_ & _ & Hlt)]; [lia|].
            destruct Hr1 as [->|(-> & Hl & Hlt1)].
            + split; intros Hc; [|now apply Asym].
              apply (sw_negtrans lt W) with (y := zn arr (off+begin)); [now apply Asym|].
              apply Hn1; lia.
            + split; intros Hc; [now apply Asym|].
              apply Asym. eapply (sw_trans lt W); eassumption. }
        assert (Hi0 : okn off end_ arr i) by (apply Hok; lia).
        destruct Hi0 as [Hl Hr].
        destruct (Z.eqb_spec (off+i) (off+r2)); [lia|].
        destruct (Z.eqb_spec (off+i) (off+begin)); [lia|].
        split; intros Hc.
        -- destruct (Z.eqb_spec (off+(2*i+1)) (off+r2)); [lia|].
           destruct (Z.eqb_spec (off+(2*i+1)) (off+begin)); [|auto].
           apply Hgp; lia.
        -- destruct (Z.eqb_spec (off+(2*i+2)) (off+r2)); [lia|].
           destruct (Z.eqb_spec (off+(2*i+2)) (off+begin)); [|auto].
           apply Hgp; lia.
      * intros p c Hp Hpb Hc Hce. rewrite !zn_swp by lia.
        assert (p = begin) by lia. subst p.
        destruct (Z.eqb_spec (off+begin) (off+r2)); [lia|]. rewrite Z.eqb_refl.
        destruct (Z.eqb_spec (off+c) (off+r2)); [lia|].
        destruct (Z.eqb_spec (off+c) (off+begin)); [lia|].
        assert (Hi0 : okn off end_ arr r2) by (apply Hok; lia).
        destruct Hi0 as [Hl Hr]. destruct Hc as [-> | ->]; auto.
  - wpr d. subst r2. split; [reflexivity|]. split; [apply same_out_refl|].
    intros W k0 Hk0 Hok Hgp i Hi.
    destruct (Z.eq_dec i begin) as [->|]; [|apply Hok; lia].
    destruct Hr2 as [E1|E1]; [|lia]. subst r1.
    split; intros Hc; [apply Hn1|apply Hn2]; auto.
Qed.

Lemma heap_root_max (W : strict_weak lt) off n a :
  0 < n -> (forall i, 0 <= i -> okn off n a i) ->
  forall j, 0 <= j < n -> lt (zn a (off+0)) (zn a (off+j)) = false.
Proof.
  intros Hn H j Hj.
  assert (G : forall j, 0 <= j -> j < n -> lt (zn a (off+0)) (zn a (off+j)) = false);
    [|apply G; lia].
  clear j Hj. apply (Zlt_0_ind (fun j => j < n -> lt (zn a (off+0)) (zn a (off+j)) = false)).
  intros j IH Hj0 Hj.
  destruct (Z.eq_dec j 0) as [->|Hne]; [apply (sw_irrefl lt W)|].
  set (p := (j-1)/2). assert (Hp : 0 <= p < j /\ (j = 2*p+1 \/ j = 2*p+2)).
  { unfold p. pose proof (Z.div_mod (j-1) 2). pose proof (Z.mod_pos_bound (j-1) 2). lia. }
  clearbody p. destruct Hp as [Hp1 Hp2].
  apply (sw_negtrans lt W) with (y := zn a (off+p)).
  - apply IH; lia.
  - destruct (H p) as [Hl Hr]; [lia|]. destruct Hp2; subst j; [apply Hl|apply Hr]; lia.
Qed.

Theorem heap_sort_spec arr begin end_ :
  0 <= begin -> end_ <= zlen arr ->
  wp (heap_sort lt arr begin end_)
     (fun r => Permutation arr r /\ same_out arr r begin end_ /\
               (strict_weak lt -> sorted_rng r begin end_)).
Proof.
  intros Hb He. unfold heap_sort. wps d; zb.
  { wpr d. split; [reflexivity|]. split; [apply same_out_refl|].
    intros _ i j Hi Hj. lia. }
  set (n := end_ - begin).
  apply wp_bind.
  apply (wp_conseq _ (fun b => Permutation arr b /\ same_out arr b begin end_ /\
     (strict_weak lt -> forall i, 0 <= i -> okn begin n b i))).
  - apply (wp_loop
      (fun '(b, i) => -1 <= i <= n/2 - 1 /\ Permutation arr b /\ same_out arr b begin end_ /\
         (strict_weak lt -> forall k, i < k -> okn begin n b k))
      (fun '(b, i) => Z.to_nat (i + 1))).
    + intros [b i] (Hi & HP & HO & HH). unfold heap_build.
      pose proof (perm_zlen _ _ HP) as HL.
      pose proof (Z.div_mod n 2). pose proof (Z.mod_pos_bound n 2).
      wps d; zb.
      * wps d. eapply wp_conseq.
        { apply (heapify_spec _ begin b i n); lia. }
        intros r (HP1 & HO1 & HH1). wpr d. split; [|lia].
        split; [lia|]. split; [now rewrite HP|]. split.
        -- apply (same_out_trans d) with (b := b); auto.
           eapply same_out_weaken; [| |exact HO1]; lia.
        -- intros W k Hk. apply (HH1 W i); [lia| |intros p c Hp Hpc; lia|lia].
           intros k' Hk' Hne. apply HH; auto; lia.
      * wpr d. split; [exact HP|]. split; [exact HO|]. intros W k Hk. apply HH; auto; lia.
    + pose proof (Z.div_mod n 2). pose proof (Z.mod_pos_bound n 2).
      split; [lia|]. split; [reflexivity|]. split; [apply same_out_refl|].
      intros W k Hk. split; intros; lia.
    + pose proof (Z.div_mod n 2). pose proof (Z.mod_pos_bound n 2). lia.
  - intros b (HP & HO & HH).
    apply (wp_loop
      (fun '(c, i) => -1 <= i <= n - 1 /\ Permutation arr c /\ same_out arr c begin end_ /\
         (strict_weak lt ->
            (forall k, 0 <= k -> okn begin (i+1) c k) /\
            sorted_rng c (begin + i + 1) end_ /\
            (forall p q, 0 <= p <= i -> i < q < n ->
                         lt (zn c (begin+q)) (zn c (begin+p)) = false)))
      (fun '(c, i) => Z.to_nat (i + 1))).
    + intros [c i] (Hi & HP1 & HO1 & HH1). unfold heap_extract.
      pose proof (perm_zlen _ _ HP1) as HL.
      wps d; zb.
      * wpr d.
        eapply wp_conseq.
        { apply (heapify_spec _ begin (swp c (begin+i) (begin+0)) 0 i); rewrite ?zlen_swp; lia. }
        intros r (HP2 & HO2 & HH2). wpr d.
        assert (HPs : Permutation c (swp c (begin+i) (begin+0))).
        { symmetry. apply swp_perm; lia. }
        pose proof (perm_zlen _ _ HP2) as HL2. rewrite zlen_swp in HL2.
        assert (Hsw : forall k, 0 <= k -> zn (swp c (begin+i) (begin+0)) k =
                  if k =? begin+0 then zn c (begin+i)
                  else if k =? begin+i then zn c (begin+0) else zn c k).
        { intros k Hk. apply zn_swp; lia. }
        assert (Hhi : forall k, begin + i < k < end_ -> zn r k = zn c k).
        { intros k Hk. rewrite HO2 by (rewrite ?zlen_swp; lia). rewrite Hsw by lia.
          destruct (Z.eqb_spec k (begin+0)); [lia|].
          destruct (Z.eqb_spec k (begin+i)); [lia|]. reflexivity. }
        assert (Hmid : zn r (begin+i) = zn c (begin+0)).
        { rewrite HO2 by (rewrite ?zlen_swp; lia). rewrite Hsw by lia.
          destruct (Z.eqb_spec (begin+i) (begin+0)) as [Eb0|]; [now rewrite Eb0|].
          rewrite Z.eqb_refl. reflexivity. }
        split; [|lia].
        split; [lia|]. split; [rewrite HP1, HPs; exact HP2|]. split.
        -- intros k Hk Hout. rewrite HO2 by (rewrite ?zlen_swp; lia). rewrite Hsw by lia.
           destruct (Z.eqb_spec k (begin+0)); [lia|].
           destruct (Z.eqb_spec k (begin+i)); [lia|]. apply HO1; lia.
        -- intros W. destruct (HH1 W) as (Hheap & Hsort & Hle).
           assert (Hmax : forall p, 0 <= p <= i ->
                      lt (zn c (begin+0)) (zn c (begin+p)) = false).
           { intros p Hp. apply (heap_root_max W begin (i+1)); auto; lia. }
           (* everything left in the heap is below what was there before *)
           assert (Hlow : forall p, 0 <= p < i ->
                      lt (zn c (begin+0)) (zn r (begin+p)) = false /\
                      forall q, i < q < n -> lt (zn c (begin+q)) (zn r (begin+p)) = false).
           { intros p Hp.
             apply (perm_range_forall d (fun x =>
                      lt (zn c (begin+0)) x = false /\
                      forall q, i < q < n -> lt (zn c (begin+q)) x = false)
                     (swp c (begin+i) (begin+0)) r (begin+0) (begin+i));
               rewrite ?zlen_swp; try lia; auto.
             intros k Hk. rewrite Hsw by lia.
             destruct (Z.eqb_spec k (begin+0)) as [->|].
             - split; [apply Hmax; lia|]. intros q Hq. apply Hle; lia.
             - destruct (Z.eqb_spec k (begin+i)); [lia|].
               replace k with (begin + (k - begin)) by lia.
               split; [apply Hmax; lia|]. intros q Hq. apply Hle; lia. }
           split; [|split].
           ++ replace (i - 1 + 1) with i by lia.
              intros k Hk. apply (HH2 W 0); [lia| |intros p c0 Hp Hpc; lia|lia].
              intros k' Hk' Hne. destruct (Hheap k') as [Hl Hr]; [lia|].
              unfold okn. rewrite !Hsw by lia.
              destruct (Z.eqb_spec (begin+k') (begin+0)); [lia|].
              split; intros Hc.
              ** destruct (Z.eqb_spec (begin+k') (begin+i)); [lia|].
                 destruct (Z.eqb_spec (begin+(2*k'+1)) (begin+0)); [lia|].
                 destruct (Z.eqb_spec (begin+(2*k'+1)) (begin+i)); [lia|]. apply Hl; lia.
              ** destruct (Z.eqb_spec (begin+k') (begin+i)); [lia|].
                 destruct (Z.eqb_spec (begin+(2*k'+2)) (begin+0)); [lia|].
                 destruct (Z.eqb_spec (begin+(2*k'+2)) (begin+i)); [lia|]. apply Hr; lia.
           ++ intros p q Hp Hq.
              rewrite (Hhi q) by lia.
              destruct (Z.eq_dec p (begin+i)) as [->|].
              ** rewrite Hmid. replace q with (begin + (q-begin)) by lia. apply Hle; lia.
              ** rewrite Hhi by lia. apply Hsort; lia.
           ++ intros p q Hp Hq. destruct (Hlow p) as [H1 H2]; [lia|].
              destruct (Z.eq_dec q i) as [->|].
              ** rewrite Hmid. exact H1.
              ** rewrite Hhi by lia. apply H2. lia.
      * wpr d. split; [exact HP1|]. split; [exact HO1|].
        intros W. destruct (HH1 W) as (_ & Hs & _).
        eapply sorted_rng_weaken; [| |exact Hs]; lia.
    + split; [lia|]. split; [exact HP|]. split; [exact HO|].
      intros W. split; [|split].
      * replace (n - 1 + 1) with n by lia. auto.
      * intros i j Hi Hj. lia.
      * intros p q Hp Hq. lia.
    + lia.
Qed.

End Heap.
