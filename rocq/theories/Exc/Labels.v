(** C54: the generated blocks carry pairwise different labels, so that the code
    as a list is the code as a map. *)
From Coq Require Import List Bool Arith Lia.
From Verif Require Import Exc.Spec Exc.Model Exc.Proofs.
Import ListNotations.

Section Labels.
  Context {S V X : Type}.
  Local Notation stmt := (stmt S V X).
  Local Notation handlers := (handlers S V X).
  Local Notation code := (@code S V X).

  Definition labels (c : code) : list nat := map fst c.

  Lemma nodup_app (a b : list nat) :
    NoDup a -> NoDup b -> (forall x, In x a -> ~ In x b) -> NoDup (a ++ b).
  Proof.
    induction 1 as [|x a N H IH]; intros Hb D; [exact Hb|].
    cbn [app]. constructor.
    - rewrite in_app_iff. intros [I|I]; [contradiction|]. apply (D x); [left; reflexivity|exact I].
    - apply IH; [exact Hb|]. intros y I. apply D. right. exact I.
  Qed.

  (** all labels are [e] or in [n, n') *)
  Definition within (e n n' : nat) (l : list nat) : Prop :=
    NoDup l /\ forall x, In x l -> x = e \/ n <= x < n'.

  Definition inside (n n' : nat) (l : list nat) : Prop :=
    NoDup l /\ forall x, In x l -> n <= x < n'.

  Lemma parent_blocks_labels pts : forall np c f,
    inside np (np + length pts) (labels (parent_blocks pts np c f)).
  Proof.
    induction pts as [|[t d] pts IH]; intros np c f; cbn [parent_blocks labels map].
    - split; [constructor|]. intros x [].
    - destruct (IH (np + 1) c f) as [N H]. split.
      + constructor; [|exact N]. intro I. specialize (H _ I). cbn [fst] in H. lia.
      + intros x [<-|I]; cbn [fst length]; [lia|]. specialize (H _ I). lia.
  Qed.

  Lemma try_head_nodup n entry :
    entry < n ->
    NoDup [entry; n; n + 24; n + 26; n + 8; n + 9; n + 10; n + 4; n + 21; n + 22; n + 11;
           n + 12; n + 13; n + 14; n + 15; n + 16; n + 17; n + 18; n + 5;
           n + 1; n + 19; n + 20; n + 2; n + 7; n + 6].
  Proof.
    intro H. repeat constructor; simpl; intuition lia.
  Qed.

  Lemma gen_labels :
    (forall (s : stmt) n g entry exit, entry < n ->
       within entry n (snd (gen n g s entry exit)) (labels (fst (gen n g s entry exit)))) /\
    (forall (hs : handlers) n g c f,
       inside n (snd (fst (gen_handlers n g c f hs)))
              (labels (fst (fst (gen_handlers n g c f hs))))).
  Proof.
    assert (One : forall (l n n' : nat) (i : @instr S V X), within l n n' (labels [(l, i)])).
    { intros l n n' i. split; [repeat constructor; auto|]. intros x [<-|[]]. left. reflexivity. }
    assert (Two : forall (l n : nat) (i j : @instr S V X), l < n ->
              within l n (n + 1) (labels [(l, i); (n, j)])).
    { intros l n i j H. split; [repeat constructor; simpl; intuition lia|].
      intros x [<-|[<-|[]]]; cbn [fst]; lia. }
    apply stmt_handlers_ind.
    - intros n g entry exit H. apply One.
    - intros a n g entry exit H. apply One.
    - intros s1 H1 s2 H2 n g entry exit H. cbn [gen].
      pose proof (proj1 gen_mono s1 (n + 1) g entry n) as M1.
      specialize (H1 (n + 1) g entry n ltac:(lia)).
      destruct (gen (n + 1) g s1 entry n) as [ca n1]. cbn [fst snd] in *.
      pose proof (proj1 gen_mono s2 n1 g n exit) as M2.
      specialize (H2 n1 g n exit ltac:(lia)).
      destruct (gen n1 g s2 n exit) as [cb n2]. cbn [fst snd] in *.
      destruct H1 as [A1 A2], H2 as [B1 B2]. unfold labels in *. rewrite map_app. split.
      + apply nodup_app; auto. intros x Ia Ib. specialize (A2 _ Ia). specialize (B2 _ Ib). lia.
      + intros x I. apply in_app_or in I. destruct I as [I|I].
        * specialize (A2 _ I). lia.
        * specialize (B2 _ I). lia.
    - intros c s1 H1 s2 H2 n g entry exit H. cbn [gen].
      pose proof (proj1 gen_mono s1 (n + 2) g n exit) as M1.
      specialize (H1 (n + 2) g n exit ltac:(lia)).
      destruct (gen (n + 2) g s1 n exit) as [ca n1]. cbn [fst snd] in *.
      pose proof (proj1 gen_mono s2 n1 g (n + 1) exit) as M2.
      specialize (H2 n1 g (n + 1) exit ltac:(lia)).
      destruct (gen n1 g s2 (n + 1) exit) as [cb n2]. cbn [fst snd] in *.
      destruct H1 as [A1 A2], H2 as [B1 B2]. unfold labels in *. cbn [map fst].
      rewrite map_app. split.
      + constructor.
        * rewrite in_app_iff. intros [I|I]; [specialize (A2 _ I)|specialize (B2 _ I)]; lia.
        * apply nodup_app; auto. intros x Ia Ib. specialize (A2 _ Ia). specialize (B2 _ Ib). lia.
      + intros x [<-|I]; [left; reflexivity|]. apply in_app_or in I. destruct I as [I|I].
        * specialize (A2 _ I). lia.
        * specialize (B2 _ I). lia.
    - intros c s1 H1 n g entry exit H. cbn [gen].
      match goal with |- context [gen (n + 4) ?g0 s1 (n + 1) (n + 2)] => set (g' := g0) end.
      pose proof (proj1 gen_mono s1 (n + 4) g' (n + 1) (n + 2)) as M1.
      specialize (H1 (n + 4) g' (n + 1) (n + 2) ltac:(lia)).
      destruct (gen (n + 4) g' s1 (n + 1) (n + 2)) as [ca n1]. cbn [fst snd] in *.
      destruct H1 as [A1 A2]. unfold labels in *. cbn [map fst]. split.
      + constructor; [|constructor; [|constructor; [|exact A1]]].
        * intros [I|[I|I]]; try lia. specialize (A2 _ I). lia.
        * intros [I|I]; try lia. specialize (A2 _ I). lia.
        * intro I. specialize (A2 _ I). lia.
      + intros x [<-|[<-|[<-|I]]]; try lia. specialize (A2 _ I). lia.
    - intros n g entry exit H. cbn [gen]. destruct (loops g); [apply One|].
      destruct (finallys g); [apply One|]. destruct (_ <? _); [apply One|apply Two; exact H].
    - intros n g entry exit H. cbn [gen]. destruct (loops g); [apply One|].
      destruct (finallys g); [apply One|]. destruct (_ <? _); [apply One|apply Two; exact H].
    - intros v n g entry exit H. cbn [gen]. destruct (tries g); [apply One|apply Two; exact H].
    - intros body Hb hs Hh els He fin Hf n g entry exit H. rewrite gen_try_eq. cbn zeta.
      unfold try_labels. set (c := root_cell (tries g) (n + 27)).
      pose proof (proj1 gen_mono fin (n + 28) g (n + 3) (n + 8)) as M1.
      specialize (Hf (n + 28) g (n + 3) (n + 8) ltac:(lia)).
      destruct (gen (n + 28) g fin (n + 3) (n + 8)) as [cf n1]. cbn [fst snd] in *.
      set (g1 := mkCtx (loops g) (tries g) _). set (g2 := mkCtx (loops g) _ _).
      pose proof (proj1 gen_mono body (n1 + 2) g2 (n + 23) (n + 24)) as M2.
      specialize (Hb (n1 + 2) g2 (n + 23) (n + 24) ltac:(lia)).
      destruct (gen (n1 + 2) g2 body (n + 23) (n + 24)) as [cb n2]. cbn [fst snd] in *.
      pose proof (proj1 gen_mono els n2 g1 (n + 25) (n + 26)) as M3.
      specialize (He n2 g1 (n + 25) (n + 26) ltac:(lia)).
      destruct (gen n2 g1 els (n + 25) (n + 26)) as [ce n3]. cbn [fst snd] in *.
      pose proof (proj2 gen_mono hs n3 g1 c (n + 3)) as M4.
      specialize (Hh n3 g1 c (n + 3)).
      destruct (gen_handlers n3 g1 c (n + 3) hs) as [[ch n4] es]. cbn [fst snd] in *.
      set (pts := parent_types (tries g) 1 (handler_types hs)).
      pose proof (parent_blocks_labels pts n4 c (n + 3)) as Hp.
      set (hd := [entry; n; n + 24; n + 26; n + 8; n + 9; n + 10; n + 4; n + 21; n + 22; n + 11;
           n + 12; n + 13; n + 14; n + 15; n + 16; n + 17; n + 18; n + 5;
           n + 1; n + 19; n + 20; n + 2; n + 7; n + 6]).
      match goal with |- within _ _ _ (labels ?L) =>
        replace (labels L) with
          (hd ++ labels (parent_blocks pts n4 c (n + 3)) ++ labels cf ++ labels cb ++
           labels ce ++ labels ch) end.
      2:{ unfold hd, labels, fin_code, exc_code. cbn [map fst app].
          rewrite !map_app. reflexivity. }
      assert (Hd : NoDup hd) by (apply try_head_nodup; exact H).
      assert (Hr : forall x, In x hd -> x = entry \/ (n <= x < n + 28 /\ x <> n + 3 /\
                                        x <> n + 23 /\ x <> n + 25)).
      { intros x I. unfold hd in I. simpl in I. intuition lia. }
      destruct Hf as [F1 F2], Hb as [B1 B2], He as [E1 E2], Hh as [C1 C2], Hp as [P1 P2].
      assert (D : forall x, In x (labels cf ++ labels cb ++ labels ce ++ labels ch) ->
                x = n + 3 \/ x = n + 23 \/ x = n + 25 \/ n + 28 <= x < n4).
      { intros x I. rewrite !in_app_iff in I. destruct I as [I|[I|[I|I]]].
        - specialize (F2 _ I). lia.
        - specialize (B2 _ I). lia.
        - specialize (E2 _ I). lia.
        - specialize (C2 _ I). lia. }
      split.
      + apply nodup_app; [exact Hd| |].
        * apply nodup_app; [exact P1| |].
          -- apply nodup_app; [exact F1| |].
             ++ apply nodup_app; [exact B1| |].
                ** apply nodup_app; [exact E1|exact C1|].
                   intros x I J. specialize (E2 _ I). specialize (C2 _ J). lia.
                ** intros x I J. specialize (B2 _ I). rewrite in_app_iff in J.
                   destruct J as [J|J]; [specialize (E2 _ J)|specialize (C2 _ J)]; lia.
             ++ intros x I J. specialize (F2 _ I). rewrite !in_app_iff in J.
                destruct J as [J|[J|J]];
                  [specialize (B2 _ J)|specialize (E2 _ J)|specialize (C2 _ J)]; lia.
          -- intros x I J. specialize (P2 _ I). specialize (D _ J). lia.
        * intros x I J. specialize (Hr _ I). apply in_app_or in J. destruct J as [J|J].
          -- specialize (P2 _ J). lia.
          -- specialize (D _ J). lia.
      + intros x I. rewrite in_app_iff in I. destruct I as [I|I]; [specialize (Hr _ I); lia|].
        apply in_app_or in I. destruct I as [I|I]; [specialize (P2 _ I); lia|].
        specialize (D _ I). lia.
    - intros n g c f. cbn. split; [constructor|]. intros x [].
    - intros t b h Hh rest Hr n g c f. rewrite gen_handlers_eq.
      pose proof (proj1 gen_mono h (n + 5) g (n + 3) (n + 4)) as M1.
      specialize (Hh (n + 5) g (n + 3) (n + 4) ltac:(lia)).
      destruct (gen (n + 5) g h (n + 3) (n + 4)) as [c1 n1]. cbn [fst snd] in *.
      pose proof (proj2 gen_mono rest n1 g c f) as M2.
      specialize (Hr n1 g c f). destruct (gen_handlers n1 g c f rest) as [[cr n2] es].
      cbn [fst snd] in *. destruct Hh as [A1 A2], Hr as [B1 B2].
      unfold labels in *. cbn [map fst]. rewrite map_app. split.
      + assert (J : forall x, In x (map fst c1 ++ map fst cr) -> x = n + 3 \/ n + 5 <= x).
        { intros x I. apply in_app_or in I. destruct I as [I|I];
            [specialize (A2 _ I)|specialize (B2 _ I)]; lia. }
        constructor; [|constructor; [|constructor; [|constructor]]].
        * intros [I|[I|[I|I]]]; try lia. specialize (J _ I). lia.
        * intros [I|[I|I]]; try lia. specialize (J _ I). lia.
        * intros [I|I]; try lia. specialize (J _ I). lia.
        * intros I. specialize (J _ I). lia.
        * apply nodup_app; auto. intros x I I'. specialize (A2 _ I). specialize (B2 _ I'). lia.
      + intros x [<-|[<-|[<-|[<-|I]]]]; try lia. apply in_app_or in I.
        destruct I as [I|I]; [specialize (A2 _ I)|specialize (B2 _ I)]; lia.
  Qed.

  Lemma fetch_installed (c : code) : NoDup (labels c) -> installed (fetch c) c.
  Proof.
    unfold installed, labels.
    induction c as [|[l i] c IH]; intros N l' i' I; [contradiction|].
    inversion_clear N as [|? ? N1 N2]. cbn [fetch]. destruct I as [E|I].
    - injection E as -> ->. rewrite Nat.eqb_refl. reflexivity.
    - destruct (Nat.eqb_spec l' l) as [->|Ne].
      + exfalso. apply N1. cbn [fst]. apply in_map_iff. exists (l, i'). auto.
      + apply IH; assumption.
  Qed.

  Lemma fetch_none (c : code) l : ~ In l (labels c) -> fetch c l = None.
  Proof.
    unfold labels. induction c as [|[l' i] c IH]; intro H; [reflexivity|].
    cbn [fetch map fst] in *. destruct (Nat.eqb_spec l l') as [->|Ne].
    - exfalso. apply H. left. reflexivity.
    - apply IH. intro I. apply H. right. exact I.
  Qed.

  Lemma compile_installed (s : stmt) : installed (compile s) (fst (gen 2 ctx0 s 0 1)).
  Proof.
    apply fetch_installed. apply (proj1 gen_labels s 2 ctx0 0 1). lia.
  Qed.

  (** nothing is at the label that stands for the end of the function *)
  Lemma compile_end (s : stmt) : compile s 1 = None.
  Proof.
    apply fetch_none. intro I.
    destruct (proj1 gen_labels s 2 ctx0 0 1 ltac:(lia)) as [_ H].
    specialize (H _ I). lia.
  Qed.
End Labels.
