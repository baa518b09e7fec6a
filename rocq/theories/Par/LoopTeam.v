(** Teams of threads: every iteration once, and the last iteration's values. *)
From Coq Require Import ZArith List Bool Lia Permutation.
From Verif.Common Require Import Result Int64.
From Verif.List Require Import SliceSpec SliceModel SliceProofs.
From Verif.Par Require Import LoopSpec LoopModel Loop.
Import ListNotations.
Local Open Scope Z_scope.
Local Open Scope res_scope.

Lemma seg_nodup a b : NoDup (seg a b).
Proof.
  destruct (Z.le_gt_cases b a).
  - rewrite seg_nil by lia. constructor.
  - remember (Z.to_nat (b - a)) as k eqn:E. revert a H E.
    induction k as [|k IH]; intros a H E; [lia|].
    rewrite seg_cons by lia. constructor.
    + rewrite seg_in. lia.
    + destruct (Z.eq_dec (a + 1) b) as [->|].
      * rewrite seg_nil by lia. constructor.
      * apply IH; lia.
Qed.

Lemma seg_last a b : a < b -> seg a b = seg a (b - 1) ++ [b - 1].
Proof.
  intros. rewrite (seg_app a (b - 1) b) by lia. f_equal.
  rewrite seg_cons by lia. f_equal. apply seg_nil. lia.
Qed.

Section Team.
  Context {L : Type}.
  Context (body : Z -> L -> Z * L).
  Context (Hkeep : keeps body).
  Context (r : range).

  (** A run of iterations [xs] entered with private copies [l]. *)
  Record item := Item { it_last : bool; it_idx : list Z; it_init : L }.

  Definition it_value (i : item) : L :=
    sequential body (map (elem r) (it_idx i)) (it_init i).

  Definition stored (items : list item) : list L :=
    concat (map (fun i => if it_last i then [it_value i] else []) items).

  Definition item_ok (n : Z) (i : item) : Prop :=
    (it_last i = true <-> In (n - 1) (it_idx i)) /\
    (In (n - 1) (it_idx i) -> exists ys, it_idx i = ys ++ [n - 1]).

  Lemma stored_none n items :
    Forall (item_ok n) items -> ~ In (n - 1) (concat (map it_idx items)) -> stored items = [].
  Proof.
    induction items as [|i items IH]; intros HF HN; [reflexivity|].
    inversion HF as [|? ? [H1 _] HF']; subst. simpl in HN. rewrite in_app_iff in HN.
    unfold stored. simpl. fold (stored items). rewrite IH by auto.
    destruct (it_last i); auto. exfalso. apply HN. left. now apply H1.
  Qed.

  Lemma stored_one n items :
    Forall (item_ok n) items -> In (n - 1) (concat (map it_idx items)) ->
    NoDup (concat (map it_idx items)) ->
    exists i, In i items /\ stored items = [it_value i] /\ In (n - 1) (it_idx i).
  Proof.
    induction items as [|i items IH]; intros HF HI HD; [easy|].
    inversion HF as [|? ? HO HF']; subst. destruct HO as [H1 H2].
    simpl in HI, HD. rewrite in_app_iff in HI.
    unfold stored. simpl. fold (stored items).
    destruct (it_last i) eqn:E.
    - assert (HI' : In (n - 1) (it_idx i)) by now apply H1.
      exists i. split; [now left|]. split; [|assumption].
      rewrite (stored_none n); auto. intros HX.
      clear - HI' HX HD. revert HD. generalize (it_idx i) HI'. induction l as [|y l IHl]; [easy|].
      simpl. intros [->|HI] HD; inversion HD; subst.
      + apply H1. rewrite in_app_iff. now right.
      + now apply IHl.
    - destruct HI as [HI|HI].
      + exfalso. apply H1 in HI. congruence.
      + assert (HD' : NoDup (concat (map it_idx items))).
        { clear - HD. revert HD. generalize (it_idx i). induction l as [|y l IHl]; simpl; auto.
          intros HD. inversion HD. auto. }
        destruct (IH HF' HI HD') as (j & J1 & J2 & J3). exists j. split; [now right|]. auto.
  Qed.

  (** If an iteration's value of [get] does not depend on the value before it, what is
      stored is the value after a sequential execution. *)
  Lemma stored_spec {V} (get : L -> V) n items l0 :
    (forall i l1 l2, get (snd (body i l1)) = get (snd (body i l2))) ->
    0 <= n -> Forall (item_ok n) items ->
    Permutation (concat (map it_idx items)) (seg 0 n) ->
    (n = 0 -> stored items = []) /\
    (0 < n -> exists v, stored items = [v] /\
       get v = get (sequential body (map (elem r) (seg 0 n)) l0)).
  Proof.
    intros Hget Hn HF HP. split; intros H.
    - subst n. apply (stored_none 0); auto. intros HI.
      apply (Permutation_in _ HP) in HI. rewrite seg_in in HI. lia.
    - destruct (stored_one n items) as (i & I1 & I2 & I3); auto.
      + apply (Permutation_in _ (Permutation_sym HP)). apply seg_in. lia.
      + apply (Permutation_NoDup (Permutation_sym HP)). apply seg_nodup.
      + exists (it_value i). split; auto. rewrite Forall_forall in HF.
        destruct (HF i I1) as [_ H2]. destruct (H2 I3) as [ys E].
        unfold it_value. rewrite E, (seg_last 0 n), !map_app by lia.
        rewrite !sequential_app. cbn [map sequential fold_left]. apply Hget.
  Qed.

  Lemma map_concat_elem (ps : list (list Z)) :
    concat (map (map (elem r)) ps) = map (elem r) (concat ps).
  Proof. now rewrite concat_map. Qed.

  (** Static schedules. *)
  Lemma team_static fuel : forall rts ls,
    fits r ->
    Forall (fun p => 0 <= p_lower p <= p_upper p + 1 /\ p_upper p + 1 <= range_count_spec r /\
              (p_last p = true <-> In (range_count_spec r - 1) (part_indices p)))
      (map (fun rt => rt 1 (range_count_spec r - 1)) rts) ->
    length ls = length rts -> (Z.to_nat (range_count_spec r) < fuel)%nat ->
    exists os items,
      team (fun rt => static_thread body fuel rt (r_start r) (r_stop r) (r_step r)) rts ls = Ok os /\
      map t_trace os = map (fun rt => map (elem r) (part_indices (rt 1 (range_count_spec r - 1)))) rts /\
      map it_idx items = map (fun rt => part_indices (rt 1 (range_count_spec r - 1))) rts /\
      Forall (item_ok (range_count_spec r)) items /\
      team_stores os = stored items.
  Proof.
    induction rts as [|rt rts IH]; intros [|l ls] F HF HL Hf; try discriminate.
    - exists [], []. simpl. auto.
    - simpl in HF. inversion HF as [|? ? [H1 [H2 H3]] HF']; subst.
      destruct (IH ls F HF' ltac:(simpl in HL; lia) Hf) as (os & items & E1 & E2 & E3 & E4 & E5).
      set (p := rt 1 (range_count_spec r - 1)) in *.
      cbn [team]. rewrite (static_thread_spec body Hkeep r fuel rt l p) by auto.
      cbn [bind]. rewrite E1. cbn [bind].
      eexists. exists (Item (p_last p) (part_indices p) l :: items).
      split; [reflexivity|]. split; [simpl; f_equal; assumption|].
      split; [simpl; f_equal; assumption|]. split.
      + constructor; auto. split; [exact H3|]. intros HI. exists (seg (p_lower p) (range_count_spec r - 1)).
        cbn [it_idx] in *. unfold part_indices in *. rewrite seg_in in HI.
        replace (p_upper p + 1) with (range_count_spec r) by lia. apply seg_last. lia.
      + unfold team_stores, stored in *. simpl. rewrite E5. reflexivity.
  Qed.

  (** Static chunked schedules. *)
  Lemma cyclic_last n p : In (n - 1) (cyclic_indices n p) ->
    exists ys, cyclic_indices n p = ys ++ [n - 1].
  Proof.
    intros HI. unfold cyclic_indices in *. apply filter_In in HI as [HI HP].
    rewrite seg_in in HI. rewrite (seg_last 0 n) by lia. rewrite filter_app. simpl.
    rewrite HP. eauto.
  Qed.

  Lemma team_chunked fuel chunk : forall rts ls,
    fits r ->
    Forall (fun p => 0 <= p_lower p <= p_upper p + 1 /\ p_lower p <= range_count_spec r /\
              p_upper p - p_lower p < p_stride p /\ 0 < p_stride p /\
              (p_last p = true <-> In (range_count_spec r - 1) (cyclic_indices (range_count_spec r) p)))
      (map (fun rt => rt chunk (range_count_spec r - 1)) rts) ->
    Forall (fun p => range_count_spec r + p_stride p <= max64 /\
                     in64 (elem r (range_count_spec r + p_stride p)))
      (map (fun rt => rt chunk (range_count_spec r - 1)) rts) ->
    length ls = length rts -> (Z.to_nat (range_count_spec r) < fuel)%nat ->
    exists os items,
      team (fun rt => chunked_thread body fuel rt chunk (r_start r) (r_stop r) (r_step r)) rts ls = Ok os /\
      map t_trace os = map (fun rt => map (elem r) (cyclic_indices (range_count_spec r)
                              (rt chunk (range_count_spec r - 1)))) rts /\
      map it_idx items = map (fun rt => cyclic_indices (range_count_spec r)
                              (rt chunk (range_count_spec r - 1))) rts /\
      Forall (item_ok (range_count_spec r)) items /\
      team_stores os = stored items.
  Proof.
    induction rts as [|rt rts IH]; intros [|l ls] F HF HG HL Hf; try discriminate.
    - exists [], []. simpl. auto.
    - simpl in HF, HG. inversion HF as [|? ? (H1 & H2 & H3 & H4 & H5) HF']; subst.
      inversion HG as [|? ? [G1 G2] HG']; subst.
      destruct (IH ls F HF' HG' ltac:(simpl in HL; lia) Hf) as (os & items & E1 & E2 & E3 & E4 & E5).
      set (p := rt chunk (range_count_spec r - 1)) in *.
      pose proof F as (Hr & Hsp & _). destruct (range_len_spec r Hr Hsp) as [_ HN].
      cbn [team]. rewrite (chunked_thread_spec body Hkeep r fuel rt chunk l p); auto; try lia.
      cbn [bind]. rewrite E1. cbn [bind].
      eexists. exists (Item (p_last p) (cyclic_indices (range_count_spec r) p) l :: items).
      split; [reflexivity|]. split; [simpl; f_equal; assumption|].
      split; [simpl; f_equal; assumption|]. split.
      + constructor; auto. split; [exact H5|]. apply cyclic_last.
      + unfold team_stores, stored in *. simpl. rewrite E5. reflexivity.
  Qed.

  (** Dynamic schedules. *)
  Fixpoint dyn_items (ps : list part) (l : L) : list item :=
    match ps with
    | [] => []
    | p :: ps => Item (p_last p) (part_indices p) l ::
                 dyn_items ps (sequential body (map (elem r) (part_indices p)) l)
    end.

  Lemma dyn_items_stores ps : forall l,
    t_stores (dyn_out body r ps l) = stored (dyn_items ps l).
  Proof.
    induction ps as [|p ps IH]; intros l; [reflexivity|].
    simpl. unfold stored. simpl. fold (stored (dyn_items ps (sequential body (map (elem r) (part_indices p)) l))).
    rewrite IH. reflexivity.
  Qed.

  Lemma dyn_items_idx ps : forall l, map it_idx (dyn_items ps l) = map part_indices ps.
  Proof. induction ps as [|p ps IH]; intros l; simpl; f_equal; auto. Qed.

  Lemma dyn_items_ok ps : forall l,
    Forall (fun p => 0 <= p_lower p <= p_upper p /\ p_upper p < range_count_spec r /\
              (p_last p = true <-> In (range_count_spec r - 1) (part_indices p))) ps ->
    Forall (item_ok (range_count_spec r)) (dyn_items ps l).
  Proof.
    induction ps as [|p ps IH]; intros l HF; simpl; constructor;
      inversion HF as [|? ? (H1 & H2 & H3) HF']; subst; auto.
    split; [exact H3|]. intros HI. exists (seg (p_lower p) (range_count_spec r - 1)).
    cbn [it_idx] in *. unfold part_indices in *. rewrite seg_in in HI.
    replace (p_upper p + 1) with (range_count_spec r) by lia. apply seg_last. lia.
  Qed.

  Lemma team_dynamic fuel chunk : forall rts ls,
    fits r ->
    Forall (Forall (fun p => 0 <= p_lower p <= p_upper p /\ p_upper p < range_count_spec r /\
              (p_last p = true <-> In (range_count_spec r - 1) (part_indices p))))
      (map (fun rt => rt chunk (range_count_spec r - 1)) rts) ->
    length ls = length rts -> (Z.to_nat (range_count_spec r) < fuel)%nat ->
    exists os items,
      team (fun rt => dynamic_thread body fuel rt chunk (r_start r) (r_stop r) (r_step r)) rts ls = Ok os /\
      map t_trace os = map (fun rt => map (elem r) (concat (map part_indices
                              (rt chunk (range_count_spec r - 1))))) rts /\
      concat (map it_idx items) = concat (map (fun rt => concat (map part_indices
                              (rt chunk (range_count_spec r - 1)))) rts) /\
      Forall (item_ok (range_count_spec r)) items /\
      team_stores os = stored items.
  Proof.
    induction rts as [|rt rts IH]; intros [|l ls] F HF HL Hf; try discriminate.
    - exists [], []. simpl. auto.
    - simpl in HF. inversion HF as [|? ? HP HF']; subst.
      destruct (IH ls F HF' ltac:(simpl in HL; lia) Hf) as (os & items & E1 & E2 & E3 & E4 & E5).
      set (ps := rt chunk (range_count_spec r - 1)) in *.
      cbn [team]. rewrite (dynamic_thread_spec body Hkeep r fuel rt chunk l ps); auto.
      2:{ revert HP. apply Forall_impl. intros; tauto. }
      cbn [bind]. rewrite E1. cbn [bind].
      eexists. exists (dyn_items ps l ++ items).
      split; [reflexivity|]. split; [simpl; rewrite dyn_out_trace; f_equal; assumption|].
      split; [|split].
      + simpl. rewrite map_app, concat_app, E3, dyn_items_idx. reflexivity.
      + apply Forall_app. split; auto. now apply dyn_items_ok.
      + unfold team_stores. simpl. fold (team_stores os). rewrite E5.
        unfold stored. rewrite map_app, concat_app. f_equal. apply dyn_items_stores.
  Qed.
End Team.
