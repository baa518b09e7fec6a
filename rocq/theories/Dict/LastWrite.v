(** The dict read as the history of its updates, newest first. *)
From Coq Require Import List ZArith Lia Bool Permutation.
From Verif.Common Require Import Result Int64 Arr Tac.
From Verif.Dict Require Import Model Spec Flags Cells Proofs OpProofs Run.
Import ListNotations.
Local Open Scope Z_scope.
Local Arguments Z.add : simpl never.
Local Arguments Z.pow : simpl never.

Inductive update_op (K V : Type) : Type :=
| USet (k : K) (v : V) | UDel (k : K) | UClear | UResize (n : Z).
Arguments USet {K V} _ _. Arguments UDel {K V} _. Arguments UClear {K V}. Arguments UResize {K V} _.

Section LastWrite.
Context {K V : Type} (eqb : K -> K -> bool) (veq : V -> V -> bool) (plus : V -> V -> V) (hash : K -> Z).

(** What [d[k]] should be after the updates [h], newest first. *)
Fixpoint last_write (h : list (update_op K V)) (k : K) : option V :=
  match h with
  | [] => None
  | USet k' v :: h => if eqb k' k then Some v else last_write h k
  | UDel k' :: h => if eqb k' k then None else last_write h k
  | UClear :: _ => None
  | UResize _ :: h => last_write h k
  end.

Definition to_op {B} (u : update_op K V) : op K V B :=
  match u with
  | USet k v => OSet k v | UDel k => ODel k | UClear => OClear | UResize n => OResize n
  end.

Context (eqb_refl : forall a, eqb a a = true).
Context (eqb_sym : forall a b, eqb a b = eqb b a).
Context (eqb_trans : forall a b c, eqb a b = true -> eqb b c = true -> eqb a c = true).
Context (hash_eq : forall a b, eqb a b = true -> hash a = hash b).

(** The laws of [store] and [remove]. *)
Lemma lookup_store (m : list (K * V)) k v k' :
  lookup eqb (store eqb m k v) k' = if eqb k k' then Some v else lookup eqb m k'.
Proof.
  induction m as [|[a w] m IH]; simpl; auto.
  destruct (eqb a k) eqn:E; simpl.
  - destruct (eqb k k') eqn:E'.
    + now rewrite (eqb_trans a k k' E E').
    + destruct (eqb a k') eqn:A; auto. rewrite (eqb_trans k a k') in E'; auto; [discriminate|]. now rewrite eqb_sym.
  - rewrite IH. destruct (eqb a k') eqn:A; auto. destruct (eqb k k') eqn:E'; auto.
    rewrite (eqb_trans a k' k) in E; auto; [discriminate|]. now rewrite eqb_sym.
Qed.
Lemma lookup_remove (m : list (K * V)) k k' :
  lookup eqb (remove eqb m k) k' = if eqb k k' then None else lookup eqb m k'.
Proof.
  unfold remove. induction m as [|[a w] m IH]; simpl; [now destruct (eqb k k')|].
  destruct (eqb a k) eqn:E; simpl; rewrite IH.
  - destruct (eqb k k') eqn:E'; auto. destruct (eqb a k') eqn:A; auto.
    rewrite (eqb_trans k a k') in E'; auto; [discriminate|]. now rewrite eqb_sym.
  - destruct (eqb a k') eqn:A; auto. destruct (eqb k k') eqn:E'; auto.
    rewrite (eqb_trans a k' k) in E; auto; [discriminate|]. now rewrite eqb_sym.
Qed.

Lemma spec_run_app m os1 os2 ws m' : spec_run eqb veq plus m (os1 ++ os2) ws m' ->
  exists ws1 ws2 m1, spec_run eqb veq plus m os1 ws1 m1 /\ spec_run eqb veq plus m1 os2 ws2 m'.
Proof.
  revert m ws. induction os1 as [|o os1 IH]; intros m ws H.
  - exists [], ws, m. split; [constructor|auto].
  - inversion H as [|? ? ? r ? ? ? SO SR]; subst. destruct (IH _ _ SR) as (w1 & w2 & m2 & A & B).
    exists (r :: w1), w2, m2. split; auto. econstructor; eauto.
Qed.

Lemma last_write_spec h : forall ws m, spec_run eqb veq plus [] (map to_op (rev h)) ws m ->
  forall k, lookup eqb m k = last_write h k.
Proof.
  induction h as [|u h IH]; intros ws m H k; simpl in H.
  - inversion H. reflexivity.
  - rewrite map_app in H. apply spec_run_app in H. destruct H as (w1 & w2 & m1 & A & B).
    specialize (IH _ _ A). inversion B as [|? ? m2 ? ? ? ? SO SR]; subst. inversion SR; subst. clear B SR.
    destruct u; simpl in SO.
    + destruct SO as [-> _]. rewrite lookup_store, IH. reflexivity.
    + destruct SO as [-> _]. rewrite lookup_remove, IH. reflexivity.
    + destruct SO as [-> _]. reflexivity.
    + destruct SO as [-> _]. apply IH.
Qed.

Theorem history_last_write (h : list (update_op K V)) :
  zlen h <= 2^60 -> (forall n, In (UResize n) h -> in64 n) ->
  exists vs t l, run eqb veq plus hash new (map to_op (rev h)) = Ok (vs, t) /\
    items t = Ok l /\ keys_uniq eqb l /\ sz t = zlen l /\
    (forall k v, In (k, v) l -> last_write h k = Some v) /\
    forall k, get eqb hash t k = Ok (last_write h k) /\
      contains eqb hash t k = Ok (match last_write h k with Some _ => true | None => false end) /\
      getitem eqb hash t k = match last_write h k with Some v => Ok v | None => Raise KeyError end.
Proof.
  intros L64 R64.
  set (os := map (@to_op (tbl K V * list (K * V))) (rev h)).
  destruct (run_ok eqb veq plus hash eqb_sym eqb_trans hash_eq eqb_refl os new []) as (vs & t & ws & m & E & S & _ & R).
  - split; [now left|constructor].
  - apply Forall_forall. intros o I. apply in_map_iff in I. destruct I as (u & <- & I). apply in_rev in I.
    destruct u; simpl; auto.
  - change (zlen (@nil (K * V))) with 0.
    assert (G : forall l : list (update_op K V), fold_right Z.add 0
      (map (weight (fun y => zlen (snd y))) (map (@to_op (tbl K V * list (K * V))) l)) = zlen l).
    { induction l as [|u l IHl]; [reflexivity|]. cbn [map fold_right]. rewrite IHl.
      replace (zlen (u :: l)) with (zlen l + 1) by (unfold zlen; simpl length; lia). destruct u; cbn [to_op weight]; lia. }
    unfold os. rewrite G. unfold zlen in *. rewrite rev_length. lia.
  - assert (EQ : forall B (f : tbl K V * list (K * V) -> B), map (op_map f) os = map to_op (rev h)).
    { intros B f. unfold os. rewrite map_map. apply map_ext. intros []; reflexivity. }
    rewrite EQ in E, S. pose proof (last_write_spec h ws m S) as LW.
    pose proof R as (W & P). pose proof (repr_uniq eqb hash eqb_sym t m R) as U.
    exists vs, t, (ents t). split; auto. split; [now apply (items_spec eqb hash)|].
    split; [now apply (wf_keys_uniq eqb hash)|]. split; [now apply (wf_sz eqb hash)|]. split.
    + intros k v I. rewrite <- LW. apply (present_facts eqb eqb_sym eqb_trans m k v k U); auto.
      eapply Permutation_in; eauto.
    + intros k. rewrite <- LW. pose proof (get_lookup eqb hash eqb_sym eqb_trans hash_eq t m k R) as G.
      apply wp_inv in G. destruct G as (x & Ex & G). unfold get, contains, getitem. rewrite Ex. cbn [bind].
      destruct G as [(-> & Lk & _)|(N & _ & _ & v & Lk & Rd)]; rewrite Lk.
      * now rewrite Z.eqb_refl.
      * destruct (Z.eqb_spec x (nb t)); [lia|]. cbn [negb]. rewrite Rd. auto.
Qed.
End LastWrite.
