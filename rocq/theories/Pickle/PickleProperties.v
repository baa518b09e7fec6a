(** C66: pickling and unpickling. *)
From Coq Require Import List ZArith Lia Bool Permutation.
From Verif.Common Require Import Result Int64 Arr Tac.
From Verif.Dict Require Import Model Spec Flags Cells Proofs OpProofs Run SetModel Properties.
From Verif.Pickle Require Import PickleModel PickleSpec PickleProofs.
Import ListNotations.
Local Open Scope Z_scope.
Local Open Scope res_scope.

(** Loading what was dumped gives an equal value and leaves the stream just after it, whatever
    follows, whatever uninitialised table slots contain. *)
Theorem C66_roundtrip : forall eqb hash junk (t : ty) (v : den t), valid eqb hash t v ->
  exists bytes v', pickle junk t v = Ok bytes /\ same eqb hash t v v' /\
    forall rest, unpickle eqb hash t (bytes ++ rest) = Ok (v', rest).
Proof.
  intros eqb hash junk t v V. destruct (pickle_ok eqb hash junk t v V) as (bs & v' & E & [C _] & S).
  exists bs, v'. auto.
Qed.
Print Assumptions C66_roundtrip.

(** Without dicts and sets inside, the very same value comes back. *)
Theorem C66_identical : forall eqb hash junk (t : ty) (v : den t), plain t = true -> valid eqb hash t v ->
  exists bytes, pickle junk t v = Ok bytes /\ forall rest, unpickle eqb hash t (bytes ++ rest) = Ok (v, rest).
Proof.
  intros eqb hash junk t v P V. destruct (pickle_ok eqb hash junk t v V) as (bs & v' & E & [C _] & S).
  apply (plain_same eqb hash t P) in S. subst v'. exists bs. auto.
Qed.
Print Assumptions C66_identical.

(** A file cut anywhere before its end is refused with an exception: it never loads. *)
Theorem C66_truncated : forall eqb hash junk (t : ty) (v : den t) bytes p q, valid eqb hash t v ->
  pickle junk t v = Ok bytes -> bytes = p ++ q -> q <> [] -> unpickle eqb hash t p = Raise OtherError.
Proof.
  intros eqb hash junk t v bytes p q V E EQ N. destruct (pickle_ok eqb hash junk t v V) as (bs & v' & E' & [_ C] & _).
  rewrite E in E'. injection E' as <-. eauto.
Qed.
Print Assumptions C66_truncated.

(** Values dumped one after another are loaded in order. *)
Theorem C66_sequence : forall eqb hash junk (t u : ty) (v : den t) (w : den u), valid eqb hash t v -> valid eqb hash u w ->
  exists b1 b2 v' w', pickle junk t v = Ok b1 /\ pickle junk u w = Ok b2 /\
    unpickle eqb hash t (b1 ++ b2) = Ok (v', b2) /\ unpickle eqb hash u b2 = Ok (w', []) /\
    same eqb hash t v v' /\ same eqb hash u w w'.
Proof.
  intros eqb hash junk t u v w V W. destruct (pickle_ok eqb hash junk t v V) as (b1 & v' & E1 & [C1 _] & S1).
  destruct (pickle_ok eqb hash junk u w W) as (b2 & w' & E2 & [C2 _] & S2). exists b1, b2, v', w'.
  do 3 (split; [now auto|]). split; [|auto]. rewrite <- (app_nil_r b2). apply C2.
Qed.
Print Assumptions C66_sequence.

(** A loaded dict has the length of the dumped one and answers every lookup alike. *)
Theorem C66_dict_lookups : forall eqb hash junk (k v : ty) (d : tbl (den k) (den v)) bytes,
  valid eqb hash (TDict k v) d -> plain v = true -> pickle junk (TDict k v) d = Ok bytes ->
  exists d' : tbl (den k) (den v), unpickle eqb hash (TDict k v) bytes = Ok (d', []) /\ sz d' = sz d /\
    forall key, exists r, get (eqb k) (hash k) d key = Ok r /\ get (eqb k) (hash k) d' key = Ok r.
Proof.
  intros eqb hash junk k v d bytes V PV E. pose proof V as (_ & KO & _). destruct KO as (_ & S1 & S2 & S3).
  destruct (pickle_ok eqb hash junk (TDict k v) d V) as (bs & d' & E' & [C _] & m & m' & R & R' & F).
  rewrite E in E'. injection E' as <-. change (den (TDict k v)) with (tbl (den k) (den v)) in d'.
  assert (m = m'). { clear -F PV. induction F as [|[a b] [a' b'] m m' [H1 H2] F IH]; auto. cbn in H1, H2. apply (plain_same eqb hash v PV) in H2. congruence. }
  subst m'. exists d'. specialize (C []). rewrite app_nil_r in C. split; auto.
  split; [now rewrite (repr_sz (eqb k) (hash k) d m R), (repr_sz (eqb k) (hash k) d' m R')|].
  assert (G : forall t, repr (eqb k) (hash k) t m -> forall key, get (eqb k) (hash k) t key = Ok (lookup (eqb k) m key)).
  { intros t Rt key. pose proof (get_lookup (eqb k) (hash k) S1 S2 S3 t m key Rt) as W. apply wp_inv in W. destruct W as (x & Ex & H).
    unfold get. rewrite Ex. cbn [bind]. destruct H as [(-> & L & _)|(N & _ & _ & y & L & Rd)]; rewrite L.
    - now rewrite Z.eqb_refl.
    - replace (x =? nb t) with false by (symmetry; apply Z.eqb_neq; auto). cbn [negb]. now rewrite Rd. }
  intros key. exists (lookup (eqb k) m key). split; apply G; auto.
Qed.
Print Assumptions C66_dict_lookups.

(** The hypotheses hold, for instance, of this dict from strings to lists of pairs and of this
    set of ints, made by ordinary operations. *)
Fixpoint bytes_eqb (a b : list Z) : bool :=
  match a, b with
  | [], [] => true
  | x :: a, y :: b => (x =? y) && bytes_eqb a b
  | _, _ => false
  end.
Definition teq (t : ty) : den t -> den t -> bool :=
  match t with
  | TInt => Z.eqb
  | TStr => bytes_eqb
  | _ => fun _ _ => true
  end.
Definition th (t : ty) : den t -> Z :=
  match t with
  | TInt => fun z => z
  | TStr => fun s : list Z => fold_left (fun h c => (h * 31 + c) mod 2^32) s 0
  | _ => fun _ => 0
  end.
Lemma bytes_eqb_eq a : forall b, bytes_eqb a b = true <-> a = b.
Proof.
  induction a as [|x a IH]; intros [|y b]; cbn; split; intros H; try discriminate; auto.
  - apply andb_true_iff in H. destruct H as [H1 H2]. apply Z.eqb_eq in H1. apply IH in H2. congruence.
  - injection H as -> ->. rewrite Z.eqb_refl. now apply IH.
Qed.
Lemma teq_ok (t : ty) : key_ok (teq t) (th t).
Proof.
  destruct t; try (split; [|split; [|split]]; reflexivity).
  - split; [|split; [|split]]; cbn.
    + apply Z.eqb_refl.
    + apply Z.eqb_sym.
    + intros a b c H1 H2. apply Z.eqb_eq in H1, H2. subst. apply Z.eqb_refl.
    + intros a b H. now apply Z.eqb_eq in H.
  - split; [|split; [|split]]; cbn.
    + intros a. now apply bytes_eqb_eq.
    + intros a b. destruct (bytes_eqb a b) eqn:E1, (bytes_eqb b a) eqn:E2; auto.
      * apply bytes_eqb_eq in E1. subst. assert (bytes_eqb b b = true) by now apply bytes_eqb_eq. congruence.
      * apply bytes_eqb_eq in E2. subst. assert (bytes_eqb a a = true) by now apply bytes_eqb_eq. congruence.
    + intros a b c H1 H2. apply bytes_eqb_eq in H1, H2. subst. now apply bytes_eqb_eq.
    + intros a b H. apply bytes_eqb_eq in H. now subst.
Qed.

Definition ex_ty : ty := TDict TStr (TList (TPair TBool TInt)).
Definition ex_dict : res (den ex_ty) :=
  let put := @setitem (den TStr) (den (TList (TPair TBool TInt))) (teq TStr) (th TStr) in
  d <- put new [65; 66] [(true, 7); (false, -1)] ;; d <- put d [67] [] ;; put d [65; 66] [(true, 8)].
Definition ex_set : res (den (TSet TInt)) :=
  d <- add (teq TInt) (th TInt) new 5 ;; d <- add (teq TInt) (th TInt) d (-9) ;;
  d <- SetModel.remove (teq TInt) (th TInt) d 5 ;; add (teq TInt) (th TInt) d 12.

Ltac in64_now := unfold in64, min64, max64; lia.
Example ex_dict_valid : exists d, ex_dict = Ok d /\ valid teq th ex_ty d.
Proof.
  unfold ex_dict. destruct (teq_ok TStr) as (S0 & S1 & S2 & S3).
  assert (R0 : repr (teq TStr) (th TStr) (@new (den TStr) (den (TList (TPair TBool TInt)))) []) by (split; [now left|constructor]).
  destruct (wp_inv _ _ (setitem_ok _ _ S1 S2 S3 _ _ [65; 66] [(true, 7); (false, -1)] R0 ltac:(cbn; lia))) as (d1 & E1 & R1).
  destruct (wp_inv _ _ (setitem_ok _ _ S1 S2 S3 _ _ [67] [] R1 ltac:(cbn; lia))) as (d2 & E2 & R2).
  destruct (wp_inv _ _ (setitem_ok _ _ S1 S2 S3 _ _ [65; 66] [(true, 8)] R2 ltac:(cbn; lia))) as (d3 & E3 & R3).
  exists d3. split.
  { vm_compute in E1. injection E1 as <-. vm_compute in E2. injection E2 as <-. vm_compute in E3. injection E3 as <-. vm_compute. reflexivity. }
  split; [reflexivity|]. split; [exact (teq_ok TStr)|].
  assert (NB : nb d3 = 4). { vm_compute in E1. injection E1 as <-. vm_compute in E2. injection E2 as <-. vm_compute in E3. injection E3 as <-. reflexivity. }
  assert (BB : nb d3 * 8 < 2^63) by (rewrite NB; lia). split; [exact BB|]. split; [exact BB|]. eexists. split; [exact R3|]. cbn.
  split; [lia|]. repeat constructor; cbn; try lia; in64_now.
Qed.
Example ex_set_valid : exists d, ex_set = Ok d /\ valid teq th (TSet TInt) d.
Proof.
  destruct (teq_ok TInt) as (S0 & S1 & S2 & S3).
  assert (R0 : repr (teq TInt) (th TInt) (@new Z unit) []) by (split; [now left|constructor]).
  pose proof (C01_dict_refines_map Z unit (teq TInt) (th TInt) (fun _ _ => true) (fun _ _ => tt)
    [OSet 5 tt; OSet (-9) tt; ODel 5; OSet 12 tt] new [] (teq_ok TInt) R0) as H.
  destruct H as (vs & d & ws & m & E & SR & _ & R); [repeat constructor|cbn; lia|].
  assert (E' : ex_set = Ok d).
  { vm_compute in E. injection E as _ <-. vm_compute. reflexivity. }
  exists d. split; auto. vm_compute in E'. injection E' as <-.
  split; [reflexivity|]. split; [exact (teq_ok TInt)|]. split; [cbn; lia|].
  exists [(-9, tt); (12, tt)]. split; [|split; [cbn; lia|]]. 2: { repeat constructor; cbn; try in64_now. all: discriminate. }
  destruct R as [W _]. split; auto.
Qed.
Example ex_set_bytes : exists bs d', (d <- ex_set ;; pickle (fun _ => [170; 187]) (TSet TInt) d) = Ok bs /\
  length bs = 68%nat /\ unpickle teq th (TSet TInt) bs = Ok (d', []) /\ contains (teq TInt) (th TInt) d' 12 = Ok true /\
  contains (teq TInt) (th TInt) d' 5 = Ok false /\ elems d' = (d <- ex_set ;; elems d).
Proof. eexists; eexists. split; [vm_compute; reflexivity|]. split; [reflexivity|]. split; [vm_compute; reflexivity|]. repeat split. Qed.
