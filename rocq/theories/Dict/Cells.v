(** Lists gathered from the buckets of a table, and how single updates change them. *)
From Coq Require Import List ZArith Lia Bool Permutation.
From Verif.Common Require Import Result Int64 Arr Tac.
From Verif.Dict Require Import Model Flags.
Import ListNotations.
Local Open Scope Z_scope.
Local Arguments Z.add : simpl never.
Local Arguments Z.sub : simpl never.
Local Arguments Z.mul : simpl never.

Lemma zseq_split n i : 0 <= i < n -> exists a b, zseq n = a ++ i :: b /\
  (forall j, In j a -> j <> i) /\ (forall j, In j b -> j <> i).
Proof.
  intros H. destruct (in_split i (zseq n)) as (a & b & E); [now apply in_zseq|].
  exists a, b. split; auto. pose proof (zseq_nodup n) as ND. rewrite E in ND.
  apply NoDup_remove_2 in ND. split; intros j Hj ->; apply ND, in_or_app; auto.
Qed.

Lemma flat_map_ext_in {X Y} (f g : X -> list Y) l :
  (forall x, In x l -> f x = g x) -> flat_map f l = flat_map g l.
Proof.
  induction l as [|a l IH]; intros H; simpl; auto.
  rewrite (H a) by (left; auto). f_equal. apply IH. intros; apply H; right; auto.
Qed.

Lemma flat_map_upd {Y} (f g : Z -> list Y) n i : 0 <= i < n ->
  (forall j, 0 <= j < n -> j <> i -> f j = g j) ->
  Permutation (g i ++ flat_map f (zseq n)) (f i ++ flat_map g (zseq n)).
Proof.
  intros Hi H. destruct (zseq_split n i Hi) as (a & b & E & Ha & Hb).
  assert (R : forall j, In j a \/ In j b -> 0 <= j < n).
  { intros j Hj. apply in_zseq. rewrite E. apply in_or_app. simpl. tauto. }
  rewrite E, !flat_map_app. simpl.
  rewrite (flat_map_ext_in f g a), (flat_map_ext_in f g b) by (intros; apply H; auto).
  set (A := flat_map g a). set (B := flat_map g b).
  rewrite !(Permutation_app_comm A), <- !app_assoc.
  rewrite !app_assoc. do 2 apply Permutation_app_tail. apply Permutation_app_comm.
Qed.

Lemma zseq_app n m : 0 <= n <= m -> exists r, zseq m = zseq n ++ r /\ forall j, In j r -> n <= j < m.
Proof.
  intros H. exists (map Z.of_nat (seq (Z.to_nat n) (Z.to_nat m - Z.to_nat n))). split.
  - unfold zseq. rewrite <- map_app, <- seq_app. do 2 f_equal. lia.
  - intros j Hj. apply in_map_iff in Hj. destruct Hj as (x & <- & Hx). apply in_seq in Hx. lia.
Qed.

Lemma flat_map_nil {X Y} (f : X -> list Y) l : (forall x, In x l -> f x = []) -> flat_map f l = [].
Proof. intros H. rewrite (flat_map_ext_in f (fun _ => []) l H). induction l; simpl; auto. apply IHl. intros; apply H; right; auto. Qed.

Lemma flat_map_cut {Y} (f : Z -> list Y) n m : 0 <= n <= m -> (forall j, n <= j < m -> f j = []) ->
  flat_map f (zseq m) = flat_map f (zseq n).
Proof.
  intros H E. destruct (zseq_app n m H) as (r & -> & Hr). rewrite flat_map_app.
  rewrite (flat_map_nil f r), app_nil_r; auto.
Qed.

Lemma flat_map_len {X Y W} (f : X -> list Y) (g : X -> list W) l :
  (forall x, In x l -> length (f x) = length (g x)) -> length (flat_map f l) = length (flat_map g l).
Proof.
  induction l as [|a l IH]; intros H; simpl; auto.
  rewrite !app_length, (H a) by (left; auto). f_equal. apply IH. intros; apply H; right; auto.
Qed.

(** Number of buckets below [n] satisfying [P]. *)
Definition marks (P : Z -> bool) (i : Z) : list unit := if P i then [tt] else [].
Definition cnt (P : Z -> bool) (n : Z) : Z := zlen (flat_map (marks P) (zseq n)).

Lemma cnt_nonneg P n : 0 <= cnt P n.
Proof. apply zlen_nonneg. Qed.
Lemma cnt_ext P Q n : (forall j, 0 <= j < n -> P j = Q j) -> cnt P n = cnt Q n.
Proof.
  intros H. unfold cnt. f_equal. apply flat_map_ext_in. intros x Hx. apply in_zseq in Hx.
  unfold marks. now rewrite H.
Qed.
Lemma cnt_upd P Q n i : 0 <= i < n -> (forall j, 0 <= j < n -> j <> i -> P j = Q j) ->
  cnt Q n = cnt P n + (if Q i then 1 else 0) - (if P i then 1 else 0).
Proof.
  intros Hi H.
  pose proof (flat_map_upd (marks P) (marks Q) n i Hi) as F.
  specialize (F ltac:(intros; unfold marks; rewrite H; auto)).
  apply Permutation_length in F. rewrite !app_length in F. unfold cnt, zlen, marks in *.
  destruct (P i), (Q i); simpl in F; lia.
Qed.
Lemma cnt_all P n : 0 <= n -> (forall j, 0 <= j < n -> P j = true) -> cnt P n = n.
Proof.
  intros Hn H. unfold cnt. assert (E : length (flat_map (marks P) (zseq n)) = length (zseq n)).
  { assert (G : forall l, (forall x, In x l -> P x = true) -> length (flat_map (marks P) l) = length l).
    { induction l as [|a l IH]; intros HP; simpl; auto. rewrite app_length, IH by (intros; apply HP; right; auto).
      unfold marks. rewrite HP by (left; auto). reflexivity. }
    apply G. intros x Hx. apply H. now apply in_zseq. }
  unfold zlen. rewrite E, zseq_length. lia.
Qed.
Lemma cnt_zero P n : (forall j, 0 <= j < n -> P j = false) -> cnt P n = 0.
Proof.
  intros H. unfold cnt. rewrite flat_map_nil; [reflexivity|]. intros x Hx. apply in_zseq in Hx.
  unfold marks. now rewrite H.
Qed.
Lemma cnt_le P Q n : (forall j, 0 <= j < n -> P j = true -> Q j = true) -> cnt P n <= cnt Q n.
Proof.
  intros H. unfold cnt, zlen.
  assert (G : forall l, (forall x, In x l -> 0 <= x < n) ->
     (length (flat_map (marks P) l) <= length (flat_map (marks Q) l))%nat).
  { induction l as [|a l IH]; intros HP; simpl; auto. rewrite !app_length.
    specialize (IH ltac:(intros; apply HP; right; auto)). unfold marks at 1 3.
    specialize (H a (HP a ltac:(left; auto))). destruct (P a), (Q a); simpl; try lia. }
  specialize (G (zseq n) ltac:(intros; now apply in_zseq)). lia.
Qed.
(** If not every bucket is marked, there is an unmarked one. *)
Lemma cnt_lt_ex P n : 0 <= n -> cnt P n < n -> exists i, 0 <= i < n /\ P i = false.
Proof.
  intros Hn H. destruct (forallb P (zseq n)) eqn:E.
  - rewrite forallb_forall in E. rewrite cnt_all in H; [lia|lia|]. intros j Hj. apply E. now apply in_zseq.
  - assert (X : exists x, In x (zseq n) /\ P x = false).
    { clear H. induction (zseq n) as [|a l IH]; [discriminate|]. simpl in E.
      destruct (P a) eqn:Pa.
      - destruct IH as (x & H1 & H2); auto. exists x. split; auto. now right.
      - exists a. split; auto. now left. }
    destruct X as (x & H1 & H2). exists x. split; auto. now apply in_zseq.
Qed.
Lemma cnt_pos_ex P n : 0 < cnt P n -> exists i, 0 <= i < n /\ P i = true.
Proof.
  intros H. destruct (existsb P (zseq n)) eqn:E.
  - apply existsb_exists in E. destruct E as (x & H1 & H2). exists x. split; auto. now apply in_zseq.
  - rewrite cnt_zero in H; [lia|]. intros j Hj. destruct (P j) eqn:Pj; auto.
    assert (existsb P (zseq n) = true) by (apply existsb_exists; exists j; split; auto; now apply in_zseq).
    congruence.
Qed.

Section Cells.
Context {K V : Type}.

(** The entry stored in slot [i]. *)
Definition ent (ks : list (option K)) (vs : list (option V)) (i : Z) : list (K * V) :=
  match zn None ks i, zn None vs i with Some k, Some v => [(k, v)] | _, _ => [] end.
Definition cell (P : Z -> bool) ks vs (i : Z) := if P i then ent ks vs i else [].
Definition cells (P : Z -> bool) ks vs (n : Z) : list (K * V) := flat_map (cell P ks vs) (zseq n).

Definition full (P : Z -> bool) (ks : list (option K)) (vs : list (option V)) (n : Z) : Prop :=
  forall i, 0 <= i < n -> P i = true -> exists k v, zn None ks i = Some k /\ zn None vs i = Some v.

Lemma ent_some ks vs i k v : zn None ks i = Some k -> zn None vs i = Some v -> ent ks vs i = [(k, v)].
Proof. intros E1 E2. unfold ent. now rewrite E1, E2. Qed.

Lemma cells_len P ks vs n : full P ks vs n -> zlen (cells P ks vs n) = cnt P n.
Proof.
  intros F. unfold zlen, cells, cnt, zlen. f_equal. apply flat_map_len. intros x Hx. apply in_zseq in Hx.
  unfold cell, marks. destruct (P x) eqn:E; auto. destruct (F x Hx E) as (k & v & E1 & E2).
  now rewrite (ent_some _ _ _ k v).
Qed.
Lemma in_cells P ks vs n k v : In (k, v) (cells P ks vs n) <->
  exists i, 0 <= i < n /\ P i = true /\ zn None ks i = Some k /\ zn None vs i = Some v.
Proof.
  unfold cells. rewrite in_flat_map. split.
  - intros (i & Hi & I). apply in_zseq in Hi. exists i. unfold cell, ent in I.
    destruct (P i); [|contradiction]. destruct (zn None ks i), (zn None vs i); try contradiction.
    destruct I as [E|[]]. injection E as -> ->. auto.
  - intros (i & Hi & Pi & E1 & E2). exists i. split; [now apply in_zseq|]. unfold cell. rewrite Pi.
    rewrite (ent_some _ _ _ k v); auto. now left.
Qed.
Lemma cells_upd P Q ks vs ks' vs' n i : 0 <= i < n ->
  (forall j, 0 <= j < n -> j <> i -> P j = Q j /\ zn None ks j = zn None ks' j /\ zn None vs j = zn None vs' j) ->
  Permutation (cell Q ks' vs' i ++ cells P ks vs n) (cell P ks vs i ++ cells Q ks' vs' n).
Proof.
  intros Hi H. apply flat_map_upd; auto. intros j Hj N. destruct (H j Hj N) as (E1 & E2 & E3).
  unfold cell, ent. now rewrite E1, E2, E3.
Qed.
Lemma cells_ext P Q ks vs ks' vs' n :
  (forall j, 0 <= j < n -> P j = Q j /\ (P j = true -> zn None ks j = zn None ks' j /\ zn None vs j = zn None vs' j)) ->
  cells P ks vs n = cells Q ks' vs' n.
Proof.
  intros H. apply flat_map_ext_in. intros j Hj. apply in_zseq in Hj. destruct (H j Hj) as (E1 & E2).
  unfold cell. rewrite <- E1. destruct (P j); auto. destruct E2 as (E2 & E3); auto.
  unfold ent. now rewrite E2, E3.
Qed.

Lemma rd_ok {X} (p : list (option X)) i x : 0 <= i < zlen p -> zn None p i = Some x -> rd p i = Ok x.
Proof. intros H E. unfold rd. rewrite (aget_ok None) by auto. cbn [bind]. now rewrite E. Qed.
Lemma wr_ok {X} (p : list (option X)) i x : 0 <= i < zlen p -> wr p i x = Ok (upd p i (Some x)).
Proof. intros H. unfold wr. now apply aset_ok. Qed.
Lemma grow_ok {X} (p : list (option X)) n : 0 <= n ->
  wp (grow p n) (fun q => zlen q = n /\ forall i, 0 <= i < n -> zn None q i = zn None p i).
Proof.
  intros H. unfold grow. destruct (Z.ltb_spec n 0); [lia|]. apply wp_ok. split.
  - unfold zlen. rewrite app_length, firstn_length, repeat_length. lia.
  - intros i Hi. unfold zn. destruct (Z_lt_le_dec i (zlen p)); unfold zlen in *.
    + rewrite app_nth1 by (rewrite firstn_length; lia). apply nth_firstn_lt. lia.
    + rewrite app_nth2 by (rewrite firstn_length; lia). rewrite firstn_length.
      rewrite (nth_overflow p) by lia. 
      destruct (nth_in_or_default (Z.to_nat i - Nat.min (Z.to_nat n) (length p)) (repeat (@None X) (Z.to_nat n - length p)) None) as [I|E]; auto.
      now apply repeat_spec in I.
Qed.
End Cells.
