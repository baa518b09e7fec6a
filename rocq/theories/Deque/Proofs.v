From Coq Require Import List ZArith Lia Bool ZifyBool.
From Verif.Common Require Import Result Int64 Arr Tac.
From Verif.Deque Require Import Model Spec.
Import ListNotations.
Local Open Scope Z_scope.
Local Open Scope res_scope.
Local Arguments Z.add : simpl never.
Local Arguments Z.sub : simpl never.
Local Arguments Z.mul : simpl never.
Local Arguments Z.pow : simpl never.
Local Arguments Z.modulo : simpl never.
Local Arguments Z.land : simpl never.

Section Proofs.
Context {T : Type}.
Notation dq := (dq T).

Lemma land_mask x j : 0 <= j -> Z.land x (2^j - 1) = x mod 2^j.
Proof. intros H. rewrite <- Z.land_ones by auto. f_equal. rewrite Z.ones_equiv. lia. Qed.

Lemma mod_inj h i k c : 0 < c -> 0 <= i < c -> 0 <= k < c -> (h + i) mod c = (h + k) mod c -> i = k.
Proof.
  intros Hc Hi Hk E.
  assert (D : (i - k) mod c = 0).
  { replace (i - k) with ((h + i) - (h + k)) by lia. rewrite Zminus_mod, E, Z.sub_diag. apply Z.mod_0_l. lia. }
  apply Z.mod_divide in D; [|lia]. destruct D as (q & D).
  assert (q = 0) by (destruct (Z.lt_trichotomy q 0) as [|[|]]; auto; exfalso; nia). subst q. lia.
Qed.
Lemma mod_wrap h i c : 0 <= h < c -> 0 <= i < c -> (h + i) mod c = if h + i <? c then h + i else h + i - c.
Proof.
  intros Hh Hi. destruct (Z.ltb_spec (h + i) c).
  - apply Z.mod_small. lia.
  - symmetry. apply Z.mod_unique_pos with (q := 1); lia.
Qed.

(** Element [i] of a sequence. *)
Definition at_ (xs : list T) (i : Z) : option T := nth_error xs (Z.to_nat i).
Lemma at_app xs x i : 0 <= i <= zlen xs -> at_ (xs ++ [x]) i = if i =? zlen xs then Some x else at_ xs i.
Proof.
  intros H. unfold at_, zlen in *. destruct (Z.eqb_spec i (Z.of_nat (length xs))) as [->|N].
  - rewrite Nat2Z.id, nth_error_app2, Nat.sub_diag by lia. reflexivity.
  - apply nth_error_app1. lia.
Qed.
Lemma at_cons x xs i : 0 <= i -> at_ (x :: xs) i = if i =? 0 then Some x else at_ xs (i - 1).
Proof.
  intros H. unfold at_. destruct (Z.eqb_spec i 0) as [->|N]; [reflexivity|].
  replace (Z.to_nat i) with (S (Z.to_nat (i - 1))) by lia. reflexivity.
Qed.
Lemma zlen_app1 (xs : list T) x : zlen (xs ++ [x]) = zlen xs + 1.
Proof. unfold zlen. rewrite app_length. simpl. lia. Qed.
Lemma zlen_cons1 (xs : list T) x : zlen (x :: xs) = zlen xs + 1.
Proof. unfold zlen. simpl length. lia. Qed.
Lemma at_some xs i : 0 <= i < zlen xs -> exists x, at_ xs i = Some x.
Proof.
  intros H. unfold at_, zlen in *. destruct (nth_error xs (Z.to_nat i)) eqn:E; eauto.
  apply nth_error_None in E. lia.
Qed.

(** The ring holds [xs], possibly filling it completely. *)
Record ring (j : Z) (d : dq) (xs : list T) : Prop := RING {
  r_j : 0 <= j;
  r_cap : cap d = 2^j;
  r_head : 0 <= head d < 2^j;
  r_tail : tail d = (head d + zlen xs) mod 2^j;
  r_len : zlen xs <= 2^j;
  r_el : forall i, 0 <= i < zlen xs -> zn None (arr d) ((head d + i) mod 2^j) = at_ xs i }.

Definition repr (d : dq) (xs : list T) : Prop := exists j, ring j d xs /\ zlen xs < 2^j.

Lemma pw j : 0 <= j -> 0 < 2^j.
Proof. intros. apply Z.pow_pos_nonneg; lia. Qed.

Lemma mask_mod j d xs x : ring j d xs -> Z.land x (mask d) = x mod 2^j.
Proof. intros R. unfold mask. rewrite (r_cap _ _ _ R). apply land_mask. apply R. Qed.

Lemma len_mod j d xs : ring j d xs -> len d = zlen xs mod 2^j.
Proof.
  intros R. unfold len. rewrite (mask_mod j d xs _ R), (r_tail _ _ _ R). rewrite Zminus_mod_idemp_l. f_equal. lia.
Qed.
Lemma empty_iff j d xs : ring j d xs -> (head d =? tail d) = (zlen xs mod 2^j =? 0).
Proof.
  intros R. pose proof (pw j (r_j _ _ _ R)) as P. pose proof (r_head _ _ _ R). rewrite (r_tail _ _ _ R).
  apply Bool.eq_true_iff_eq. rewrite !Z.eqb_eq. split; intros E.
  - rewrite <- (Z.mod_small (head d) (2^j)) in E at 1 by lia.
    replace (zlen xs) with ((head d + zlen xs) - head d) by lia. rewrite Zminus_mod, <- E.
    rewrite <- Zminus_mod, Z.sub_diag. apply Z.mod_0_l. lia.
  - rewrite Z.add_mod, E, Z.add_0_r, Z.mod_mod by lia. symmetry. now apply Z.mod_small.
Qed.

Lemma append_core j d xs x : ring j d xs -> zlen xs < 2^j ->
  exists a, aset (arr d) (tail d) (Some x) = Ok a /\
    ring j (D a (head d) (Z.land (tail d + 1) (mask d)) (maxlen d)) (xs ++ [x]).
Proof.
  intros R L. pose proof (pw j (r_j _ _ _ R)) as P. pose proof (r_head _ _ _ R) as H.
  pose proof (r_cap _ _ _ R) as C. unfold cap in C. pose proof (zlen_nonneg xs).
  assert (Ht : 0 <= tail d < 2^j) by (rewrite (r_tail _ _ _ R); apply Z.mod_pos_bound; lia).
  exists (upd (arr d) (tail d) (Some x)). split; [apply aset_ok; lia|].
  rewrite (mask_mod j d xs _ R). constructor; cbn [arr head tail maxlen]; auto.
  - apply R.
  - unfold cap. cbn [arr]. now rewrite zlen_upd.
  - rewrite zlen_app1, (r_tail _ _ _ R), Zplus_mod_idemp_l. f_equal. lia.
  - rewrite zlen_app1. lia.
  - intros i Hi. rewrite zlen_app1 in Hi. rewrite at_app by lia.
    pose proof (Z.mod_pos_bound (head d + i) (2^j) P). rewrite zn_upd by lia.
    rewrite (r_tail _ _ _ R). destruct (Z.eqb_spec i (zlen xs)) as [->|N].
    + now rewrite Z.eqb_refl.
    + destruct (Z.eqb_spec ((head d + i) mod 2^j) ((head d + zlen xs) mod 2^j)) as [E|E].
      * exfalso. apply N. apply (mod_inj (head d) i (zlen xs) (2^j)); auto; lia.
      * apply R. lia.
Qed.

Lemma appendleft_core j d xs x : ring j d xs -> zlen xs < 2^j ->
  exists a, aset (arr d) (Z.land (head d - 1) (mask d)) (Some x) = Ok a /\
    ring j (D a (Z.land (head d - 1) (mask d)) (tail d) (maxlen d)) (x :: xs).
Proof.
  intros R L. pose proof (pw j (r_j _ _ _ R)) as P. pose proof (r_head _ _ _ R) as H.
  pose proof (r_cap _ _ _ R) as C. unfold cap in C. pose proof (zlen_nonneg xs).
  rewrite (mask_mod j d xs _ R). set (h := (head d - 1) mod 2^j).
  assert (Hh : 0 <= h < 2^j) by (apply Z.mod_pos_bound; lia).
  assert (EH : forall i, (h + i) mod 2^j = (head d + (i - 1)) mod 2^j).
  { intros i. unfold h. rewrite Zplus_mod_idemp_l. f_equal. lia. }
  exists (upd (arr d) h (Some x)). split; [apply aset_ok; lia|].
  constructor; cbn [arr head tail maxlen]; auto.
  - apply R.
  - unfold cap. cbn [arr]. now rewrite zlen_upd.
  - rewrite zlen_cons1, EH, (r_tail _ _ _ R). f_equal. lia.
  - rewrite zlen_cons1. lia.
  - intros i Hi. rewrite zlen_cons1 in Hi. rewrite at_cons by lia.
    pose proof (Z.mod_pos_bound (h + i) (2^j) P). rewrite zn_upd by lia.
    destruct (Z.eqb_spec i 0) as [->|N].
    + rewrite Z.add_0_r, (Z.mod_small h) by lia. now rewrite Z.eqb_refl.
    + destruct (Z.eqb_spec ((h + i) mod 2^j) h) as [E|E].
      * exfalso. apply N. apply (mod_inj h i 0 (2^j)); auto; try lia. now rewrite E, Z.add_0_r, Z.mod_small.
      * rewrite EH. apply R. lia.
Qed.

Lemma rd_ok (a : list (option T)) i x : 0 <= i < zlen a -> zn None a i = Some x -> rd a i = Ok x.
Proof. intros H E. unfold rd. rewrite (aget_ok None) by auto. cbn [bind]. now rewrite E. Qed.

Lemma popleft_core j d x xs : ring j d (x :: xs) -> zlen (x :: xs) < 2^j ->
  exists h, popleft d = Ok (x, D (arr d) h (tail d) (maxlen d)) /\
    ring j (D (arr d) h (tail d) (maxlen d)) xs.
Proof.
  intros R L. pose proof (pw j (r_j _ _ _ R)) as P. pose proof (r_head _ _ _ R) as H.
  pose proof (r_cap _ _ _ R) as C. unfold cap in C. pose proof (zlen_nonneg xs) as Z0. rewrite zlen_cons1 in L.
  unfold popleft, nonempty. rewrite (empty_iff j d _ R), negb_involutive, zlen_cons1, (Z.mod_small (zlen xs + 1)) by lia.
  replace (zlen xs + 1 =? 0) with false by lia.
  assert (E0 : zn None (arr d) (head d) = Some x).
  { pose proof (r_el _ _ _ R 0) as E. rewrite zlen_cons1, Z.add_0_r, Z.mod_small in E by lia. now rewrite E by lia. }
  rewrite (rd_ok _ _ x) by (auto; lia). cbn [bind]. eexists. split; [reflexivity|].
  rewrite (mask_mod j d _ _ R). set (h := (head d + 1) mod 2^j).
  assert (EH : forall i, (h + i) mod 2^j = (head d + (i + 1)) mod 2^j).
  { intros i. unfold h. rewrite Zplus_mod_idemp_l. f_equal. lia. }
  constructor; cbn [arr head tail maxlen]; auto.
  - apply R.
  - apply Z.mod_pos_bound. lia.
  - rewrite EH, (r_tail _ _ _ R), zlen_cons1. auto.
  - lia.
  - intros i Hi. rewrite EH, (r_el _ _ _ R) by (rewrite zlen_cons1; lia). rewrite at_cons by lia.
    replace (i + 1 =? 0) with false by lia. f_equal. lia.
Qed.

Lemma pop_core j d x xs : ring j d (xs ++ [x]) -> zlen (xs ++ [x]) < 2^j ->
  exists tl, pop d = Ok (x, D (arr d) (head d) tl (maxlen d)) /\
    ring j (D (arr d) (head d) tl (maxlen d)) xs.
Proof.
  intros R L. pose proof (pw j (r_j _ _ _ R)) as P. pose proof (r_head _ _ _ R) as H.
  pose proof (r_cap _ _ _ R) as C. unfold cap in C. pose proof (zlen_nonneg xs) as Z0. rewrite zlen_app1 in L.
  unfold pop, nonempty. rewrite (empty_iff j d _ R), negb_involutive, zlen_app1, (Z.mod_small (zlen xs + 1)) by lia.
  replace (zlen xs + 1 =? 0) with false by lia. rewrite (mask_mod j d _ _ R).
  assert (ET : (tail d - 1) mod 2^j = (head d + zlen xs) mod 2^j).
  { rewrite (r_tail _ _ _ R), zlen_app1, Zminus_mod_idemp_l. f_equal. lia. }
  rewrite ET. pose proof (Z.mod_pos_bound (head d + zlen xs) (2^j) P).
  assert (E0 : zn None (arr d) ((head d + zlen xs) mod 2^j) = Some x).
  { rewrite (r_el _ _ _ R) by (rewrite zlen_app1; lia). rewrite at_app by lia. now rewrite Z.eqb_refl. }
  rewrite (rd_ok _ _ x) by (auto; lia). cbn [bind]. eexists. split; [reflexivity|].
  constructor; cbn [arr head tail maxlen]; auto.
  - apply R.
  - lia.
  - intros i Hi. rewrite (r_el _ _ _ R) by (rewrite zlen_app1; lia). rewrite at_app by lia.
    replace (i =? zlen xs) with false by lia. auto.
Qed.

Lemma copy_loop_ok n : forall (a old : list (option T)) dst src, 0 <= dst -> 0 <= src ->
  dst + Z.of_nat n <= zlen a -> src + Z.of_nat n <= zlen old ->
  exists b, copy_loop n a old dst src = Ok b /\ zlen b = zlen a /\
    forall k, 0 <= k < zlen a -> zn None b k =
      if (dst <=? k) && (k <? dst + Z.of_nat n) then zn None old (k - dst + src) else zn None a k.
Proof.
  induction n as [|n IH]; intros a old dst src Hd Hs La Lo; cbn [copy_loop].
  - exists a. split; auto. split; auto. intros k Hk. replace ((dst <=? k) && (k <? dst + Z.of_nat 0)) with false by lia. auto.
  - rewrite (aget_ok None) by lia. cbn [bind]. rewrite aset_ok by lia. cbn [bind].
    destruct (IH (upd a dst (zn None old src)) old (dst + 1) (src + 1)) as (b & E & L & B); try rewrite zlen_upd; try lia.
    exists b. split; auto. split; [now rewrite L, zlen_upd|]. intros k Hk. rewrite B by (rewrite zlen_upd; lia).
    rewrite zn_upd by lia. destruct (Z.eqb_spec k dst) as [->|N].
    + replace ((dst + 1 <=? dst) && (dst <? dst + 1 + Z.of_nat n)) with false by lia.
      replace ((dst <=? dst) && (dst <? dst + Z.of_nat (S n))) with true by lia. f_equal. lia.
    + replace ((dst + 1 <=? k) && (k <? dst + 1 + Z.of_nat n)) with ((dst <=? k) && (k <? dst + Z.of_nat (S n))) by lia.
      destruct ((dst <=? k) && (k <? dst + Z.of_nat (S n))); auto. f_equal. lia.
Qed.

(** Doubling keeps every cell in ring order, full or not. *)
Lemma double_cap_ok j d xs : ring j d xs -> zlen xs = 2^j ->
  exists d', double_cap d = Ok d' /\ maxlen d' = maxlen d /\ ring (j + 1) d' xs.
Proof.
  intros R L. pose proof (pw j (r_j _ _ _ R)) as P. pose proof (r_head _ _ _ R) as H. pose proof (r_j _ _ _ R).
  pose proof (r_cap _ _ _ R) as C. unfold double_cap. rewrite C. unfold cap in C.
  assert (P2 : 2 ^ (j + 1) = 2^j * 2) by (rewrite Z.pow_add_r by lia; lia).
  assert (LC : zlen (@cells T (2^j * 2)) = 2^j * 2) by (unfold zlen, cells; rewrite repeat_length; lia).
  destruct (copy_loop_ok (Z.to_nat (2^j - head d)) (cells (2^j * 2)) (arr d) 0 (head d)) as (a & E & La & A); try lia.
  rewrite E. cbn [bind].
  destruct (copy_loop_ok (Z.to_nat (head d)) a (arr d) (2^j - head d) 0) as (b & E' & Lb & B); try lia.
  rewrite E'. cbn [bind]. eexists. split; [reflexivity|]. split; [reflexivity|].
  constructor; unfold cap; cbn [arr head tail maxlen]; try lia.
  - rewrite Z.add_0_l, L. symmetry. apply Z.mod_small. lia.
  - intros i Hi. rewrite Z.add_0_l, Z.mod_small by lia. rewrite B by lia. rewrite A by lia. rewrite <- (r_el _ _ _ R) by lia.
    rewrite mod_wrap by lia.
    destruct (Z.ltb_spec (head d + i) (2^j)).
    + replace ((2 ^ j - head d <=? i) && (i <? 2 ^ j - head d + Z.of_nat (Z.to_nat (head d)))) with false by lia.
      replace ((0 <=? i) && (i <? 0 + Z.of_nat (Z.to_nat (2 ^ j - head d)))) with true by lia. f_equal. lia.
    + replace ((2 ^ j - head d <=? i) && (i <? 2 ^ j - head d + Z.of_nat (Z.to_nat (head d)))) with true by lia. f_equal. lia.
Qed.

(** ** Operations *)

(** The bound of a deque: negative means none. For it to work it must not be one less than
    a power of two. *)
Definition bound_of (d : dq) : option Z := if 0 <=? maxlen d then Some (maxlen d) else None.
Definition good_bound (b : option Z) : Prop :=
  match b with None => True | Some m => 0 <= m /\ forall j, 0 <= j -> m + 1 <> 2^j end.
Definition within (b : option Z) (xs : list T) : Prop :=
  match b with None => True | Some m => zlen xs <= m end.

Lemma good_pos m : good_bound (Some m) -> 1 <= m.
Proof. intros (H & G). specialize (G 0 ltac:(lia)). change (2^0) with 1 in G. lia. Qed.

Lemma finish j d xs : ring j d xs -> 1 <= zlen xs ->
  exists d', (if head d =? tail d then double_cap d else Ok d) = Ok d' /\ maxlen d' = maxlen d /\ repr d' xs.
Proof.
  intros R L. pose proof (pw j (r_j _ _ _ R)) as P. pose proof (r_len _ _ _ R). pose proof (r_j _ _ _ R).
  rewrite (empty_iff j d xs R).
  destruct (Z.eq_dec (zlen xs) (2^j)) as [E|N].
  - rewrite E, Z.mod_same by lia. change (0 =? 0) with true. cbn iota.
    destruct (double_cap_ok j d xs R E) as (d' & -> & M & R'). exists d'. split; auto. split; auto.
    exists (j + 1). split; auto. rewrite Z.pow_add_r, E by lia. lia.
  - rewrite Z.mod_small by lia. replace (zlen xs =? 0) with false by lia. exists d. split; auto. split; auto.
    exists j. split; auto. lia.
Qed.

Lemma append_ok d xs x : repr d xs -> good_bound (bound_of d) -> within (bound_of d) xs ->
  exists d', append d x = Ok d' /\ maxlen d' = maxlen d /\
    repr d' (keep_last (bound_of d) (xs ++ [x])) /\ within (bound_of d) (keep_last (bound_of d) (xs ++ [x])).
Proof.
  intros (j & R & L) G W. pose proof (pw j (r_j _ _ _ R)) as P. pose proof (r_j _ _ _ R) as Hj. pose proof (zlen_nonneg xs) as Z0.
  unfold append. destruct (append_core j d xs x R L) as (a & -> & R1). cbn [bind]. cbv zeta.
  set (d1 := D a (head d) (Z.land (tail d + 1) (mask d)) (maxlen d)) in *.
  assert (M1 : maxlen d1 = maxlen d) by reflexivity.
  rewrite (len_mod j d1 _ R1), M1. unfold bound_of in *.
  pose proof (r_len _ _ _ R1) as L1. rewrite zlen_app1 in *.
  destruct (Z.leb_spec 0 (maxlen d)) as [Hm|Hm]; cbn [andb].
  - pose proof (good_pos _ G) as G1. destruct G as (_ & G). simpl in W.
    assert (NP : zlen xs + 1 = 2^j -> zlen xs + 1 <= maxlen d).
    { intros E. specialize (G j Hj). lia. }
    destruct (Z.ltb_spec (maxlen d) ((zlen xs + 1) mod 2^j)) as [Lt|Ge].
    + assert (zlen xs + 1 < 2^j).
      { destruct (Z.eq_dec (zlen xs + 1) (2^j)) as [E|]; [|lia]. rewrite E, Z.mod_same in Lt by lia. lia. }
      rewrite Z.mod_small in Lt by lia.
      assert (zlen xs = maxlen d) by lia.
      destruct (xs ++ [x]) as [|y ys] eqn:EX; [destruct xs; discriminate|].
      assert (LY : zlen ys = maxlen d).
      { assert (Z1 : zlen (xs ++ [x]) = zlen (y :: ys)) by now rewrite EX. rewrite zlen_app1, zlen_cons1 in Z1. lia. }
      destruct (popleft_core j d1 y ys R1) as (h & -> & R2); [rewrite zlen_cons1; lia|]. cbn [bind].
      set (d2 := D (arr d1) h (tail d1) (maxlen d1)) in *.
      destruct (finish j d2 ys R2) as (d' & -> & M & R'); [lia|]. exists d'. split; auto. split; auto.
      unfold keep_last, size. change (Z.of_nat (length (y :: ys))) with (zlen (y :: ys)). rewrite zlen_cons1.
      replace (Z.to_nat (zlen ys + 1 - maxlen d)) with 1%nat by lia. cbn [skipn]. split; auto. simpl. lia.
    + destruct (finish j d1 (xs ++ [x]) R1) as (d' & E & M & R'); [rewrite zlen_app1; lia|].
      exists d'. split; auto. split; auto.
      assert (zlen xs + 1 <= maxlen d).
      { destruct (Z.eq_dec (zlen xs + 1) (2^j)) as [E2|]; [auto|]. rewrite Z.mod_small in Ge by lia. lia. }
      unfold keep_last, size. change (Z.of_nat (length (xs ++ [x]))) with (zlen (xs ++ [x])). rewrite zlen_app1.
      replace (Z.to_nat (zlen xs + 1 - maxlen d)) with 0%nat by lia. cbn [skipn]. split; auto. simpl. rewrite zlen_app1. lia.
  - destruct (finish j d1 (xs ++ [x]) R1) as (d' & E & M & R'); [rewrite zlen_app1; lia|].
    exists d'. split; auto.
Qed.

Lemma appendleft_ok d xs x : repr d xs -> good_bound (bound_of d) -> within (bound_of d) xs ->
  exists d', appendleft d x = Ok d' /\ maxlen d' = maxlen d /\
    repr d' (keep_first (bound_of d) (x :: xs)) /\ within (bound_of d) (keep_first (bound_of d) (x :: xs)).
Proof.
  intros (j & R & L) G W. pose proof (pw j (r_j _ _ _ R)) as P. pose proof (r_j _ _ _ R) as Hj. pose proof (zlen_nonneg xs) as Z0.
  unfold appendleft. cbv zeta. destruct (appendleft_core j d xs x R L) as (a & -> & R1). cbn [bind]. cbv zeta.
  set (d1 := D a (Z.land (head d - 1) (mask d)) (tail d) (maxlen d)) in *.
  assert (M1 : maxlen d1 = maxlen d) by reflexivity.
  rewrite (len_mod j d1 _ R1), M1. unfold bound_of in *.
  pose proof (r_len _ _ _ R1) as L1. rewrite zlen_cons1 in *.
  destruct (Z.leb_spec 0 (maxlen d)) as [Hm|Hm]; cbn [andb].
  - pose proof (good_pos _ G) as G1. destruct G as (_ & G). simpl in W.
    destruct (Z.ltb_spec (maxlen d) ((zlen xs + 1) mod 2^j)) as [Lt|Ge].
    + assert (zlen xs + 1 < 2^j).
      { destruct (Z.eq_dec (zlen xs + 1) (2^j)) as [E|]; [|lia]. rewrite E, Z.mod_same in Lt by lia. lia. }
      rewrite Z.mod_small in Lt by lia.
      assert (zlen xs = maxlen d) by lia.
      destruct (exists_last (l := x :: xs)) as (ys & y & EX); [discriminate|].
      assert (LY : zlen ys = maxlen d).
      { assert (Z1 : zlen (x :: xs) = zlen (ys ++ [y])) by now rewrite EX. rewrite zlen_app1, zlen_cons1 in Z1. lia. }
      rewrite EX in R1.
      destruct (pop_core j d1 y ys R1) as (h & -> & R2); [rewrite zlen_app1; lia|]. cbn [bind].
      set (d2 := D (arr d1) (head d1) h (maxlen d1)) in *.
      destruct (finish j d2 ys R2) as (d' & -> & M & R'); [lia|]. exists d'. split; auto. split; auto.
      unfold keep_first. rewrite EX. rewrite firstn_app.
      replace (Z.to_nat (maxlen d)) with (length ys) by (unfold zlen in LY; lia).
      rewrite firstn_all, Nat.sub_diag. cbn [firstn]. rewrite app_nil_r. split; auto. simpl. lia.
    + destruct (finish j d1 (x :: xs) R1) as (d' & E & M & R'); [rewrite zlen_cons1; lia|].
      exists d'. split; auto. split; auto.
      assert (zlen xs + 1 <= maxlen d).
      { destruct (Z.eq_dec (zlen xs + 1) (2^j)) as [E2|]; [specialize (G j Hj); lia|]. rewrite Z.mod_small in Ge by lia. lia. }
      unfold keep_first. rewrite firstn_all2 by (simpl; unfold zlen in *; lia). split; auto. simpl. rewrite zlen_cons1. lia.
  - destruct (finish j d1 (x :: xs) R1) as (d' & E & M & R'); [rewrite zlen_cons1; lia|].
    exists d'. split; auto.
Qed.

Lemma empty_repr d xs : repr d xs -> (head d =? tail d) = (zlen xs =? 0).
Proof.
  intros (j & R & L). rewrite (empty_iff j d xs R), Z.mod_small; auto. split; [apply zlen_nonneg|auto].
Qed.
Lemma len_ok d xs : repr d xs -> len d = zlen xs.
Proof. intros (j & R & L). rewrite (len_mod j d xs R), Z.mod_small; auto. split; [apply zlen_nonneg|auto]. Qed.

Lemma popleft_ok d xs : repr d xs ->
  match xs with
  | [] => popleft d = Raise IndexError
  | x :: ys => exists d', popleft d = Ok (x, d') /\ maxlen d' = maxlen d /\ repr d' ys
  end.
Proof.
  intros R. pose proof (empty_repr d xs R) as E. destruct xs as [|x ys].
  - unfold popleft, nonempty. rewrite E. reflexivity.
  - destruct R as (j & R & L). destruct (popleft_core j d x ys R L) as (h & -> & R').
    eexists. split; [reflexivity|]. split; auto. exists j. split; auto. rewrite zlen_cons1 in L. lia.
Qed.
Lemma pop_ok d xs : repr d xs ->
  (xs = [] -> pop d = Raise IndexError) /\
  (forall ys x, xs = ys ++ [x] -> exists d', pop d = Ok (x, d') /\ maxlen d' = maxlen d /\ repr d' ys).
Proof.
  intros R. pose proof (empty_repr d xs R) as E. split.
  - intros ->. unfold pop, nonempty. rewrite E. reflexivity.
  - intros ys x ->. destruct R as (j & R & L). destruct (pop_core j d x ys R L) as (h & -> & R').
    eexists. split; [reflexivity|]. split; auto. exists j. split; auto. rewrite zlen_app1 in L. lia.
Qed.

Lemma clear_ok d xs : repr d xs -> repr (clear d) [].
Proof.
  intros (j & R & L). pose proof (pw j (r_j _ _ _ R)) as P. exists j. unfold clear.
  change (zlen (@nil T)) with 0. split; [|lia]. constructor; cbn [arr head tail]; change (zlen (@nil T)) with 0; try lia.
  - apply R.
  - apply (r_cap _ _ _ R).
  - rewrite Z.mod_0_l; lia.
Qed.

Lemma getitem_ok d xs i : repr d xs ->
  getitem d i = match index xs i with Some x => Ok x | None => Raise IndexError end.
Proof.
  intros Rp. unfold getitem, index, idx_bad. rewrite (len_ok d xs Rp), (empty_repr d xs Rp). unfold size.
  change (Z.of_nat (length xs)) with (zlen xs). pose proof (zlen_nonneg xs) as Z0.
  set (k := if i <? 0 then i + zlen xs else i).
  destruct (Z.ltb_spec k 0) as [K|K].
  - replace (orb _ _) with true by lia. reflexivity.
  - destruct (Z.leb_spec (zlen xs) k) as [K2|K2].
    + replace (orb _ _) with true by lia. replace (nth_error xs (Z.to_nat k)) with (@None T); auto.
      symmetry. apply nth_error_None. unfold zlen in *. lia.
    + replace (orb _ _) with false by lia. destruct (at_some xs k) as (x & Ex); [lia|].
      unfold at_ in Ex. rewrite Ex. destruct Rp as (j & R & L).
      pose proof (pw j (r_j _ _ _ R)) as P. pose proof (r_head _ _ _ R) as H. pose proof (r_cap _ _ _ R) as C.
      pose proof (r_tail _ _ _ R) as T1. rewrite mod_wrap in T1 by lia. rewrite C. unfold cap in C.
      pose proof (r_el _ _ _ R k ltac:(lia)) as E. unfold at_ in E. rewrite Ex, mod_wrap in E by lia.
      destruct (Z.ltb_spec (head d + k) (2^j)) as [B|B].
      * rewrite (rd_ok _ _ x) by (auto; lia). now destruct (head d <=? tail d).
      * destruct (Z.ltb_spec (head d + zlen xs) (2^j)); [lia|].
        replace (head d <=? tail d) with false by lia.
        replace ((0 <=? k - (2 ^ j - head d)) && (k - (2 ^ j - head d) <? tail d)) with true by lia.
        replace (k - (2^j - head d)) with (head d + k - 2^j) by lia. apply rd_ok; auto. lia.
Qed.

Lemma items_ok d xs : repr d xs -> items d = Ok xs.
Proof.
  intros (j & R & L). pose proof (pw j (r_j _ _ _ R)) as P. pose proof (r_head _ _ _ R) as H.
  unfold items. rewrite (r_cap _ _ _ R).
  assert (G : forall fuel d xs, ring j d xs -> zlen xs < 2^j -> (length xs < fuel)%nat -> iter_from fuel d (head d) = Ok xs).
  { clear. induction fuel as [|fuel IH]; intros d xs R L F; [lia|]. cbn [iter_from].
    pose proof (zlen_nonneg xs) as Z0. rewrite (empty_iff j d xs R), Z.mod_small by lia.
    destruct xs as [|x xs]; [reflexivity|]. rewrite zlen_cons1 in L |- *. pose proof (zlen_nonneg xs).
    replace (zlen xs + 1 =? 0) with false by lia.
    destruct (popleft_core j d x xs R) as (h & E & R2); [rewrite zlen_cons1; lia|].
    unfold popleft in E. destruct (negb (nonempty d)); [discriminate|].
    destruct (rd (arr d) (head d)) as [y| | |]; try discriminate. cbn [bind] in *. injection E as -> Eh.
    rewrite Eh. specialize (IH _ xs R2 ltac:(lia) ltac:(simpl in F; lia)).
    cbn [head] in IH.
    assert (IE : forall n i, iter_from n (D (arr d) h (tail d) (maxlen d)) i = iter_from n d i).
    { induction n; intros i; cbn [iter_from]; auto. cbn [tail arr]. destruct (i =? tail d); auto.
      destruct (rd (arr d) i); auto. cbn [bind]. unfold mask, cap. cbn [arr]. now rewrite IHn. }
    rewrite IE in IH. rewrite IH. reflexivity. }
  apply G; auto. unfold zlen in L. lia.
Qed.

Lemma left_ok d xs : repr d xs -> left d = match xs with x :: _ => Ok x | [] => Raise IndexError end.
Proof.
  intros R. unfold left. pose proof (getitem_ok d xs 0 R) as G. unfold getitem in G.
  change (0 <? 0) with false in G. cbv zeta iota in G. destruct (idx_bad d 0) eqn:B.
  - unfold index in G. change (0 <? 0) with false in G. cbv zeta iota in G. destruct xs; auto.
  - rewrite Z.add_0_r in G. destruct R as (j & R & L). pose proof (r_head _ _ _ R). rewrite (r_cap _ _ _ R) in G.
    replace (head d <? 2^j) with true in G by lia.
    unfold index in G. change (0 <? 0) with false in G. cbv zeta iota in G.
    destruct (head d <=? tail d); rewrite G; destruct xs; reflexivity.
Qed.

Lemma cap_loop_ok fuel : forall j m, 0 <= j -> (Z.of_nat fuel > 63 - j) -> m <= 2^62 -> j <= 62 ->
  exists k, 0 <= k <= 62 /\ cap_loop fuel (2^j) m = Ok (2^k).
Proof.
  induction fuel as [|fuel IH]; intros j m Hj F Hm Hj2; [lia|]. cbn [cap_loop].
  destruct (Z.ltb_spec (2^j) m) as [Lt|Ge]; [|exists j; auto].
  assert (j < 62) by (apply (Z.pow_lt_mono_r_iff 2); lia).
  assert (E : 2^j * 2 = 2^(j + 1)) by (rewrite Z.pow_add_r by lia; lia).
  assert (2^(j + 1) <= 2^62) by (apply Z.pow_le_mono_r; lia).
  rewrite w64_id by (unfold in64, min64, max64; pose proof (pw j Hj); lia). rewrite E.
  apply IH; lia.
Qed.

Lemma new_repr_pow j m : 0 <= j -> repr (D (cells (2^j)) 0 0 m) [].
Proof.
  intros Hj. pose proof (pw j Hj). exists j. change (zlen (@nil T)) with 0. split; [|lia].
  constructor; unfold cap; cbn [arr head tail]; change (zlen (@nil T)) with 0; try lia.
  - unfold zlen, cells. rewrite repeat_length. lia.
  - rewrite Z.mod_0_l; lia.
Qed.
Lemma new_repr : repr new [].
Proof. apply (new_repr_pow 4). lia. Qed.
Lemma new_maxlen_ok m : m <= 2^62 -> exists d, new_maxlen m = Ok d /\ maxlen d = m /\ repr d [].
Proof.
  intros Hm. unfold new_maxlen. destruct (cap_loop_ok 64 0 m) as (k & Hk & E); try lia.
  change (2^0) with 1 in E. rewrite E. cbn [bind]. eexists. split; [reflexivity|]. split; auto.
  apply new_repr_pow. lia.
Qed.

(** ** Histories *)
Definition run_dop (d : dq) (o : dop T) : res (dval T * dq) :=
  match
    match o with
    | DAppend x => d1 <- append d x ;; Ok (DVNone, d1)
    | DAppendLeft x => d1 <- appendleft d x ;; Ok (DVNone, d1)
    | DPop => '(x, d1) <- pop d ;; Ok (DVElem x, d1)
    | DPopLeft => '(x, d1) <- popleft d ;; Ok (DVElem x, d1)
    | DClear => Ok (DVNone, clear d)
    | DLen => Ok (DVInt (len d), d)
    | DBool => Ok (DVBool (nonempty d), d)
    | DIndex i => x <- getitem d i ;; Ok (DVElem x, d)
    | DLeft => x <- left d ;; Ok (DVElem x, d)
    | DItems => l <- items d ;; Ok (DVItems l, d)
    end
  with
  | Raise e => Ok (DVExn e, d)
  | m => m
  end.
Fixpoint run (d : dq) (os : list (dop T)) : res (list (dval T) * dq) :=
  match os with
  | [] => Ok ([], d)
  | o :: os => '(v, d1) <- run_dop d o ;; '(vs, d2) <- run d1 os ;; Ok (v :: vs, d2)
  end.

Lemma op_ok d xs o : repr d xs -> good_bound (bound_of d) -> within (bound_of d) xs ->
  exists d', run_dop d o = Ok (snd (spec_dop (bound_of d) xs o), d') /\ maxlen d' = maxlen d /\
    repr d' (fst (spec_dop (bound_of d) xs o)) /\ within (bound_of d) (fst (spec_dop (bound_of d) xs o)).
Proof.
  intros R G W. unfold run_dop. destruct o; cbn [spec_dop fst snd].
  - destruct (append_ok d xs x R G W) as (d' & -> & M & R' & W'). cbn [bind]. eauto 6.
  - destruct (appendleft_ok d xs x R G W) as (d' & -> & M & R' & W'). cbn [bind]. eauto 6.
  - destruct (pop_ok d xs R) as (P0 & P1). destruct xs as [|x0 xs0] eqn:EX; [rewrite P0 by auto; cbn [bind]; exists d; auto|].
    destruct (exists_last (l := x0 :: xs0)) as (ys & y & EY); [discriminate|]. rewrite EY in *.
    destruct (P1 ys y eq_refl) as (d' & -> & M & R'). cbn [bind]. exists d'.
    rewrite app_length, nth_error_app2 by (simpl; lia). simpl length.
    replace (length ys + 1 - 1 - length ys)%nat with 0%nat by lia. cbn [nth_error elem]. rewrite removelast_last.
    split; auto. split; auto. split; auto. destruct (bound_of d); auto. simpl in *. rewrite zlen_app1 in W. lia.
  - pose proof (popleft_ok d xs R) as P. destruct xs as [|x xs]; [rewrite P; cbn [bind]; exists d; auto|].
    destruct P as (d' & -> & M & R'). cbn [bind hd_error elem tl]. exists d'. split; auto. split; auto. split; auto.
    destruct (bound_of d); auto. simpl in *. rewrite zlen_cons1 in W. lia.
  - exists (clear d). split; auto. split; auto. split; [eapply clear_ok; eauto|].
    unfold bound_of. destruct (Z.leb_spec 0 (maxlen d)); simpl; auto.
  - exists d. rewrite (len_ok d xs R). auto.
  - exists d. unfold nonempty. rewrite (empty_repr d xs R). auto.
  - rewrite (getitem_ok d xs i R). destruct (index xs i); cbn [bind elem]; exists d; auto.
  - rewrite (left_ok d xs R). destruct xs; cbn [bind elem hd_error]; exists d; auto.
  - rewrite (items_ok d xs R). cbn [bind]. exists d. auto.
Qed.

Theorem run_ok os : forall d xs, repr d xs -> good_bound (bound_of d) -> within (bound_of d) xs ->
  exists d', run d os = Ok (fst (spec_drun (bound_of d) xs os), d') /\
    repr d' (snd (spec_drun (bound_of d) xs os)) /\ within (bound_of d) (snd (spec_drun (bound_of d) xs os)).
Proof.
  induction os as [|o os IH]; intros d xs R G W; cbn [run spec_drun].
  - exists d. auto.
  - destruct (op_ok d xs o R G W) as (d1 & E & M & R1 & W1). rewrite E. cbn [bind].
    destruct (spec_dop (bound_of d) xs o) as [xs1 v]. cbn [fst snd] in *.
    assert (BM : bound_of d1 = bound_of d) by (unfold bound_of; now rewrite M).
    rewrite <- BM in *. destruct (IH d1 xs1 R1 G W1) as (d2 & E2 & R2 & W2). rewrite E2. cbn [bind].
    destruct (spec_drun (bound_of d1) xs1 os) as [vs xs2]. cbn [fst snd] in *. eauto.
Qed.

Lemma append_all_ok l : forall d xs, repr d xs -> bound_of d = None ->
  exists d', append_all d l = Ok d' /\ maxlen d' = maxlen d /\ repr d' (xs ++ l).
Proof.
  induction l as [|x l IH]; intros d xs R B; cbn [append_all].
  - exists d. rewrite app_nil_r. auto.
  - destruct (append_ok d xs x R) as (d1 & -> & M & R1 & _); [now rewrite B|now rewrite B|]. cbn [bind].
    rewrite B in R1. simpl in R1. destruct (IH d1 (xs ++ [x]) R1) as (d2 & E & M2 & R2).
    + unfold bound_of in *. now rewrite M.
    + exists d2. split; auto. split; [congruence|]. now rewrite <- app_assoc in R2.
Qed.
End Proofs.
