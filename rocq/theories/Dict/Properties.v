(** C01-C04: dicts and sets.  C35: assigning while iterating.  C36: dict arithmetic.

    Reading guide.  [key_ok eqb hash] says that key equality is an equivalence and that
    equal keys have equal hashes; nothing else is assumed about the hash.  [run] performs
    operations on the hash table of Model.v, starting here from the empty table [new];
    [spec_run] (Spec.v, SetSpec.v) says what the same operations mean for finite maps and
    sets.  [repr t m]: the table [t] is well formed and holds the entries [m], in some
    order.  A result [Ok] of [run] means that no loop ran out of its bound and no access
    left its block ([NoFuel], [Undef] are the other outcomes). *)
From Coq Require Import List ZArith Lia Bool Permutation.
From Verif.Common Require Import Result Int64 Arr Tac.
From Verif.Dict Require Import Model Spec Flags Cells Proofs OpProofs Run LastWrite
  SetModel SetSpec SetProofs IterModel IterProofs.
Import ListNotations.
Local Open Scope Z_scope.
Local Arguments Z.add : simpl never.
Local Arguments Z.pow : simpl never.

Definition key_ok {K} (eqb : K -> K -> bool) (hash : K -> Z) : Prop :=
  (forall a, eqb a a = true) /\ (forall a b, eqb a b = eqb b a) /\
  (forall a b c, eqb a b = true -> eqb b c = true -> eqb a c = true) /\
  (forall a b, eqb a b = true -> hash a = hash b).

Definition total_weight {K V B} (size : B -> Z) (os : list (op K V B)) : Z :=
  fold_right Z.add 0 (map (weight size) os).

(** ** C01 *)

(** Any history on any table holding [m] behaves as the finite map does. Operands that are
    dicts come as pairs of a table and the map it holds. *)
Theorem C01_dict_refines_map :
  forall (K V : Type) (eqb : K -> K -> bool) (hash : K -> Z) (veq : V -> V -> bool) (plus : V -> V -> V)
    (os : list (op K V (tbl K V * list (K * V)))) (t : tbl K V) (m : list (K * V)),
  key_ok eqb hash -> repr eqb hash t m -> Forall (operand_ok eqb hash) os ->
  Z.of_nat (length m) + total_weight (fun y => Z.of_nat (length (snd y))) os <= 2^60 ->
  exists vs t' ws m', run eqb veq plus hash t (map (op_map fst) os) = Ok (vs, t') /\
    spec_run eqb veq plus m (map (op_map snd) os) ws m' /\
    Forall2 (value_repr eqb hash) vs ws /\ repr eqb hash t' m'.
Proof.
  intros K V eqb hash veq plus os t m (H1 & H2 & H3 & H4) R F S.
  apply run_ok; auto.
Qed.
Print Assumptions C01_dict_refines_map.

Theorem C01_empty : forall (K V : Type) (eqb : K -> K -> bool) (hash : K -> Z),
  repr eqb hash (@new K V) [].
Proof. intros. split; [now left|constructor]. Qed.

(** After any updates from the empty dict every read gives the last value stored under an
    equal key and not since deleted; iteration gives each such key once. *)
Theorem C01_last_write :
  forall (K V : Type) (eqb : K -> K -> bool) (hash : K -> Z) (veq : V -> V -> bool) (plus : V -> V -> V)
    (h : list (update_op K V)),
  key_ok eqb hash -> Z.of_nat (length h) <= 2^60 -> (forall n, In (UResize n) h -> in64 n) ->
  exists vs t l, run eqb veq plus hash new (map to_op (rev h)) = Ok (vs, t) /\
    items t = Ok l /\
    ForallOrdPairs (fun a b => eqb (fst a) (fst b) = false) l /\
    sz t = Z.of_nat (length l) /\
    (forall k v, In (k, v) l -> last_write eqb h k = Some v) /\
    forall k, get eqb hash t k = Ok (last_write eqb h k) /\
      contains eqb hash t k = Ok (match last_write eqb h k with Some _ => true | None => false end) /\
      getitem eqb hash t k = match last_write eqb h k with Some v => Ok v | None => Raise KeyError end.
Proof.
  intros K V eqb hash veq plus h (H1 & H2 & H3 & H4) L R.
  exact (history_last_write eqb veq plus hash H1 H2 H3 H4 h L R).
Qed.
Print Assumptions C01_last_write.

(** The map of Spec.v obeys the laws of a finite map. *)
Theorem C01_map_laws :
  forall (K V : Type) (eqb : K -> K -> bool) (hash : K -> Z) (m : list (K * V)) k v k', key_ok eqb hash ->
  lookup eqb (store eqb m k v) k' = (if eqb k k' then Some v else lookup eqb m k') /\
  lookup eqb (Spec.remove eqb m k) k' = (if eqb k k' then None else lookup eqb m k').
Proof.
  intros K V eqb hash m k v k' (H1 & H2 & H3 & H4). split; [eapply lookup_store|eapply lookup_remove]; eauto.
Qed.
Print Assumptions C01_map_laws.

(** Keys modulo 10, a constant hash (every key collides), growth over several sizes. *)
Definition eq10 (a b : Z) : bool := a mod 10 =? b mod 10.
Example C01_key_ok : key_ok eq10 (fun _ => 7).
Proof.
  split; [intros a; apply Z.eqb_refl|]. split; [intros a b; apply Z.eqb_sym|]. split; [|auto].
  unfold eq10. intros a b c. rewrite !Z.eqb_eq. congruence.
Qed.
Example C01_example :
  let h := [USet 13 5; UDel 4; USet 9 1; USet 8 1; USet 7 1; USet 6 1; USet 5 1; USet 4 1; USet 3 1; UResize 2; USet 2 1] in
  match run eq10 Z.eqb Z.add (fun _ => 7) new (map to_op (rev h)) with
  | Ok (_, t) => nb t = 16 /\ sz t = 7 /\ getitem eq10 (fun _ => 7) t 23 = Ok 5 /\
                 getitem eq10 (fun _ => 7) t 4 = Raise KeyError
  | _ => False
  end.
Proof. vm_compute. auto. Qed.
Example C01_example_ops :
  match run Z.eqb Z.eqb Z.add (fun k => k) new
    [OSet 1 10; OIncr 1 5; OIncr 2 7; OSetDefault 3 9; OPop 1; OGetOr 1 0; OUpdateSeq [(4, 4); (2, 0)]; OLen; OPop 77; OItems] with
  | Ok (vs, _) => vs = [VNone; VNone; VNone; VVal 9; VVal 15; VVal 0; VNone; VInt 3; VExn KeyError; VItems [(2, 0); (3, 9); (4, 4)]]
  | _ => False
  end.
Proof. vm_compute. auto. Qed.

(** ** C02 *)

(** Every operation on every table reached by any history ends within its bounds and inside
    the allocated arrays. *)
Theorem C02_terminates_in_bounds :
  forall (K V : Type) (eqb : K -> K -> bool) (hash : K -> Z) (veq : V -> V -> bool) (plus : V -> V -> V)
    (os : list (op K V (tbl K V * list (K * V)))),
  key_ok eqb hash -> Forall (operand_ok eqb hash) os ->
  total_weight (fun y => Z.of_nat (length (snd y))) os <= 2^60 ->
  exists vs t, run eqb veq plus hash new (map (op_map fst) os) = Ok (vs, t) /\
    (forall key, exists x, kh_get eqb hash t key = Ok x /\ 0 <= x <= nb t) /\
    (sz t < 2^60 -> forall key, exists t' ret x, kh_put eqb hash t key = Ok (t', ret, x) /\ 0 <= x < nb t') /\
    (forall n, in64 n -> exists t', kh_resize hash t n = Ok t').
Proof.
  intros K V eqb hash veq plus os Hk F S. pose proof Hk as (H1 & H2 & H3 & H4).
  destruct (C01_dict_refines_map K V eqb hash veq plus os new []) as (vs & t & ws & m & E & _ & _ & R); auto.
  - apply C01_empty.
  - exists vs, t. split; auto. pose proof R as (W & _).
    assert (Nb : 0 <= nb t) by (destruct W as [->|W]; [simpl; lia|]; pose proof (pow2_bounds _ (w_pow _ _ _ W)); lia).
    split; [|split].
    + intros key. pose proof (get_spec eqb hash H4 t key W) as G. apply wp_inv in G. destruct G as (x & Ex & G).
      exists x. split; auto. destruct G as [(-> & _)|(Hx & _)]; lia.
    + intros L key. assert (Rm : roomy t) by (unfold roomy; lia).
      pose proof (put_spec eqb hash H2 H4 t key W Rm) as G. apply wp_inv in G.
      destruct G as ([[t' ret] x] & Ex & _ & G). exists t', ret, x. split; auto.
      destruct G as [(_ & _ & _ & Hx & _)|(_ & _ & Hx & _)]; lia.
    + intros n Hn. pose proof (resize_spec eqb hash H2 t n W Hn) as G. apply wp_inv in G.
      destruct G as (t' & Ex & _). eauto.
Qed.
Print Assumptions C02_terminates_in_bounds.

(** Three keys inserted into and deleted from a table of four buckets leave tombstones on
    every probe path of the fourth. *)
Example C02_example :
  match run Z.eqb Z.eqb Z.add (fun k => k) new [OSet 0 0; OSet 4 0; OSet 8 0; ODel 0; ODel 4; ODel 8] with
  | Ok (_, t) => nb t = 4 /\ sz t = 0 /\ nocc t = 3 /\ kh_get Z.eqb (fun k => k) t 12 = Ok 4
  | _ => False
  end.
Proof. vm_compute. auto. Qed.

(** ** C03, C04 *)

Theorem C03_set_operations :
  forall (K : Type) (eqb : K -> K -> bool) (hash : K -> Z)
    (os : list (sop K (tbl K unit * list K))) (t : tbl K unit) (xs : list K),
  key_ok eqb hash -> set_repr eqb hash t xs -> Forall (soperand_ok eqb hash) os ->
  Z.of_nat (length xs) + fold_right Z.add 0 (map (sweight (fun y => Z.of_nat (length (snd y)))) os) <= 2^60 ->
  exists vs t' ws xs', srun eqb hash t (map (sop_map fst) os) = Ok (vs, t') /\
    spec_srun eqb xs (map (sop_map snd) os) ws xs' /\
    Forall2 (svalue_repr eqb hash) vs ws /\ set_repr eqb hash t' xs'.
Proof.
  intros K eqb hash os t xs (H1 & H2 & H3 & H4) R F S. apply srun_ok; auto.
Qed.
Print Assumptions C03_set_operations.

Theorem C03_empty : forall (K : Type) (eqb : K -> K -> bool) (hash : K -> Z),
  set_repr eqb hash (@new K unit) [].
Proof. intros. apply new_repr. Qed.

(** One operation at a time, for two given sets. *)
Theorem C03_binary_operators :
  forall (K : Type) (eqb : K -> K -> bool) (hash : K -> Z) (a b : tbl K unit) (xs ys : list K),
  key_ok eqb hash -> set_repr eqb hash a xs -> set_repr eqb hash b ys ->
  Z.of_nat (length xs) + Z.of_nat (length ys) <= 2^59 ->
  let result (c : res (tbl K unit)) (P : K -> bool) :=
    exists s zs, c = Ok s /\ set_repr eqb hash s zs /\ is_set eqb zs P in
  let test (c : res bool) (P : Prop) := exists r, c = Ok r /\ (r = true <-> P) in
  result (union eqb hash a b) (fun x => mem eqb xs x || mem eqb ys x) /\
  result (intersection eqb hash a b) (fun x => mem eqb xs x && mem eqb ys x) /\
  result (difference eqb hash a b) (fun x => mem eqb xs x && negb (mem eqb ys x)) /\
  result (symmetric_difference eqb hash a b) (fun x => xorb (mem eqb xs x) (mem eqb ys x)) /\
  test (set_eq eqb hash a b) (same_set eqb xs ys) /\
  test (issubset eqb hash a b) (subset eqb xs ys) /\
  test (issuperset eqb hash a b) (subset eqb ys xs) /\
  test (isdisjoint eqb hash a b) (forall x, mem eqb xs x && mem eqb ys x = false).
Proof.
  intros K eqb hash a b xs ys (H1 & H2 & H3 & H4) Ra Rb L result test.
  assert (New : forall o f P, sop_map fst o = f b -> soperand_ok eqb hash o ->
    sweight (fun y => zlen (snd y)) o <= zlen ys + 1 ->
    (forall xs' w, spec_sop eqb xs (sop_map snd o) xs' w -> exists zs, w = SVSet zs /\ is_set eqb zs P) ->
    exists s zs t', run_sop eqb hash a (f b) = Ok (SVSet s, t') /\ set_repr eqb hash s zs /\ is_set eqb zs P).
  { intros o f P E O W Sp. destruct (sop_ok eqb hash H1 H2 H3 H4 a xs o Ra O) as (v & t' & w & xs' & E' & S & V & _).
    - unfold zlen in *. lia.
    - destruct (Sp _ _ S) as (zs & -> & Z). destruct v; simpl in V; try contradiction.
      rewrite E in E'. eauto 8. }
  assert (Unc : forall (c : res (tbl K unit)) s t', scatch a (bind c (fun c => Ok (SVSet c, a))) = Ok (SVSet s, t') -> c = Ok s).
  { intros c s t'. destruct c; simpl; congruence. }
  split; [|split; [|split; [|split; [|split; [|split; [|split]]]]]].
  - destruct (New (SOr (b, ys)) SOr (fun x => mem eqb xs x || mem eqb ys x)) as (s & zs & t' & E & R & Z); auto.
    + simpl. lia.
    + simpl. intros xs' w (_ & zs & -> & Z). eauto.
    + exists s, zs. split; auto. rewrite run_or in E. exact (Unc (union eqb hash a b) s t' E).
  - destruct (New (SAnd (b, ys)) SAnd (fun x => mem eqb xs x && mem eqb ys x)) as (s & zs & t' & E & R & Z); auto.
    + simpl. lia.
    + simpl. intros xs' w (_ & zs & -> & Z). eauto.
    + exists s, zs. split; auto. rewrite run_and in E. exact (Unc (intersection eqb hash a b) s t' E).
  - destruct (New (SSub (b, ys)) SSub (fun x => mem eqb xs x && negb (mem eqb ys x))) as (s & zs & t' & E & R & Z); auto.
    + simpl. pose proof (zlen_nonneg ys). lia.
    + simpl. intros xs' w (_ & zs & -> & Z). eauto.
    + exists s, zs. split; auto. rewrite run_sub in E. exact (Unc (difference eqb hash a b) s t' E).
  - destruct (New (SXor (b, ys)) SXor (fun x => xorb (mem eqb xs x) (mem eqb ys x))) as (s & zs & t' & E & R & Z); auto.
    + simpl. lia.
    + simpl. intros xs' w (_ & zs & -> & Z). eauto.
    + exists s, zs. split; auto. rewrite run_xor in E. exact (Unc (symmetric_difference eqb hash a b) s t' E).
  - apply set_eq_ok; auto.
  - apply issubset_ok; auto.
  - unfold issuperset. apply issubset_ok; auto.
  - apply isdisjoint_ok; auto.
Qed.
Print Assumptions C03_binary_operators.

Example C03_example :
  match set_of Z.eqb (fun k => k) [1; 5; 9; 2], set_of Z.eqb (fun k => k) [9; 3; 2] with
  | Ok a, Ok b =>
      bind (intersection Z.eqb (fun k => k) a b) elems = Ok [9; 2] /\
      bind (symmetric_difference Z.eqb (fun k => k) a b) elems = Ok [1; 5; 3] /\
      issubset Z.eqb (fun k => k) b a = Ok false /\ isdisjoint Z.eqb (fun k => k) a b = Ok false
  | _, _ => False
  end.
Proof. vm_compute. auto. Qed.

(** In-place updates agree with the operators, also when a set is updated with itself.
    Missing: [symmetric_difference_update], which does not compute a^b (below). *)
Theorem C04_inplace_updates_partial :
  forall (K : Type) (eqb : K -> K -> bool) (hash : K -> Z) (a b : tbl K unit) (xs ys : list K),
  key_ok eqb hash -> set_repr eqb hash a xs -> set_repr eqb hash b ys ->
  Z.of_nat (length xs) + Z.of_nat (length ys) <= 2^60 ->
  let leaves (c : res (tbl K unit)) (P : K -> bool) :=
    exists s zs, c = Ok s /\ set_repr eqb hash s zs /\ is_set eqb zs P in
  leaves (set_update eqb hash a b) (fun x => mem eqb xs x || mem eqb ys x) /\
  leaves (intersection_update eqb hash a b) (fun x => mem eqb xs x && mem eqb ys x) /\
  leaves (difference_update eqb hash a b) (fun x => mem eqb xs x && negb (mem eqb ys x)) /\
  leaves (intersection_update_self eqb hash a) (mem eqb xs) /\
  leaves (difference_update_self eqb hash a) (fun _ => false).
Proof.
  intros K eqb hash a b xs ys (H1 & H2 & H3 & H4) Ra Rb L leaves. split; [|split; [|split; [|split]]].
  - now apply set_update_ok.
  - now apply intersection_update_ok.
  - now apply difference_update_ok.
  - now apply intersection_update_self_ok.
  - now apply (difference_update_self_ok eqb hash H1 H2 H3 H4 a xs).
Qed.
Print Assumptions C04_inplace_updates_partial.

(** What [symmetric_difference_update] leaves: a-b. *)
Theorem C04_symmetric_difference_update_is_difference :
  forall (K : Type) (eqb : K -> K -> bool) (hash : K -> Z) (a b : tbl K unit) (xs ys : list K),
  key_ok eqb hash -> set_repr eqb hash a xs -> set_repr eqb hash b ys ->
  exists s zs, symmetric_difference_update eqb hash a b = Ok s /\ set_repr eqb hash s zs /\
    is_set eqb zs (fun x => mem eqb xs x && negb (mem eqb ys x)).
Proof.
  intros K eqb hash a b xs ys (H1 & H2 & H3 & H4) Ra Rb.
  pose proof (symmetric_difference_update_ok eqb hash H1 H2 H3 H4 a xs b ys Ra Rb) as W. apply wp_inv in W.
  destruct W as (s & E & zs & R & Z). eauto.
Qed.
Print Assumptions C04_symmetric_difference_update_is_difference.

(** Hence it is not a^b: {1} ^= {2} leaves {1}. *)
Theorem C04_symmetric_difference_update_refuted :
  exists (a b : tbl Z unit), set_of Z.eqb (fun k => k) [1] = Ok a /\ set_of Z.eqb (fun k => k) [2] = Ok b /\
    exists s, symmetric_difference_update Z.eqb (fun k => k) a b = Ok s /\ elems s = Ok [1] /\
    exists s', symmetric_difference Z.eqb (fun k => k) a b = Ok s' /\ elems s' = Ok [1; 2].
Proof.
  do 2 eexists. split; [vm_compute; reflexivity|]. split; [vm_compute; reflexivity|].
  eexists. split; [vm_compute; reflexivity|]. split; [reflexivity|].
  eexists. split; [vm_compute; reflexivity|]. reflexivity.
Qed.
Print Assumptions C04_symmetric_difference_update_refuted.

(** A set built from any sequence has exactly its elements. *)
Theorem C03_set_of_sequence :
  forall (K : Type) (eqb : K -> K -> bool) (hash : K -> Z) (l : list K),
  key_ok eqb hash -> Z.of_nat (length l) <= 2^60 ->
  exists s zs, set_of eqb hash l = Ok s /\ set_repr eqb hash s zs /\ is_set eqb zs (mem eqb l).
Proof. intros K eqb hash l (H1 & H2 & H3 & H4) L. now apply set_of_ok. Qed.
Print Assumptions C03_set_of_sequence.

Example C04_example :
  match set_of Z.eqb (fun k => k mod 3) [1; 5; 9; 2; 4], set_of Z.eqb (fun k => k mod 3) [9; 3; 2] with
  | Ok a, Ok b => bind (intersection_update Z.eqb (fun k => k mod 3) a b) elems = Ok [9; 2]
  | _, _ => False
  end.
Proof. vm_compute. auto. Qed.

(** ** C35 *)

(** [for k, v in d.items(): d[k] = f(k, v)] visits each entry once and updates each once,
    provided that no growth of the table is pending. *)
Theorem C35_assign_while_iterating_partial :
  forall (K V : Type) (eqb : K -> K -> bool) (hash : K -> Z) (f : K -> V -> V) (t : tbl K V) (m : list (K * V)),
  key_ok eqb hash -> repr eqb hash t m -> Z.of_nat (length m) <= 2^60 -> nocc t < ub t ->
  exists l t', items t = Ok l /\ assign_loop eqb hash (S (Z.to_nat (nb t))) f t 0 = Ok (l, t') /\
    repr eqb hash t' (map (fun e => (fst e, f (fst e) (snd e))) m).
Proof.
  intros K V eqb hash f t m (H1 & H2 & H3 & H4) R L Ld. pose proof R as (W & P).
  assert (Rm : roomy t) by (unfold roomy; rewrite (repr_sz eqb hash t m R); exact L).
  destruct W as [->|W]; [simpl in Ld; lia|].
  destruct (assign_loop_ok eqb hash H1 H2 H3 H4 f t W Rm Ld) as (t' & E & W' & Et).
  exists (ents t), t'. split; [apply (items_spec eqb hash); now right|]. split; auto. split; auto.
  rewrite Et. now apply Permutation_map.
Qed.
Print Assumptions C35_assign_while_iterating_partial.

(** With growth pending the first assignment rehashes the table under the iteration:
    here the entry 8 is skipped and the entry 4 is visited, and updated, twice. *)
Theorem C35_assign_while_iterating_refuted :
  exists vs (t : tbl Z Z),
    run Z.eqb Z.eqb Z.add (fun k => k) new [OSet 0 0; OSet 4 0; OSet 8 0; ODel 0] = Ok (vs, t) /\
    items t = Ok [(4, 0); (8, 0)] /\
    exists t', assign_loop Z.eqb (fun k => k) 20 (fun _ v => v + 1) t 0 = Ok ([(4, 0); (4, 1)], t') /\
      items t' = Ok [(8, 0); (4, 2)].
Proof.
  do 2 eexists. split; [vm_compute; reflexivity|]. split; [vm_compute; reflexivity|].
  eexists. split; [vm_compute; reflexivity|]. vm_compute. reflexivity.
Qed.
Print Assumptions C35_assign_while_iterating_refuted.

Example C35_example :
  match run Z.eqb Z.eqb Z.add (fun k => k) new [OSet 5 1; OSet 6 2] with
  | Ok (_, t) => nocc t < ub t /\
      bind (assign_loop Z.eqb (fun k => k) 20 Z.add t 0) (fun r => bind (items (snd r)) (fun l => Ok (fst r, l))) =
        Ok ([(5, 1); (6, 2)], [(5, 6); (6, 8)])
  | _ => False
  end.
Proof. vm_compute. auto. Qed.

(** ** C36 *)

(** [d[k] = d[k] op x] and [d[k] = d.get(k, c) op x] do the same after rewriting, for a
    constant default, a second operand without effects, and an operator that does not
    raise when a default is given. *)
Theorem C36_dict_arithmetic_partial :
  forall (K V X : Type) (eqb : K -> K -> bool) (hash : K -> Z) (op : V -> X -> res V) (x : X)
    (t : tbl K V) (m : list (K * V)) (k : K) (g : getter),
  key_ok eqb hash -> repr eqb hash t m -> Z.of_nat (length m) <= 2^60 ->
  match g with
  | GItem => forall v, op v x <> Undef /\ op v x <> NoFuel
  | GConst _ => forall v, exists w, op v x = Ok w
  | GExpr _ => False
  end ->
  exists t1 t2 m' e, run_source eqb hash (fun t => Ok (t, x)) op t k g = Ok (t1, e) /\
    run_rewritten eqb hash (fun t => Ok (t, x)) op t k g = Ok (t2, e) /\
    repr eqb hash t1 m' /\ repr eqb hash t2 m'.
Proof.
  intros K V X eqb hash op x t m k g (H1 & H2 & H3 & H4) R L Hg.
  exact (rewrite_ok eqb hash H2 H3 H4 x op t m k g R L Hg).
Qed.
Print Assumptions C36_dict_arithmetic_partial.

Definition zdiv (v x : Z) : res Z := if x =? 0 then Raise ZeroDivisionError else Ok (v / x).
Definition zadd (v x : Z) : res Z := Ok (v + x).

(** [d[5] = d.get(5, 1) // 0] raises, and after the rewriting leaves the key 5 behind with
    a value that was never written. *)
Theorem C36_raising_operator_refuted :
  exists t1 t2, run_source Z.eqb (fun k => k) (fun t => Ok (t, 0)) zdiv new 5 (GConst 1) = Ok (t1, Some ZeroDivisionError) /\
    run_rewritten Z.eqb (fun k => k) (fun t => Ok (t, 0)) zdiv new 5 (GConst 1) = Ok (t2, Some ZeroDivisionError) /\
    contains Z.eqb (fun k => k) t1 5 = Ok false /\ contains Z.eqb (fun k => k) t2 5 = Ok true /\
    getitem Z.eqb (fun k => k) t2 5 = Undef.
Proof.
  do 2 eexists. split; [vm_compute; reflexivity|]. split; [vm_compute; reflexivity|]. vm_compute. auto.
Qed.
Print Assumptions C36_raising_operator_refuted.

(** [d[5] = d.get(5, y) + 1] with a variable [y] raises KeyError after the rewriting. *)
Theorem C36_variable_default_refuted :
  exists t1 t2, run_source Z.eqb (fun k => k) (fun t => Ok (t, 1)) zadd new 5 (GExpr 0) = Ok (t1, None) /\
    run_rewritten Z.eqb (fun k => k) (fun t => Ok (t, 1)) zadd new 5 (GExpr 0) = Ok (t2, Some KeyError) /\
    contains Z.eqb (fun k => k) t1 5 = Ok true /\ contains Z.eqb (fun k => k) t2 5 = Ok false.
Proof.
  do 2 eexists. split; [vm_compute; reflexivity|]. split; [vm_compute; reflexivity|]. vm_compute. auto.
Qed.
Print Assumptions C36_variable_default_refuted.

(** [d[5] = d.get(5, 0) + g()] where [g] stores 10 under 5 and returns 1: 1 as written,
    11 as rewritten. *)
Theorem C36_operand_order_refuted :
  let g (t : tbl Z Z) := bind (setitem Z.eqb (fun k => k) t 5 10) (fun t => Ok (t, 1)) in
  exists t1 t2, run_source Z.eqb (fun k => k) g zadd new 5 (GConst 0) = Ok (t1, None) /\
    run_rewritten Z.eqb (fun k => k) g zadd new 5 (GConst 0) = Ok (t2, None) /\
    getitem Z.eqb (fun k => k) t1 5 = Ok 1 /\ getitem Z.eqb (fun k => k) t2 5 = Ok 11.
Proof.
  do 2 eexists. split; [vm_compute; reflexivity|]. split; [vm_compute; reflexivity|]. vm_compute. auto.
Qed.
Print Assumptions C36_operand_order_refuted.

Example C36_example :
  exists t1 t2, run_source Z.eqb (fun k => k) (fun t => Ok (t, 3)) zadd new 5 (GConst 4) = Ok (t1, None) /\
    run_rewritten Z.eqb (fun k => k) (fun t => Ok (t, 3)) zadd new 5 (GConst 4) = Ok (t2, None) /\
    items t1 = Ok [(5, 7)] /\ items t2 = Ok [(5, 7)].
Proof.
  do 2 eexists. split; [vm_compute; reflexivity|]. split; [vm_compute; reflexivity|]. vm_compute. auto.
Qed.
