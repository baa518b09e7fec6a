(** Proofs about the removal of bounds checks: Nd/ElideModel.v. *)
From Coq Require Import ZArith List Bool Lia.
From Verif Require Import Common.Result Common.Int64 Nd.ElideModel Nd.ElideSpec.
Import ListNotations.
Open Scope Z_scope.
Open Scope bool_scope.

Lemma key_eqb_eq a b : key_eqb a b = true <-> a = b.
Proof.
  destruct a, b; cbn; split; intros H; try discriminate; try reflexivity;
    try (apply Nat.eqb_eq in H; now subst); inversion H; subst; apply Nat.eqb_refl.
Qed.
Lemma key_eqb_refl a : key_eqb a a = true.
Proof. now apply key_eqb_eq. Qed.

(** Value and coefficients of a list of terms. *)
Fixpoint tval (rho : key -> Z) (l : list term) : Z :=
  match l with [] => 0 | t :: l' => tc t * rho (tk t) + tval rho l' end.
Fixpoint coef (k : key) (l : list term) : Z :=
  match l with
  | [] => 0
  | t :: l' => (if key_eqb (tk t) k then tc t else 0) + coef k l'
  end.

Lemma tval_app rho a b : tval rho (a ++ b) = tval rho a + tval rho b.
Proof. induction a; cbn; lia. Qed.
Lemma coef_app k a b : coef k (a ++ b) = coef k a + coef k b.
Proof. induction a; cbn; lia. Qed.
Lemma tval_neg rho a : tval rho (map negate a) = - tval rho a.
Proof. induction a; cbn; lia. Qed.
Lemma coef_neg k a : coef k (map negate a) = - coef k a.
Proof. induction a; cbn; [reflexivity|]. destruct (key_eqb _ _); lia. Qed.
Lemma tval_mul rho n a : tval rho (map (multiply n) a) = n * tval rho a.
Proof. induction a; cbn; lia. Qed.
Lemma coef_mul k n a : coef k (map (multiply n) a) = n * coef k a.
Proof. induction a; cbn; [lia|]. destruct (key_eqb _ _); lia. Qed.

(** simplify keeps values and coefficients and leaves one term per key. *)
Lemma absorb_tval rho l : forall t t' r, absorb t l = (t', r) ->
  tk t' = tk t /\ tc t' * rho (tk t') + tval rho r = tc t * rho (tk t) + tval rho l.
Proof.
  induction l as [|u l IH]; cbn; intros t t' r H.
  - injection H as <- <-. cbn. split; [reflexivity|lia].
  - unfold combine in H. destruct (key_eqb (tk t) (tk u)) eqn:E.
    + apply key_eqb_eq in E. apply IH in H as [H1 H2]. cbn in H1, H2.
      split; [exact H1|]. rewrite H2, <- E. lia.
    + destruct (absorb t l) as [t1 r1] eqn:A. injection H as <- <-.
      apply IH in A as [A1 A2]. cbn. split; [exact A1|lia].
Qed.
Lemma absorb_coef k l : forall t t' r, absorb t l = (t', r) ->
  coef k (t' :: r) = coef k (t :: l).
Proof.
  induction l as [|u l IH]; cbn; intros t t' r H.
  - injection H as <- <-. reflexivity.
  - unfold combine in H. destruct (key_eqb (tk t) (tk u)) eqn:E.
    + apply key_eqb_eq in E. apply IH in H. cbn in H. rewrite H, <- E.
      destruct (key_eqb (tk t) k); lia.
    + destruct (absorb t l) as [t1 r1] eqn:A. injection H as <- <-.
      apply IH in A. cbn in A |- *. lia.
Qed.
Lemma absorb_fresh l : forall t t' r, absorb t l = (t', r) ->
  (forall u, In u r -> key_eqb (tk t) (tk u) = false) /\ (length r <= length l)%nat.
Proof.
  induction l as [|u l IH]; cbn; intros t t' r H.
  - injection H as <- <-. cbn. split; [easy|lia].
  - unfold combine in H. destruct (key_eqb (tk t) (tk u)) eqn:E.
    + apply IH in H as [H1 H2]. split; [exact H1|lia].
    + destruct (absorb t l) as [t1 r1] eqn:A. injection H as <- <-.
      apply IH in A as [A1 A2]. cbn. split; [|lia].
      intros w [<-|W]; [exact E|now apply A1].
Qed.

Lemma combine_all_tval rho n : forall l, tval rho (combine_all n l) = tval rho l.
Proof.
  induction n as [|n IH]; intros [|t l]; cbn; try reflexivity.
  destruct (absorb t l) as [t' r] eqn:A. cbn. rewrite IH.
  apply absorb_tval with (rho := rho) in A. lia.
Qed.
Lemma combine_all_coef k n : forall l, coef k (combine_all n l) = coef k l.
Proof.
  induction n as [|n IH]; intros [|t l]; cbn; try reflexivity.
  destruct (absorb t l) as [t' r] eqn:A. cbn. rewrite IH.
  apply absorb_coef with (k := k) in A. cbn in A. lia.
Qed.

Definition keys (l : list term) : list key := map tk l.
Lemma absorb_keys l : forall t t' r, absorb t l = (t', r) -> incl (keys r) (keys l).
Proof.
  induction l as [|u l IH]; cbn; intros t t' r H.
  - injection H as <- <-. easy.
  - unfold combine in H. destruct (key_eqb (tk t) (tk u)).
    + apply IH in H. intros x X. right. now apply H.
    + destruct (absorb t l) as [t1 r1] eqn:A. injection H as <- <-.
      apply IH in A. intros x [<-|X]; [now left|right; now apply A].
Qed.
Lemma combine_all_keys n : forall l, incl (keys (combine_all n l)) (keys l).
Proof.
  induction n as [|n IH]; intros [|t l]; cbn; try apply incl_refl.
  destruct (absorb t l) as [t' r] eqn:A. cbn.
  pose proof (proj1 (absorb_tval (fun _ => 0) _ _ _ _ A)) as K.
  intros x [<-|X]; [left; now rewrite K|].
  right. eapply absorb_keys; [exact A|]. now apply IH.
Qed.
Lemma combine_all_nodup n : forall l, (length l <= n)%nat -> NoDup (keys (combine_all n l)).
Proof.
  induction n as [|n IH]; intros [|t l] L; cbn in *; try constructor; try lia.
  destruct (absorb t l) as [t' r] eqn:A. cbn.
  pose proof (proj1 (absorb_tval (fun _ => 0) _ _ _ _ A)) as K.
  pose proof (absorb_fresh _ _ _ _ A) as [F Len]. constructor.
  - intros X. apply combine_all_keys in X. apply in_map_iff in X as (u & Hu & Iu).
    specialize (F u Iu). rewrite Hu, K, key_eqb_refl in F. discriminate.
  - apply IH. lia.
Qed.

Lemma filter_tval rho l : tval rho (filter (fun t => negb (tc t =? 0)) l) = tval rho l.
Proof.
  induction l as [|t l IH]; cbn; [reflexivity|].
  destruct (Z.eqb_spec (tc t) 0) as [E|E]; cbn; rewrite IH; [rewrite E|]; lia.
Qed.
Lemma coef_notin k l : ~ In k (keys l) -> coef k l = 0.
Proof.
  induction l as [|t l IH]; cbn; intros H; [reflexivity|].
  destruct (key_eqb (tk t) k) eqn:E.
  - apply key_eqb_eq in E. exfalso. apply H. now left.
  - rewrite IH; [lia|]. intros X. apply H. now right.
Qed.
Lemma coef_single l : NoDup (keys l) -> forall t, In t l -> coef (tk t) l = tc t.
Proof.
  induction l as [|u l IH]; cbn; intros N t T; [easy|].
  inversion N as [|? ? N1 N2]; subst. destruct T as [<-|T].
  - rewrite key_eqb_refl, coef_notin by exact N1. lia.
  - destruct (key_eqb (tk u) (tk t)) eqn:E.
    + apply key_eqb_eq in E. exfalso. apply N1. rewrite E. now apply in_map.
    + now rewrite IH.
Qed.

Lemma total_sound rho l n :
  total l = Some n -> rho kint = 1 -> (forall w, 0 <= rho (klen w)) ->
  (forall t w, In t l -> tk t = klen w -> 0 <= tc t) ->
  n <= tval rho l.
Proof.
  intros H R1 RL. revert n H.
  induction l as [|t l IH]; cbn; intros n H P.
  - injection H as <-. lia.
  - assert (P' : forall t w, In t l -> tk t = klen w -> 0 <= tc t)
      by (intros; eapply P; eauto).
    destruct (tk t) as [|v|w] eqn:K.
    + destruct (total l) as [m|]; [|discriminate]. cbn in H. injection H as <-.
      specialize (IH m eq_refl P'). rewrite R1. lia.
    + destruct (Z.eqb_spec (tc t) 0) as [E|E]; [|discriminate]. cbn in H.
      specialize (IH n H P'). rewrite E. lia.
    + specialize (IH n H P'). pose proof (P t w (or_introl eq_refl) K).
      pose proof (RL w). nia.
Qed.

Definition proper (rho : key -> Z) : Prop :=
  rho kint = 1 /\ forall w, 0 <= rho (klen w).

Lemma lessCheck_sound rho l1 l2 strict :
  proper rho ->
  (forall w, 0 <= coef (klen w) l2 - coef (klen w) l1) ->
  lessCheck l1 l2 strict = true ->
  if strict then tval rho l1 < tval rho l2 else tval rho l1 <= tval rho l2.
Proof.
  intros [R1 RL] C H. unfold lessCheck, checkTotal in H.
  set (l := l2 ++ map negate l1) in *.
  destruct (total (simplify l)) as [n|] eqn:T; [|discriminate].
  assert (V : n <= tval rho (simplify l)).
  { eapply total_sound; [exact T|exact R1|exact RL|].
    intros t w I K. unfold simplify in I. apply filter_In in I as [I _].
    pose proof (coef_single _ (combine_all_nodup (length l) l (le_n _)) t I) as S1.
    rewrite combine_all_coef, K in S1. rewrite <- S1. unfold l.
    rewrite coef_app, coef_neg. specialize (C w). lia. }
  unfold simplify in V. rewrite filter_tval, combine_all_tval in V.
  unfold l in V. rewrite tval_app, tval_neg in V.
  destruct strict; lia.
Qed.

(** parse *)
Definition rho_of (e : env) (k : key) : Z :=
  match k with
  | kint => 1
  | kvar v => ints e v
  | klen w => hd 0 (shapes e w)
  end.

Lemma sane_proper e : sane e -> proper (rho_of e).
Proof.
  intros [_ S1]. split; [reflexivity|]. intros w. cbn.
  destruct (S1 w) as (n & -> & Hn). cbn. lia.
Qed.

Lemma parse_tval e x : sane e -> forall neg l, parse x neg = Some l ->
  tval (rho_of e) l = if neg then - exact e x else exact e x.
Proof.
  intros [_ S1].
  induction x as [z|v|a IHa b IHb|a IHa b IHb|v|v|z]; cbn; intros neg l H;
    try (injection H as <-; destruct neg; cbn -[Z.mul]; lia); try discriminate.
  - destruct (parse a neg) as [la|] eqn:A; [|discriminate].
    destruct (parse b neg) as [lb|] eqn:B; [|discriminate].
    injection H as <-. rewrite tval_app, (IHa _ _ A), (IHb _ _ B). destruct neg; lia.
  - destruct (parse a neg) as [la|] eqn:A; [|discriminate].
    destruct (parse b (negb neg)) as [lb|] eqn:B; [|discriminate].
    injection H as <-. rewrite tval_app, (IHa _ _ A), (IHb _ _ B).
    destruct neg; cbn; lia.
  - destruct (S1 v) as (n & E & _). injection H as <-.
    destruct neg; cbn -[Z.mul]; rewrite E; cbn -[Z.mul]; lia.
Qed.

Lemma parse_len w x : forall neg l, parse x neg = Some l ->
  coef (klen w) l = if neg then - adds_len w x else adds_len w x.
Proof.
  induction x as [z|v|a IHa b IHb|a IHa b IHb|v|v|z]; cbn; intros neg l H;
    try (injection H as <-; destruct neg; cbn; try destruct (Nat.eqb v w); lia);
    try discriminate.
  - destruct (parse a neg) as [la|] eqn:A; [|discriminate].
    destruct (parse b neg) as [lb|] eqn:B; [|discriminate].
    injection H as <-. rewrite coef_app, (IHa _ _ A), (IHb _ _ B). destruct neg; lia.
  - destruct (parse a neg) as [la|] eqn:A; [|discriminate].
    destruct (parse b (negb neg)) as [lb|] eqn:B; [|discriminate].
    injection H as <-. rewrite coef_app, (IHa _ _ A), (IHb _ _ B).
    destruct neg; cbn; lia.
Qed.

Lemma parse_slope alias k x : forall neg l, parse x neg = Some l ->
  coef (kvar k) (map (unalias alias k) l) =
  let a := adds_var (fun v => alias v || Nat.eqb v k) x in if neg then - a else a.
Proof.
  assert (B1 : forall v c, coef (kvar k) [unalias alias k (mkTerm (kvar v) c)]
                 = if alias v || Nat.eqb v k then c else 0).
  { intros v c. unfold unalias. cbn. destruct (alias v); cbn.
    - rewrite Nat.eqb_refl. lia.
    - destruct (Nat.eqb v k); lia. }
  induction x as [z|v|a IHa b IHb|a IHa b IHb|v|v|z]; cbn -[unalias]; intros neg l H;
    try (injection H as <-; destruct neg; cbn; lia); try discriminate.
  - injection H as <-. destruct neg; cbn -[unalias coef];
      [unfold negate; cbn -[unalias coef]|]; rewrite B1;
      destruct (alias v || Nat.eqb v k); lia.
  - destruct (parse a neg) as [la|] eqn:A; [|discriminate].
    destruct (parse b neg) as [lb|] eqn:B; [|discriminate].
    injection H as <-. rewrite map_app, coef_app, (IHa _ _ A), (IHb _ _ B).
    cbn. destruct neg; lia.
  - destruct (parse a neg) as [la|] eqn:A; [|discriminate].
    destruct (parse b (negb neg)) as [lb|] eqn:B; [|discriminate].
    injection H as <-. rewrite map_app, coef_app, (IHa _ _ A), (IHb _ _ B).
    cbn. destruct neg; cbn; lia.
Qed.

Lemma unalias_len alias k w l :
  coef (klen w) (map (unalias alias k) l) = coef (klen w) l.
Proof.
  induction l as [|t l IH]; cbn; [reflexivity|]. rewrite IH. f_equal.
  unfold unalias. destruct t as [[|v|v] c]; cbn; try reflexivity.
  now destruct (alias v).
Qed.

(** The part of a list of terms that does not move with the loop variable. *)
Definition rest (k : nat) (l : list term) : list term :=
  filter (fun t => negb (key_eqb (tk t) (kvar k))) l.

Lemma tval_rest rho k l :
  tval rho l = coef (kvar k) l * rho (kvar k) + tval rho (rest k l).
Proof.
  induction l as [|t l IH]; cbn; [reflexivity|].
  destruct (key_eqb (tk t) (kvar k)) eqn:E; cbn.
  - apply key_eqb_eq in E. fold (rest k l). rewrite E, IH. ring.
  - fold (rest k l). rewrite IH. ring.
Qed.
Lemma rest_ext rho rho' k l :
  (forall x, x <> kvar k -> In x (keys l) -> rho x = rho' x) ->
  tval rho (rest k l) = tval rho' (rest k l).
Proof.
  induction l as [|t l IH]; cbn; intros H; [reflexivity|].
  assert (IH' : tval rho (rest k l) = tval rho' (rest k l))
    by (apply IH; intros x X I; apply H; [exact X|now right]).
  destruct (key_eqb (tk t) (kvar k)) eqn:E; cbn; fold (rest k l); [exact IH'|].
  rewrite IH', (H (tk t)); [reflexivity| |now left].
  intros X. rewrite X, key_eqb_refl in E. discriminate.
Qed.
Lemma tval_replace rho l k rep :
  tval rho (replaceLoopVariable l k rep)
  = coef (kvar k) l * tval rho rep + tval rho (rest k l).
Proof.
  induction l as [|t l IH]; cbn -[key_eqb]; [reflexivity|].
  fold (replaceLoopVariable l k rep). fold (rest k l).
  rewrite tval_app, IH. destruct (key_eqb (tk t) (kvar k)); cbn.
  - rewrite tval_mul. ring.
  - ring.
Qed.
Lemma coef_len_replace w l k rep :
  coef (klen w) (replaceLoopVariable l k rep)
  = coef (kvar k) l * coef (klen w) rep + coef (klen w) l.
Proof.
  induction l as [|t l IH]; cbn -[key_eqb]; [lia|].
  fold (replaceLoopVariable l k rep).
  rewrite coef_app, IH. destruct (key_eqb (tk t) (kvar k)) eqn:E.
  - apply key_eqb_eq in E. rewrite coef_mul, E. cbn. ring.
  - cbn. ring.
Qed.

(** Machine and exact values *)
Lemma eval_exact e x : sane e -> consts_fit x -> eval e x = w64 (exact e x).
Proof.
  intros [S1 S2].
  assert (I : forall z, int64 z -> z = w64 z)
    by (intros z Z1; symmetry; apply w64_id; unfold int64, in64, min64, max64 in *; lia).
  induction x as [z|v|a IHa b IHb|a IHa b IHb|v|v|z]; cbn; intros F.
  - now apply I.
  - apply I, S1.
  - rewrite IHa, IHb by tauto. now rewrite w64_add_l, w64_add_r.
  - rewrite IHa, IHb by tauto. now rewrite w64_sub_l, w64_sub_r.
  - destruct (S2 v) as (n & -> & Hn). apply I. unfold int64. cbn. lia.
  - destruct (S2 v) as (n & -> & Hn). unfold size_of. apply I. unfold int64. cbn [fold_right]. lia.
  - now apply I.
Qed.

(** The counter never wraps unless the last value plus the step overflows. *)
Lemma visits_range s e st i :
  int64 st -> (0 < st -> e + st - 1 < 2 ^ 63) -> (st < 0 -> - 2 ^ 63 <= e + st + 1) ->
  st <> 0 -> int64 s ->
  visits s e st i -> in_range s e st i /\ int64 i.
Proof.
  intros H1 H2 H3 N I V.
  induction V as [C|i V [(k & K1 & K2 & K3) IHI] C].
  - split; [|exact I]. exists 0. unfold enters in C. destruct (Z.ltb_spec 0 st); lia.
  - assert (W : w64 (i + st) = i + st).
    { apply w64_id. unfold in64, min64, max64, int64 in *.
      destruct (Z.ltb_spec 0 st); lia. }
    rewrite W in *. split.
    + exists (k + 1). unfold enters in C. destruct (Z.ltb_spec 0 st); lia.
    + unfold enters in C. unfold int64 in *. destruct (Z.ltb_spec 0 st); lia.
Qed.
Lemma range_visits s e st i :
  int64 st -> (0 < st -> e + st - 1 < 2 ^ 63) -> (st < 0 -> - 2 ^ 63 <= e + st + 1) ->
  int64 s -> int64 e ->
  in_range s e st i -> visits s e st i.
Proof.
  intros H1 H2 H3 I E (k & K1 & -> & K3).
  rewrite <- (Z2Nat.id k K1) in *. clear K1. induction (Z.to_nat k) as [|n IH].
  - replace (s + Z.of_nat 0 * st) with s in * by lia. constructor.
    unfold enters. destruct (Z.ltb_spec 0 st); lia.
  - rewrite Nat2Z.inj_succ in *. unfold Z.succ in *.
    set (j := s + Z.of_nat n * st) in *.
    replace (s + (Z.of_nat n + 1) * st) with (j + st) in * by (unfold j; lia).
    assert (W : w64 (j + st) = j + st).
    { apply w64_id. unfold in64, min64, max64, int64 in *.
      assert (0 < st /\ s <= j \/ st < 0 /\ j <= s) by (unfold j; nia). lia. }
    rewrite <- W. constructor; [apply IH; lia|]. rewrite W. unfold enters.
    destruct (Z.ltb_spec 0 st); lia.
Qed.

Lemma normalize_denotes i n : int64 i -> 0 <= n < 2 ^ 63 ->
  normalize_index i n = denotes n i.
Proof.
  intros I N. unfold normalize_index, denotes, int64 in *.
  destruct (Z.ltb_spec i 0) as [L|L].
  - rewrite w64_id by (unfold in64, min64, max64; lia).
    destruct (Z.leb_spec 0 i); [lia|]. cbn [andb].
    destruct (Z.leb_spec (- n) i); cbn [andb].
    + destruct (Z.ltb_spec (i + n) 0), (Z.leb_spec n (i + n)); cbn [orb]; try lia.
      f_equal. lia.
    + destruct (Z.ltb_spec (i + n) 0), (Z.leb_spec n (i + n)); cbn [orb]; try lia; reflexivity.
  - destruct (Z.leb_spec 0 i); [|lia]. destruct (Z.ltb_spec i 0); [lia|].
    rewrite Bool.andb_false_r.
    destruct (Z.ltb_spec i n), (Z.leb_spec n i); cbn [orb andb]; try lia; reflexivity.
Qed.

Section Sound.
  Context (alias : nat -> bool) (p : access) (e : env).
  Context (Sane : sane e).

  Lemma index_at e' i l : sane e -> at_iteration alias p e e' i ->
    sane e' -> parse (idx p) false = Some l ->
    exact e' (idx p) =
    slope alias p * i + tval (rho_of e) (rest (lv p) (map (unalias alias (lv p)) l)).
  Proof.
    intros S1 [A1 A2] S2 P.
    pose proof (parse_tval e' _ S2 _ _ P) as T. cbn in T. rewrite <- T.
    set (m := map (unalias alias (lv p)) l).
    assert (M : tval (rho_of e') l = tval (rho_of e') m).
    { unfold m. clear -A1. induction l as [|t l IH]; cbn; [reflexivity|].
      rewrite IH. f_equal. destruct t as [[|v|v] c]; cbn; try reflexivity.
      destruct (alias v) eqn:E; cbn; [|reflexivity].
      now rewrite !A1, E, Nat.eqb_refl, Bool.orb_true_r. }
    rewrite M, (tval_rest _ (lv p)). f_equal.
    - unfold m. rewrite (parse_slope alias _ _ _ _ P). cbn -[adds_var].
      rewrite A1, Nat.eqb_refl, Bool.orb_true_r. reflexivity.
    - apply rest_ext. intros x X I. destruct x as [|v|w]; cbn; [reflexivity| |now rewrite A2].
      rewrite A1. destruct (Nat.eqb_spec v (lv p)) as [->|N]; [now destruct X|].
      replace (alias v) with false; [reflexivity|]. symmetry.
      unfold m, keys in I. rewrite map_map in I. apply in_map_iff in I as (t & T1 & _).
      unfold unalias in T1. destruct t as [[|u|u] c]; cbn in T1; try discriminate.
      destruct (alias u) eqn:E; cbn in T1; injection T1 as T1; congruence.
  Qed.

  Lemma in_bounds e' i :
    can_elide alias p = true ->
    0 < slope alias p ->
    (if 0 <? step p
     then forall w, 0 <= lens_at alias p (start p) w /\
            lens_at alias p (stop p) w <= if Nat.eqb w (arr p) then 1 else 0
     else forall w, lens_at alias p (start p) w <= (if Nat.eqb w (arr p) then 1 else 0) /\
            0 <= lens_at alias p (stop p) w) ->
    in_range (exact e (start p)) (exact e (stop p)) (step p) i ->
    sane e' -> at_iteration alias p e e' i ->
    0 <= exact e' (idx p) < hd 0 (shapes e (arr p)).
  Proof.
    intros C Sl L (k & K1 & K2 & K3) Sane' It. unfold can_elide in C.
    destruct (step p =? 0); [discriminate|].
    destruct (parse (start p) false) as [ls|] eqn:Ps; [|discriminate].
    destruct (parse (stop p) false) as [le|] eqn:Pe; [|discriminate].
    destruct (parse (idx p) false) as [li|] eqn:Pi; [|discriminate].
    rewrite (index_at e' i li Sane It Sane' Pi).
    pose proof (parse_slope alias (lv p) _ _ _ Pi) as Q. cbn in Q. fold (slope alias p) in Q.
    assert (QL : forall x lx w, parse x false = Some lx ->
      coef (klen w) (replaceLoopVariable (map (unalias alias (lv p)) li) (lv p) lx)
      = lens_at alias p x w).
    { intros x lx w Px. rewrite coef_len_replace, Q, unalias_len.
      rewrite (parse_len w _ _ _ Px), (parse_len w _ _ _ Pi). unfold lens_at. lia. }
    assert (QV : forall x lx, parse x false = Some lx ->
      tval (rho_of e) (replaceLoopVariable (map (unalias alias (lv p)) li) (lv p) lx)
      = slope alias p * exact e x
        + tval (rho_of e) (rest (lv p) (map (unalias alias (lv p)) li))).
    { intros x lx Px. rewrite tval_replace, Q.
      now rewrite (parse_tval e _ Sane _ _ Px). }
    assert (LA : forall w, coef (klen w) [mkTerm (klen (arr p)) 1]
                 = if Nat.eqb w (arr p) then 1 else 0).
    { intros w. cbn. rewrite (Nat.eqb_sym (arr p)). destruct (Nat.eqb w (arr p)); reflexivity. }
    set (r := tval (rho_of e) (rest (lv p) (map (unalias alias (lv p)) li))) in *.
    set (sl := slope alias p) in *.
    destruct (Z.ltb_spec 0 (step p)) as [St|St]; apply andb_prop in C as [C1 C2].
    - apply (lessCheck_sound (rho_of e)) in C1; [|now apply sane_proper|].
      2: { intros w. rewrite (QL _ _ w Ps). cbn. destruct (L w). lia. }
      apply (lessCheck_sound (rho_of e)) in C2; [|now apply sane_proper|].
      2: { intros w. rewrite (QL _ _ w Pe), LA. destruct (L w). lia. }
      rewrite (QV _ _ Ps) in C1. rewrite (QV _ _ Pe) in C2. cbn -[Z.mul] in C1, C2.
      destruct K3 as [[_ K3]|[K3 _]]; [|lia].
      assert (exact e (start p) <= i) by nia.
      assert (sl * exact e (start p) <= sl * i) by nia.
      assert (sl * i <= sl * (exact e (stop p) - 1)) by nia. lia.
    - apply (lessCheck_sound (rho_of e)) in C1; [|now apply sane_proper|].
      2: { intros w. rewrite (QL _ _ w Ps), LA. destruct (L w). lia. }
      apply (lessCheck_sound (rho_of e)) in C2; [|now apply sane_proper|].
      2: { intros w. rewrite (QL _ _ w Pe). cbn. destruct (L w). lia. }
      rewrite (QV _ _ Ps) in C1. rewrite (QV _ _ Pe) in C2. cbn -[Z.mul] in C1, C2.
      destruct K3 as [[K3 _]|[K3 K4]]; [lia|].
      assert (i <= exact e (start p)) by nia.
      assert (sl * i <= sl * exact e (start p)) by nia.
      assert (sl * (exact e (stop p) + 1) <= sl * i) by nia. lia.
  Qed.
End Sound.
