(** The annotations the visitor leaves have the properties Link.v asks for.
    Proof machinery only. *)
From Coq Require Import List Bool Arith Lia.
From Verif.Scope Require Import Spec Model Events Flow Link Path Items.
Import ListNotations.

Lemma curof_ext : forall a a' es, (forall e, In e es -> is_intro a' e = is_intro a e) ->
  curof a' es = curof a es.
Proof.
  intros a a' es. unfold curof. generalize (None : option node).
  induction es as [|e es IH]; intros c E; [reflexivity|]. simpl.
  rewrite IH by (intros e' I; apply E; right; exact I). f_equal.
  unfold cstep. rewrite (E e) by (left; reflexivity). reflexivity.
Qed.
Lemma intros_ext : forall a a' es, (forall e, In e es -> is_intro a' e = is_intro a e) ->
  intros a' es = intros a es.
Proof.
  intros a a'. induction es as [|e es IH]; intros E; [reflexivity|]. simpl.
  rewrite (E e) by (left; reflexivity). rewrite IH; [reflexivity|].
  intros e' I. apply E. right. exact I.
Qed.
Lemma intros_mid : forall a u e w, is_intro a e = true -> intros a (u ++ e :: w) <> 0.
Proof. intros a u e w I. rewrite intros_app. simpl. rewrite I. lia. Qed.
Lemma stays_cons : forall a e p, is_intro a e = true -> (stays (e :: p) <-> stays p).
Proof.
  intros a e p I. pose proof (intro_flat a e I) as D.
  unfold stays. destruct e; simpl in *; try discriminate; tauto.
Qed.

(** ** A binding is looked up *)

Section Change.
  Context (a a' : ann) (l : list ev) (G : ev) (p2 : list ev).
  Local Notation pre := (l ++ G :: p2).
  Context (C : claims a pre).
  Context (S2 : stays p2) (HG : is_intro a' G = true) (Z2 : intros a' p2 = 0).
  Context (Hc : checks a' = checks a).
  Context (Hl : forall e, In e l -> is_intro a' e = is_intro a e).
  Context (Hk : forall b, In (Bd b) l -> kinds a' b = kinds a b).
  Context (H2 : forall b, In (Bd b) p2 -> kinds a' b = match G with Bd _ => KUpd | _ => KUsed end).
  Context (Hb : forall b, G = Bd b -> is_intro a G = true).
  Context (Ho : is_intro a G = true \/ intros a l = 0).
  Context (HE : forall p k fo q, pre = p ++ Body k fo :: q -> decls a' k <> None ->
                decls a' k = Some 1 /\ intros a' p = 0).

  Lemma ch_sub : forall u w, l = u ++ w -> forall e, In e u -> is_intro a' e = is_intro a e.
  Proof. intros u w -> e I. apply Hl. apply in_or_app. auto. Qed.
  Lemma ch_sub2 : forall u w, l = u ++ w -> forall e, In e w -> is_intro a' e = is_intro a e.
  Proof. intros u w -> e I. apply Hl. apply in_or_app. auto. Qed.
  Lemma ch_flat : dep 0 [G] = Some 0.
  Proof. exact (intro_flat a' G HG). Qed.
  Lemma ch_cur : forall u w, p2 = u ++ w -> curof a' (l ++ G :: u) = node_of G.
  Proof.
    intros u w E. apply curof_intro; [exact HG|]. rewrite E, intros_app in Z2. lia.
  Qed.
  Lemma ch_read : forall u w, p2 = u ++ w -> intros a' u = 0.
  Proof. intros u w E. rewrite E, intros_app in Z2. lia. Qed.

  (** A read is before the binding found or after it. *)
  Lemma ch_split : forall p r q, pre = p ++ Rd r :: q ->
    (exists e, l = p ++ Rd r :: e /\ q = e ++ G :: p2) \/
    (exists e, p = l ++ G :: e /\ p2 = e ++ Rd r :: q).
  Proof.
    intros p r q E. destruct (split_cons _ _ _ _ _ _ _ E) as [X|[(_ & Q & _)|X]]; auto.
    rewrite Q in HG. discriminate.
  Qed.

  (** A checked read is not after the assignment found. *)
  Lemma ch_checked : forall u r w, p2 = u ++ Rd r :: w -> checks a r = true ->
    exists k fo, G = Body k fo.
  Proof.
    intros u r w E Cr.
    destruct G as [k su lp|k fo|r'|b|lp] eqn:EG; try discriminate; [eauto|]. exfalso.
    pose proof (Hb b eq_refl) as Ib.
    destruct (cF a _ C (l ++ Bd b :: u) r w) as [k Ck]; [|exact Cr|].
    { rewrite E, <- app_assoc. reflexivity. }
    destruct (last_intro a (l ++ Bd b :: u)) as (v & i & w' & Ev & Ii & Zi & Ci).
    { apply intros_mid. exact Ib. }
    rewrite Ck in Ci. destruct i as [j su lp|j fo|r'|b'|lp]; try discriminate.
    destruct (split_cons _ _ _ _ _ _ _ Ev) as [(e & -> & ->)|[(_ & Q & _)|(e & -> & Q)]].
    - apply (intros_mid a e (Bd b) u Ib). exact Zi.
    - discriminate.
    - destruct (cE a _ C (l ++ Bd b :: e) j fo (w' ++ Rd r :: w)) as [_ Z].
      + rewrite E, Q, <- !app_assoc. reflexivity.
      + simpl in Ii. destruct (decls a j); congruence.
      + exact (intros_mid a _ _ _ Ib Z).
  Qed.

  Lemma claims_change : claims a' pre.
  Proof.
    constructor.
    - intros p1 i q r p3 E Ii Zq.
      destruct (split_cons _ _ _ _ _ _ _ E) as [(e & El & Eq)|[(_ & _ & Eq)|(e & _ & Eq)]].
      + destruct (split_cons _ _ _ _ _ _ _ Eq) as [(e' & -> & Q)|[(_ & Q & _)|(e' & -> & Q)]].
        * exfalso. exact (intros_mid a' _ _ _ HG Zq).
        * rewrite <- Q in HG. discriminate.
        * apply (cB a _ C p1 i q r p3 E).
          -- rewrite <- Hl; [exact Ii|]. rewrite El. apply in_or_app. right. left. reflexivity.
          -- rewrite <- Zq. symmetry. apply intros_ext. intros x I. apply Hl. rewrite El.
             apply in_or_app. right. right. apply in_or_app. auto.
      + rewrite Eq in S2. exact (stays_app_l _ _ S2).
      + exfalso. rewrite Eq in Z2. exact (intros_mid a' _ _ _ Ii Z2).
    - intros p r q E Zp. destruct (ch_split p r q E) as [(e & El & Q)|(e & -> & Q)].
      + apply (cB0 a _ C p r q E). rewrite <- Zp. symmetry. apply intros_ext.
        exact (ch_sub _ _ El).
      + exact (intros_mid a' _ _ _ HG Zp).
    - intros p r q E Cr. rewrite Hc in Cr.
      destruct (cC a _ C p r q E Cr) as (p1 & b & w & Ep & Zw & Sw).
      exists p1, b, w. split; [exact Ep|]. split; [|exact Sw].
      destruct (ch_split p r q E) as [(e & El & Q)|(e & Ee & Q)].
      + rewrite <- Zw. apply intros_ext. intros x I. apply Hl. rewrite El, Ep.
        apply in_or_app. left. apply in_or_app. right. right. exact I.
      + rewrite Ep in Ee.
        destruct (split_cons _ _ _ _ _ _ _ Ee) as [(x & E1 & E2)|[(_ & _ & ->)|(x & E1 & E2)]].
        * rewrite Q, E2 in Z2. rewrite !intros_app in Z2. simpl in Z2. lia.
        * exact (ch_read _ _ Q).
        * exfalso. rewrite E2, intros_app in Zw. simpl in Zw.
          destruct Ho as [Ho'|Ho']; [rewrite Ho' in Zw; lia|].
          apply (cB0 a _ C p r q E). rewrite Ep, Ee, intros_app. simpl. lia.
    - intros p r q E Cr. rewrite Hc in Cr.
      destruct (ch_split p r q E) as [(e & El & Q)|(e & -> & Q)].
      + destruct (cF a _ C p r q E Cr) as [k Ck]. exists k. rewrite <- Ck. apply curof_ext.
        exact (ch_sub _ _ El).
      + destruct (ch_checked e r q Q Cr) as (k & fo & EG).
        exists k. rewrite (ch_cur e (Rd r :: q) Q), EG. reflexivity.
    - intros p1 k su e1 r e2 lp q E B Z.
      destruct (split_cons _ _ _ _ _ _ _ E) as [(e & El & Eq)|[(_ & Q & _)|(e & _ & Eq)]].
      + destruct (split_cons _ _ _ _ _ _ _ Eq) as [(x & Ex & Ep)|[(_ & Q & _)|(x & Ex & Ep)]].
        * exfalso. rewrite Ex in B. apply (closed_not_stays e G x lp q ch_flat B).
          rewrite <- Ep. exact S2.
        * rewrite <- Q in HG. discriminate.
        * assert (Hes : forall y, In y (e1 ++ Rd r :: e2) -> is_intro a' y = is_intro a y).
          { intros y I. apply Hl. rewrite El, Ex. apply in_or_app. right. right.
            apply in_or_app. auto. }
          rewrite (intros_ext a a') in Z by exact Hes.
          rewrite (intros_ext a a'); [exact (cA a _ C _ _ _ _ _ _ _ _ E B Z)|].
          intros y I. apply Hes. apply in_or_app. auto.
      + rewrite Q in HG. discriminate.
      + exfalso. apply Z. rewrite Eq, intros_app in Z2. simpl in Z2. rewrite !intros_app in Z2.
        simpl in Z2. rewrite intros_app. simpl. lia.
    - intros p b q E.
      destruct (split_cons _ _ _ _ _ _ _ E) as [(e & El & _)|[(_ & Q & _)|(e & -> & Q)]].
      + pose proof (cD a _ C p b q E) as D. rewrite Hk.
        * rewrite (curof_ext a a') by exact (ch_sub _ _ El). exact D.
        * rewrite El. apply in_or_app. right. left. reflexivity.
      + rewrite Q in HG. simpl in HG. destruct (kinds a' b); [exact Logic.I|discriminate|discriminate].
      + rewrite (ch_cur e (Bd b :: q) Q). rewrite H2 by (rewrite Q; apply in_or_app; right; left; reflexivity).
        destruct G as [? ? ?|j fo|?|j|?]; try discriminate; exists j; reflexivity.
    - exact HE.
  Qed.
End Change.

(** ** One more event *)

Lemma claims_snoc : forall a pre e, claims a pre ->
  (forall r, e = Rd r -> intros a pre <> 0 /\
     (forall p1 i p2, pre = p1 ++ i :: p2 -> is_intro a i = true -> intros a p2 = 0 -> stays p2) /\
     (checks a r = false -> exists p1 b p2, pre = p1 ++ Bd b :: p2 /\ intros a p2 = 0 /\ stays p2) /\
     (checks a r = true -> exists k, curof a pre = Some (NSuite k))) ->
  (forall lp, e = Close lp -> forall p1 k su e1 r e2,
     pre = p1 ++ Open k su true :: e1 ++ Rd r :: e2 -> bal (e1 ++ Rd r :: e2) ->
     intros a (e1 ++ Rd r :: e2) <> 0 -> intros a e1 <> 0) ->
  (forall b, e = Bd b -> kinds a b = KNew) ->
  (forall k fo, e = Body k fo -> decls a k = None) ->
  claims a (pre ++ [e]).
Proof.
  intros a pre e C HR HC HB HY. constructor.
  - intros p1 i p2 r p3 E Ii Z. rewrite app_comm_cons, app_assoc in E.
    destruct (snoc_split _ _ _ _ _ _ E) as [(-> & Ep & Er)|(q' & -> & Ep)].
    + destruct (HR r (eq_sym Er)) as (_ & H & _). apply (H p1 i p2); auto.
    + apply (cB a _ C p1 i p2 r q'); auto. rewrite Ep, <- app_assoc. reflexivity.
  - intros p r q E.
    destruct (snoc_split _ _ _ _ _ _ E) as [(-> & -> & Er)|(q' & -> & Ep)].
    + destruct (HR r (eq_sym Er)) as (H & _). exact H.
    + apply (cB0 a _ C p r q' Ep).
  - intros p r q E Cr.
    destruct (snoc_split _ _ _ _ _ _ E) as [(-> & -> & Er)|(q' & -> & Ep)].
    + destruct (HR r (eq_sym Er)) as (_ & _ & H & _). auto.
    + apply (cC a _ C p r q' Ep Cr).
  - intros p r q E Cr.
    destruct (snoc_split _ _ _ _ _ _ E) as [(-> & -> & Er)|(q' & -> & Ep)].
    + destruct (HR r (eq_sym Er)) as (_ & _ & _ & H). auto.
    + apply (cF a _ C p r q' Ep Cr).
  - intros p1 k su e1 r e2 lp p2 E B Z. rewrite app_comm_cons, app_assoc in E.
    destruct (snoc_split _ _ _ _ _ _ E) as [(-> & Ep & El)|(q' & -> & Ep)].
    + apply (HC lp (eq_sym El) p1 k su e1 r e2); auto.
    + apply (cA a _ C p1 k su e1 r e2 lp q'); auto. rewrite Ep, <- app_assoc. reflexivity.
  - intros p b q E.
    destruct (snoc_split _ _ _ _ _ _ E) as [(-> & -> & Eb)|(q' & -> & Ep)].
    + rewrite (HB b (eq_sym Eb)). exact I.
    + apply (cD a _ C p b q' Ep).
  - intros p k fo q E Dk.
    destruct (snoc_split _ _ _ _ _ _ E) as [(-> & -> & Eb)|(q' & -> & Ep)].
    + rewrite (HY k fo (eq_sym Eb)) in Dk. congruence.
    + apply (cE a _ C p k fo q' Ep Dk).
Qed.

Lemma claims_check : forall a pre r, claims a pre -> ~ In r (rds pre) ->
  claims (set_check r a) pre.
Proof.
  intros a pre r C N. constructor.
  - exact (cB a _ C).
  - exact (cB0 a _ C).
  - intros p r' q E Cr. apply (cC a _ C p r' q E). simpl in Cr. unfold upd in Cr.
    destruct (Nat.eqb r' r); [discriminate|exact Cr].
  - intros p r' q E Cr. apply (cF a _ C p r' q E). simpl in Cr. unfold upd in Cr.
    destruct (Nat.eqb_spec r' r) as [->|]; [|exact Cr]. exfalso. apply N.
    apply rds_in. rewrite E. apply in_or_app. right. left. reflexivity.
  - exact (cA a _ C).
  - exact (cD a _ C).
  - exact (cE a _ C).
Qed.

(** ** The loops that are open *)

Definition seen_ok (a : ann) (f : bool) (q : list ev) : Prop :=
  if f then exists e1 r e2, q = e1 ++ Rd r :: e2 /\ intros a e1 = 0
  else forall e1 r e2, q = e1 ++ Rd r :: e2 -> intros a e1 <> 0.
Definition flags (a : ann) (pre : list ev) (stk : list blk) : Prop :=
  forall p1 k su lp q d, pre = p1 ++ Open k su lp :: q -> dep 0 q = Some d ->
  exists b, nth_error stk d = Some b /\
    match noted b with
    | None => lp = false
    | Some f => lp = true /\ seen_ok a f q
    end.

Lemma seen_snoc : forall a f q e, (forall r, e <> Rd r) -> seen_ok a f q -> seen_ok a f (q ++ [e]).
Proof.
  intros a [] q e N S; simpl in *.
  - destruct S as (e1 & r & e2 & -> & Z). exists e1, r, (e2 ++ [e]).
    rewrite <- app_assoc. auto.
  - intros e1 r e2 E. destruct (snoc_split _ _ _ _ _ _ E) as [(_ & _ & Q)|(q' & _ & Ep)].
    + exfalso. exact (N r (eq_sym Q)).
    + exact (S _ _ _ Ep).
Qed.
Lemma dep_snoc_flat : forall q e d, dep 0 [e] = Some 0 -> dep 0 (q ++ [e]) = Some d ->
  dep 0 q = Some d.
Proof.
  intros q e d D E. rewrite dep_app in E. destruct (dep 0 q) as [d'|]; [|discriminate].
  change (dep d' [e] = Some d) in E. rewrite (dep_lower [e] d' 0 D) in E. exact E.
Qed.
Lemma flags_flat : forall a pre stk e, dep 0 [e] = Some 0 -> (forall r, e <> Rd r) ->
  flags a pre stk -> flags a (pre ++ [e]) stk.
Proof.
  intros a pre stk e D N F p1 k su lp q d E Dq.
  destruct (snoc_split _ _ _ _ _ _ E) as [(_ & _ & <-)|(q' & -> & Ep)]; [discriminate|].
  destruct (F p1 k su lp q' d Ep (dep_snoc_flat _ _ _ D Dq)) as (b & Eb & Nb).
  exists b. split; [exact Eb|]. destruct (noted b); [|exact Nb].
  destruct Nb. split; auto using seen_snoc.
Qed.
Lemma flags_open : forall a pre stk k su lp,
  flags a pre stk -> flags a (pre ++ [Open k su lp]) (Blk k su (if lp then Some false else None) :: stk).
Proof.
  intros a pre stk k su lp F p1 k' su' lp' q d E Dq.
  destruct (snoc_split _ _ _ _ _ _ E) as [(-> & _ & Q)|(q' & -> & Ep)].
  - injection Q as -> -> ->. simpl in Dq. injection Dq as <-. eexists. split; [reflexivity|].
    destruct lp; simpl; [|reflexivity]. split; [reflexivity|]. intros [|] ? ? Q; discriminate.
  - rewrite dep_app in Dq. destruct (dep 0 q') as [d'|] eqn:D'; [|discriminate].
    simpl in Dq. injection Dq as <-.
    destruct (F p1 k' su' lp' q' d' Ep D') as (b & Eb & Nb).
    exists b. split; [exact Eb|]. destruct (noted b); [|exact Nb].
    destruct Nb. split; auto. apply seen_snoc; auto. discriminate.
Qed.
Lemma flags_close : forall a pre stk lp, flags a pre stk -> flags a (pre ++ [Close lp]) (tl stk).
Proof.
  intros a pre stk lp F p1 k' su' lp' q d E Dq.
  destruct (snoc_split _ _ _ _ _ _ E) as [(-> & _ & Q)|(q' & -> & Ep)]; [discriminate|].
  rewrite dep_app in Dq. destruct (dep 0 q') as [[|d']|] eqn:D'; try discriminate.
  simpl in Dq. injection Dq as <-.
  destruct (F p1 k' su' lp' q' (S d') Ep D') as (b & Eb & Nb).
  exists b. split; [destruct stk; [discriminate|exact Eb]|]. destruct (noted b); [|exact Nb].
  destruct Nb. split; auto. apply seen_snoc; auto. discriminate.
Qed.

(** A loop that was open when the variable found was introduced. *)
Lemma seen_change : forall a a' l G p2, claims a (l ++ G :: p2) ->
  is_intro a' G = true ->
  (forall e, In e l -> is_intro a' e = is_intro a e) ->
  (is_intro a G = true \/ intros a l = 0) ->
  forall p1 k su lp e f, l = p1 ++ Open k su lp :: e ->
  seen_ok a f (e ++ G :: p2) -> seen_ok a' f (e ++ G :: p2).
Proof.
  intros a a' l G p2 C HG Hl Ho p1 k su lp e f El S.
  assert (He : forall u w, e = u ++ w -> intros a' u = intros a u).
  { intros u w Eu. apply intros_ext. intros x I. apply Hl. rewrite El, Eu.
    apply in_or_app. right. right. apply in_or_app. auto. }
  destruct f; simpl in *.
  - destruct S as (e1 & r & e2 & E & Z). exists e1, r, e2. split; [exact E|].
    destruct (split_cons _ _ _ _ _ _ _ E) as [(x & Ex & _)|[(_ & Q & _)|(x & Ex & Ep)]].
    + rewrite (He _ _ Ex). exact Z.
    + rewrite Q in HG. discriminate.
    + exfalso. rewrite Ex, intros_app in Z. simpl in Z.
      destruct Ho as [Ho|Ho]; [rewrite Ho in Z; lia|].
      apply (cB0 a _ C (l ++ G :: x) r e2).
      * rewrite Ep, <- app_assoc. reflexivity.
      * rewrite intros_app. simpl. lia.
  - intros e1 r e2 E.
    destruct (split_cons _ _ _ _ _ _ _ E) as [(x & Ex & _)|[(_ & Q & _)|(x & Ex & Ep)]].
    + rewrite (He _ _ Ex). exact (S _ _ _ E).
    + rewrite Q in HG. discriminate.
    + rewrite Ex. apply intros_mid. exact HG.
Qed.

Lemma bal_unique : forall p1 k su lp e p1' k' su' lp' e',
  p1 ++ Open k su lp :: e = p1' ++ Open k' su' lp' :: e' -> bal e -> bal e' ->
  p1 = p1' /\ k = k' /\ su = su' /\ lp = lp' /\ e = e'.
Proof.
  assert (G : forall x k su lp y, bal (x ++ Open k su lp :: y) -> bal y -> False).
  { intros x k su lp y B By. unfold bal in B. rewrite dep_app in B.
    destruct (dep 0 x) as [d|]; [|discriminate]. simpl in B.
    rewrite (bal_dep y (S d) By) in B. discriminate. }
  intros p1 k su lp e p1' k' su' lp' e' E B B'.
  destruct (split_cons _ _ _ _ _ _ _ E) as [(x & -> & ->)|[(-> & Q & ->)|(x & -> & ->)]].
  - destruct (G _ _ _ _ _ B' B).
  - injection Q as -> -> ->. auto.
  - destruct (G _ _ _ _ _ B B').
Qed.

Lemma nth_error_ext : forall A (u w : list A), (forall d, nth_error u d = nth_error w d) -> u = w.
Proof.
  induction u as [|x u IH]; intros w E; destruct w as [|y w].
  - reflexivity.
  - discriminate (E 0).
  - discriminate (E 0).
  - pose proof (E 0) as E0. injection E0 as ->. f_equal. apply IH. intros d. exact (E (S d)).
Qed.

(** ** The pass *)

Lemma tidy_skip : forall pre a its nb ns e, (forall b, e <> Bd b) ->
  tidy pre a its nb ns -> tidy (pre ++ [e]) a its nb ns.
Proof.
  intros pre a its nb ns e N [t1 t2 t3 t4 t5]. constructor; auto.
  - apply nbs_skip; auto.
  - apply nss_snoc. exact t3.
  - intros b I. apply t5. intros J. apply I. rewrite bds_app. apply in_or_app. auto.
Qed.
Lemma tidy_empty : forall pre a nb ns, tidy pre a [] nb ns -> intros a pre = 0.
Proof.
  intros pre a nb ns [t1 t2 t3 t4 t5]. symmetry in t1. apply app_eq_nil in t1.
  destruct t1 as [-> ->]. apply nbs_nil_inv in t2.
  destruct (nss_inv _ _ _ t3) as [(_ & N)|(ig & ? & ? & ? & ? & ? & ? & E & _)].
  - apply intros_none. intros e I. destruct e as [k su lp|k fo|r|b|lp]; try reflexivity; simpl.
    + rewrite N. reflexivity.
    + apply bds_in in I. rewrite t2 in I. destruct I.
  - destruct ig; discriminate.
Qed.

Section Run.
  Context (T : list ev).
  Context (Nop : NoDup (opens T)) (Nbd : NoDup (bds T)) (Nby : NoDup (bodies T))
          (Nrd : NoDup (rds T)).
  Context (Root : forall p q, T = p ++ q -> p <> [] -> exists n, path p = 0 :: n).
  Context (Kf : forall p e q, T = p ++ e :: q ->
             (exists b, e = Bd b) \/ (exists k fo, e = Body k fo) ->
             forall j su, In (j, su) (tl (ostack p)) ->
             su = true /\ exists fo, In (Body j fo) p).
  Context (Bf : forall p k fo q, T = p ++ Body k fo :: q ->
             exists st, ostack p = (k, true) :: st).
  Context (Ff : forall p k q, T = p ++ Body k true :: q ->
             exists p' u, p = p' ++ Open k true true :: u /\ bal u /\ rds u = []).
  Context (Cf : forall p lp q, T = p ++ Close lp :: q ->
             exists p1 k su es, p = p1 ++ Open k su lp :: es /\ bal es).

  Record inv (pre : list ev) (s : st) : Prop := Inv {
    v_stack : map (fun b => (id b, suite b)) (stack s) = ostack pre;
    v_flags : flags (an s) pre (stack s);
    v_items : exists nb ns, tidy pre (an s) (items s) nb ns;
    v_claims : claims (an s) pre;
    v_checks : forall r, ~ In r (rds pre) -> checks (an s) r = false
  }.

  Lemma fresh_checks : forall a pre e, (forall r, ~ In r (rds pre) -> checks a r = false) ->
    forall r, ~ In r (rds (pre ++ [e])) -> checks a r = false.
  Proof. intros a pre e H r N. apply H. intros I. apply N. rewrite rds_app. apply in_or_app. auto. Qed.

  Lemma step_open : forall pre s k su lp, inv pre s -> inv (pre ++ [Open k su lp]) (push k su lp s).
  Proof.
    intros pre s k su lp [vs vf (nb & ns & vi) vc vk]. constructor; simpl.
    - rewrite ostack_app, vs. reflexivity.
    - apply flags_open. exact vf.
    - exists nb, ns. apply tidy_skip; [discriminate|exact vi].
    - apply claims_snoc; try discriminate. exact vc.
    - apply fresh_checks. exact vk.
  Qed.

  Lemma fresh_decl : forall pre k fo q s, T = pre ++ Body k fo :: q -> inv pre s ->
    decls (an s) k = None.
  Proof.
    intros pre k fo q s ET [_ _ (nb & ns & [t1 t2 t3 t4 t5]) _ _].
    assert (Nk : ~ In k (bodies pre)).
    { rewrite ET, bodies_app in Nby. intros I. apply (nodup_app_not _ _ _ k Nby I).
      left. reflexivity. }
    destruct (nss_inv _ _ _ t3) as
      [(_ & N)|(ig & l & k' & fo' & p2 & l0 & w0 & Ens & E1 & B & X & E0 & P0 & N0 & D & F')].
    - apply N.
    - rewrite D. destruct (Nat.eqb_spec k k') as [->|]; [|reflexivity]. exfalso. apply Nk.
      apply bodies_in. exists fo'. rewrite E1. apply in_or_app. right. left. reflexivity.
  Qed.

  Lemma step_body : forall pre s k fo q, T = pre ++ Body k fo :: q -> inv pre s ->
    inv (pre ++ [Body k fo]) (if fo then forget s else s).
  Proof.
    intros pre s k fo q ET V.
    assert (E : (if fo then forget s else s) = s).
    { destruct fo; [|reflexivity]. destruct V as [vs vf _ _ _].
      destruct (Ff pre k q ET) as (p' & u & -> & B & R).
      destruct (vf p' k true true u 0 eq_refl B) as (b & Eb & Nb).
      destruct s as [stk its a]. simpl in *. destruct stk as [|b' stk]; [discriminate|].
      injection Eb as ->. unfold forget. simpl. destruct b as [i0 su0 n0]. simpl in *.
      destruct n0 as [f|]; [|discriminate]. destruct Nb as [_ S]. destruct f; [|reflexivity].
      exfalso. destruct S as (e1 & r & e2 & -> & _). rewrite rds_app in R.
      destruct (rds e1); discriminate. }
    rewrite E. pose proof (fresh_decl pre k fo q s ET V) as Dk.
    destruct V as [vs vf (nb & ns & vi) vc vk]. constructor.
    - rewrite ostack_app, vs. reflexivity.
    - apply flags_flat; auto; discriminate.
    - exists nb, ns. apply tidy_skip; [discriminate|exact vi].
    - apply claims_snoc; try discriminate; auto. intros k' fo' Q. injection Q as <- _. exact Dk.
    - apply fresh_checks. exact vk.
  Qed.

  Lemma ids_stack : forall pre s, map (fun b => (id b, suite b)) (stack s) = ostack pre ->
    ids (stack s) = path pre /\ length (stack s) = length (path pre).
  Proof.
    intros pre s vs. split.
    - unfold ids, path. rewrite <- vs, map_map. reflexivity.
    - unfold path. rewrite rev_length, map_length, <- vs, map_length. reflexivity.
  Qed.

  Lemma step_add : forall pre s b q s', T = pre ++ Bd b :: q -> inv pre s ->
    visit_add b s = Some s' -> inv (pre ++ [Bd b]) s'.
  Proof.
    intros pre s b q s' ET [vs vf (nb & ns & vi) vc vk] E.
    destruct (ids_stack pre s vs) as [Hi Hl].
    assert (Nb : ~ In b (bds pre)).
    { rewrite ET, bds_app in Nbd. intros I. apply (nodup_app_not _ _ _ b Nbd I).
      left. reflexivity. }
    set (i := Item (ids (stack s)) (BNode b) false []) in *.
    set (s0 := St (stack s) (i :: items s) (an s)).
    assert (td : tidy (pre ++ [Bd b]) (an s) (i :: items s) (i :: nb) ns).
    { destruct vi as [t1 t2 t3 t4 t5]. constructor.
      - rewrite t1. reflexivity.
      - apply nbs_bd; auto; discriminate.
      - apply nss_snoc. exact t3.
      - intros Q. right. destruct (t4 Q) as [->|(nb' & j & -> & L)].
        + exists [], i. auto.
        + exists (i :: nb'), j. auto.
      - intros b' I. apply t5. intros J. apply I. rewrite bds_app. apply in_or_app. auto. }
    assert (ET' : T = (pre ++ [Bd b]) ++ q) by (rewrite <- app_assoc; exact ET).
    assert (Hs0 : map (fun b => (id b, suite b)) (stack s0) = ostack (pre ++ [Bd b])).
    { simpl. rewrite ostack_app, vs. reflexivity. }
    assert (Hp : path (pre ++ [Bd b]) = path pre) by (apply path_flat; reflexivity).
    pose proof (find_dom (pre ++ [Bd b]) s0 (i :: nb) ns td Hs0
                  [] i (items s) eq_refl eq_refl) as Fd.
    unfold visit_add in E. fold i s0 in E. rewrite Fd in E; [| |constructor|discriminate].
    2: { simpl. rewrite Hp, Hi. unfold dominates. rewrite Nat.leb_refl, Nat.eqb_refl. reflexivity. }
    simpl in E.
    assert (M : mark (ids (stack s)) (stack s) = stack s).
    { apply nth_error_ext. intros d. rewrite mark_spec.
      - rewrite Hi, Hl, Nat.sub_diag. destruct (nth_error (stack s) d); reflexivity.
      - rewrite Hi, Hl. lia.
      - reflexivity. }
    rewrite M in E. injection E as <-. constructor; simpl.
    - exact Hs0.
    - apply flags_flat; auto; discriminate.
    - exists (i :: nb), ns. exact td.
    - apply claims_snoc; try discriminate; auto. intros b' Q. injection Q as <-.
      destruct vi. auto.
    - apply fresh_checks. exact vk.
  Qed.

  Lemma step_read : forall pre s r q s', T = pre ++ Rd r :: q -> inv pre s ->
    visit_read r s = Some s' -> inv (pre ++ [Rd r]) s'.
  Proof.
    intros pre s r q s' ET [vs vf (nb & ns & vi) vc vk] E.
    destruct (ids_stack pre s vs) as [Hi Hl].
    assert (Nr : ~ In r (rds pre)).
    { rewrite ET, rds_app in Nrd. intros I. apply (nodup_app_not _ _ _ r Nrd I).
      left. reflexivity. }
    unfold visit_read in E.
    assert (Ne : items s <> []).
    { intros Z. unfold find in E. rewrite Z in E. discriminate. }
    destruct (find_ok T Nop Nbd Nby Root Kf Bf pre (Rd r :: q) s nb ns ET vi vs Ne)
      as (i & its' & a' & nb' & ns' & l & G & p2 & Fd & td & Fo).
    rewrite Fd in E. simpl in E.
    destruct Fo as [fp fs fsc fi fa fc fb fk fsw fn fsu fo flt].
    assert (C' : claims a' pre).
    { rewrite fp. apply (claims_change (an s) a' l G p2); auto.
      - rewrite <- fp. exact vc.
      - intros b Q. exact (proj1 (fn b Q)).
      - intros p k fo' q' Ep Dk. rewrite <- fp in Ep.
        destruct (decl_first T Nby pre (Rd r :: q) a' its' nb' ns' ET td _ _ _ _ Ep Dk)
          as (A & B & _). auto. }
    (* whether the read is checked *)
    set (ch := match G with Bd _ => false | _ => true end).
    assert (Es : s' = St (mark (path l) (stack s)) its' (if ch then set_check r a' else a')).
    { unfold ch. destruct G as [k su lp|k fo'|r'|b|lp]; try discriminate.
      - destruct (fsu k fo' eq_refl) as (l0 & w0 & Ck & E0 & P0 & N0).
        rewrite Ck in E. simpl in E. rewrite orb_false_r in E.
        assert (Dn : dominates (path l0) (ids (stack s)) = false).
        { destruct (dominates (path l0) (ids (stack s))) eqn:Q; [|reflexivity]. exfalso.
          apply N0. rewrite Hi, E0 in Q. apply dominates_stays in Q; auto.
          rewrite <- E0. rewrite ET, opens_app in Nop. exact (nodup_app_l _ _ _ Nop). }
        rewrite Dn, fsc in E. congruence.
      - destruct (fn b eq_refl) as [_ Ck]. rewrite Ck, fsc in E. congruence. }
    assert (Ch : checks (if ch then set_check r a' else a') r = ch).
    { destruct ch; simpl; [unfold upd; rewrite Nat.eqb_refl; reflexivity|].
      rewrite fc. apply vk. exact Nr. }
    assert (I2 : forall es, intros (if ch then set_check r a' else a') es = intros a' es).
    { intros. destruct ch; reflexivity. }
    assert (Cu : forall es, curof (if ch then set_check r a' else a') es = curof a' es).
    { intros. destruct ch; reflexivity. }
    assert (Is : forall e, is_intro (if ch then set_check r a' else a') e = is_intro a' e).
    { intros. destruct ch; reflexivity. }
    subst s'. constructor; simpl.
    - rewrite mark_blocks, ostack_app, vs. reflexivity.
    - intros p1 k su lp q0 d Eo Dq.
      destruct (snoc_split _ _ _ _ _ _ Eo) as [(_ & _ & Q)|(q' & -> & Ep)]; [discriminate|].
      pose proof (dep_snoc_flat q' (Rd r) d eq_refl Dq) as Dq'.
      destruct (vf p1 k su lp q' d Ep Dq') as (b & Eb & Nb).
      assert (Dp : exists dp, dep 0 p2 = Some dp /\ length (stack s) - length (path l) = dp /\
                   length (path l) <= length (stack s) /\
                   forall j, j < length (path l) -> nth j (path l) 0 = nth j (ids (stack s)) 0).
      { destruct fs as [dp Dp]. exists dp. split; [exact Dp|].
        assert (Dp' : dep 0 (G :: p2) = Some dp).
        { destruct G; try discriminate; exact Dp. }
        destruct (path_dep l (G :: p2) dp Dp') as (n & En & Ln).
        rewrite Hl, Hi, fp, En, app_length. repeat split; try lia.
        intros j Hj. symmetry. apply app_nth1. exact Hj. }
      destruct Dp as (dp & Dp & Lp & Le & Np).
      rewrite (mark_spec _ _ Le Np), Eb, Lp. simpl. eexists. split; [reflexivity|].
      rewrite fp in Ep.
      destruct (split_cons _ _ _ _ _ _ _ Ep) as [(e & El & Eq)|[(_ & Q & _)|(e & El & Eq)]].
      + (* it was open *)
        assert (Ge : (d <? dp) = false).
        { apply Nat.ltb_ge. rewrite Eq, dep_app in Dq'. destruct (dep 0 e) as [de|]; [|discriminate].
          simpl andthen in Dq'. change (dep de ([G] ++ p2) = Some d) in Dq'.
          rewrite dep_app in Dq'. rewrite (dep_lower [G] de 0 (intro_flat _ _ fi)) in Dq'.
          simpl andthen in Dq'. change (dep de p2 = Some d) in Dq'.
          rewrite (dep_lower p2 de dp Dp) in Dq'. injection Dq' as <-. lia. }
        rewrite Ge. destruct (noted b) as [f|]; [|exact Nb]. destruct Nb as [-> S].
        split; [reflexivity|]. rewrite Eq in S |- *.
        assert (S' : seen_ok a' f (e ++ G :: p2)).
        { eapply (seen_change (an s) a' l G p2); eauto. rewrite <- fp. exact vc. }
        destruct f; simpl in *.
        * destruct S' as (e1 & r' & e2 & Ee & Z). exists e1, r', (e2 ++ [Rd r]).
          rewrite Ee, <- app_assoc, I2. auto.
        * intros e1 r' e2 Ee. rewrite I2.
          destruct (snoc_split _ _ _ _ _ _ Ee) as [(_ & -> & _)|(x & _ & Ex)].
          -- apply intros_mid. exact fi.
          -- exact (S' _ _ _ Ex).
      + rewrite Q in fi. discriminate.
      + (* it was opened after *)
        assert (Lt : (d <? dp) = true).
        { apply Nat.ltb_lt. rewrite Eq, dep_app in Dp. destruct (dep 0 e) as [de|]; [|discriminate].
          simpl in Dp. rewrite (dep_lower q' (S de) d Dq') in Dp. injection Dp as <-. lia. }
        rewrite Lt. unfold marked. destruct (noted b) as [f|] eqn:Enb; [|rewrite Enb; exact Nb].
        destruct Nb as [-> _]. simpl. split; [reflexivity|].
        exists q', r, []. split; [reflexivity|]. rewrite I2.
        rewrite Eq, intros_app in fa. simpl in fa. lia.
    - exists nb', ns'. apply tidy_skip; [discriminate|]. destruct ch; [|exact td].
      destruct td as [u1 u2 u3 u4 u5]. constructor; auto.
      + apply (nbs_ext a'); auto.
      + apply (nss_ext _ a'); auto.
    - apply claims_snoc; try discriminate.
      + destruct ch; [apply claims_check|]; auto.
      + intros r' Q. injection Q as <-. rewrite I2, Ch, Cu. split.
        * rewrite fp. apply intros_mid. exact fi.
        * split.
          -- intros p1 j p2' Ep Ij Zj. rewrite Is in Ij. rewrite I2 in Zj. rewrite fp in Ep.
             destruct (split_cons _ _ _ _ _ _ _ Ep) as [(e & El & Eq)|[(_ & _ & <-)|(e & El & Eq)]].
             ++ exfalso. rewrite Eq in Zj. exact (intros_mid _ _ _ _ fi Zj).
             ++ exact fs.
             ++ exfalso. rewrite Eq in fa. exact (intros_mid _ _ _ _ Ij fa).
          -- split.
             ++ intros Q. unfold ch in Q. destruct G as [k su lp|k fo'|r'|b|lp]; try discriminate.
                exists l, b, p2. rewrite I2. auto.
             ++ intros Q. unfold ch in Q. rewrite fp, curof_intro by auto.
                destruct G as [k su lp|k fo'|r'|b|lp]; try discriminate. exists k. reflexivity.
    - intros r' N. rewrite rds_app in N.
      assert (Nn : r' <> r). { intros ->. apply N. apply in_or_app. right. left. reflexivity. }
      assert (Np : ~ In r' (rds pre)). { intros I. apply N. apply in_or_app. auto. }
      destruct ch; simpl; [unfold upd; destruct (Nat.eqb_spec r' r); [congruence|]|];
        rewrite fc; auto.
  Qed.

  Lemma step_close : forall pre s lp q, T = pre ++ Close lp :: q -> inv pre s ->
    inv (pre ++ [Close lp]) (if lp then pop_loop s else pop s).
  Proof.
    intros pre s lp q ET V. pose proof V as [vs vf (nb & ns & vi) vc vk].
    destruct (Cf pre lp q ET) as (P & k & su & es & Ep & Bes).
    destruct (vf P k su lp es 0 Ep Bes) as (b & Eb & Nb).
    destruct (stack s) as [|b' stk] eqn:Estk; [discriminate|]. injection Eb as ->.
    assert (Hpop : map (fun b => (id b, suite b)) (stack (pop s)) = ostack (pre ++ [Close lp])).
    { rewrite ostack_app, <- vs. simpl. rewrite Estk. reflexivity. }
    assert (Fpop : flags (an s) (pre ++ [Close lp]) (stack (pop s))).
    { simpl. rewrite Estk. apply (flags_close _ _ (b :: stk)). exact vf. }
    assert (Tpop : tidy (pre ++ [Close lp]) (an s) (items s) nb ns).
    { apply tidy_skip; [discriminate|exact vi]. }
    (* no read of an outer variable *)
    assert (Quiet : (lp = true -> seen_ok (an s) false es) -> inv (pre ++ [Close lp]) (pop s)).
    { intros Sf. constructor; auto.
      - exists nb, ns. exact Tpop.
      - apply claims_snoc; try discriminate; auto.
        intros lp' _ p1 k' su' e1 r e2 E1 B1 _.
        assert (E2 : P ++ Open k su lp :: es = p1 ++ Open k' su' true :: e1 ++ Rd r :: e2)
          by congruence.
        destruct (bal_unique _ _ _ _ _ _ _ _ _ _ E2 Bes B1) as (_ & _ & _ & El & Ee).
        apply (Sf El e1 r e2 Ee).
      - apply fresh_checks. exact vk. }
    destruct lp; [|apply Quiet; discriminate].
    unfold pop_loop. rewrite Estk.
    destruct (noted b) as [f|] eqn:Enb; [|discriminate]. destruct Nb as [_ S].
    destruct f; [|apply Quiet; auto].
    (* the variable is looked up again *)
    destruct S as (e1 & r & e2 & Ee & Z1).
    assert (ET' : T = (pre ++ [Close true]) ++ q) by (rewrite <- app_assoc; exact ET).
    assert (Er : pre = (P ++ Open k su true :: e1) ++ Rd r :: e2).
    { rewrite Ep, Ee, <- app_assoc. reflexivity. }
    assert (Ne : items (pop s) <> []).
    { simpl. intros Z. rewrite Z in vi. apply tidy_empty in vi.
      apply (cB0 _ _ vc _ _ _ Er). rewrite Er, intros_app in vi. lia. }
    destruct (find_ok T Nop Nbd Nby Root Kf Bf (pre ++ [Close true]) q (pop s) nb ns ET' Tpop Hpop Ne)
      as (i & its' & a' & nb' & ns' & l & G & p2' & Fd & td & Fo).
    rewrite Fd. simpl in Fo.
    destruct Fo as [fp fs fsc fi fa fc fb fk fsw fn fsu fo flt].
    destruct (snoc_split _ _ _ _ _ _ fp) as [(_ & _ & Q)|(p2 & Ep2 & fp2)].
    { rewrite Q in fi. discriminate. }
    assert (Zp2 : intros a' p2 = 0) by (rewrite Ep2, intros_app in fa; lia).
    assert (Vc2 : claims (an s) (l ++ G :: p2)) by (rewrite <- fp2; exact vc).
    assert (C' : claims a' pre).
    { rewrite fp2. apply (claims_change (an s) a' l G p2); auto.
      - rewrite Ep2 in fs. exact (stays_app_l _ _ fs).
      - intros b' I. apply fsw. rewrite Ep2. apply in_or_app. auto.
      - intros b' Q. exact (proj1 (fn b' Q)).
      - intros p k' fo' q' E0 Dk. rewrite <- fp2 in E0.
        assert (E0' : pre ++ [Close true] = p ++ Body k' fo' :: q' ++ [Close true]).
        { rewrite E0, <- app_assoc. reflexivity. }
        destruct (decl_first T Nby _ q a' its' nb' ns' ET' td _ _ _ _ E0' Dk)
          as (A & B & _). auto. }
    (* it is found where the read found it *)
    assert (Last : exists u I w, P = u ++ I :: w /\ is_intro (an s) I = true /\
                   intros (an s) w = 0 /\ stays w).
    { destruct (last_intro (an s) (P ++ Open k su true :: e1)) as (u & I & w' & Eu & Ii & Zw & _).
      { apply (cB0 _ _ vc _ _ _ Er). }
      destruct (split_cons _ _ _ _ _ _ _ Eu) as [(w & -> & Ew)|[(_ & Q & _)|(x & _ & Ex)]].
      - exists u, I, w. rewrite Ew in Zw. rewrite intros_app in Zw. repeat split; auto; [lia|].
        assert (Sw : stays (w ++ Open k su true :: e1)).
        { apply (cB _ _ vc u I (w ++ Open k su true :: e1) r e2); auto.
          - rewrite Er, <- !app_assoc. reflexivity.
          - rewrite intros_app. simpl. simpl in Zw. lia. }
        exact (stays_app_l _ _ Sw).
      - rewrite <- Q in Ii. discriminate.
      - exfalso. rewrite Ex in Z1. exact (intros_mid _ _ _ _ Ii Z1). }
    destruct Last as (u & I & w & EP & Ii & Zw & Sw).
    set (W := w ++ Open k su true :: es ++ [Close true]).
    assert (EW : pre ++ [Close true] = u ++ I :: W).
    { rewrite Ep, EP. unfold W. rewrite <- !app_assoc. simpl; rewrite <- ?app_assoc; reflexivity. }
    assert (SW : stays W).
    { apply stays_app; [exact Sw|]. apply bal_stays. apply bal_block. exact Bes. }
    destruct (flt u I W EW Ii SW) as [GI Lu].
    assert (EG : l = u /\ p2' = W).
    { rewrite EW in fp. symmetry in fp.
      destruct (split_cons _ _ _ _ _ _ _ fp) as [(x & El & Ex)|[(El & _ & Ex)|(x & El & Ex)]].
      - exfalso. unfold W in Ex.
        destruct (split_cons _ _ _ _ _ _ _ Ex) as [(y & Ew & _)|[(_ & Q & _)|(y & _ & Ey)]].
        + rewrite Ew in Zw. exact (intros_mid _ _ _ _ GI Zw).
        + rewrite <- Q in GI. discriminate.
        + destruct (split_cons _ _ _ _ _ _ _ Ey) as [(z & Ez & Ep')|[(_ & Q & _)|(z & _ & Ez)]].
          * rewrite Ez in Bes.
            apply (closed_not_stays y G z true [] (intro_flat _ _ GI) Bes).
            rewrite <- Ep'. exact fs.
          * rewrite <- Q in GI. discriminate.
          * destruct z; discriminate.
      - auto.
      - exfalso. rewrite El, app_length in Lu. simpl in Lu. lia. }
    destruct EG as [El Ew'].
    constructor; simpl.
    - rewrite <- Hpop. reflexivity.
    - (* loops *)
      rewrite Estk. simpl. intros p1 k1 su1 lp1 q1 d E1 D1.
      destruct (Fpop p1 k1 su1 lp1 q1 d E1 D1) as (b1 & Eb1 & Nb1).
      simpl in Eb1. rewrite Estk in Eb1. simpl in Eb1.
      exists b1. split; [exact Eb1|].
      destruct (noted b1) as [f1|] eqn:Enb1; [|exact Nb1]. destruct Nb1 as [-> S1].
      split; [reflexivity|].
      destruct (snoc_split _ _ _ _ _ _ E1) as [(_ & _ & Q)|(q1' & Eq1 & E1')]; [discriminate|].
      assert (D1' : dep 0 q1' = Some (Datatypes.S d)).
      { rewrite Eq1, dep_app in D1. destruct (dep 0 q1') as [[|d']|]; simpl in D1; try discriminate.
        congruence. }
      pose proof (eq_trans (eq_sym fp) E1) as E3.
      destruct (split_cons _ _ _ _ _ _ _ E3) as [(x & Ex & Eq)|[(_ & Q & _)|(x & Ex & Eq)]].
      + (* open when the variable was introduced *)
        assert (Eq' : q1' = x ++ G :: p2).
        { rewrite Eq1 in Eq. rewrite Ep2 in Eq.
          rewrite app_comm_cons, app_assoc in Eq. apply snoc_inv in Eq. exact (proj1 Eq). }
        destruct (vf p1 k1 su1 true q1' (Datatypes.S d) E1' D1') as (b2 & Eb2 & Nb2).
        simpl in Eb2. rewrite Eb1 in Eb2. injection Eb2 as <-. rewrite Enb1 in Nb2.
        destruct Nb2 as [_ S2]. rewrite Eq1. apply seen_snoc; [discriminate|].
        rewrite Eq' in S2 |- *. eapply (seen_change (an s) a' l G p2); eauto.
      + rewrite Q in fi. discriminate.
      + (* opened later *)
        assert (Zq1 : intros a' q1 = 0).
        { rewrite Eq, intros_app in fa. simpl in fa. lia. }
        destruct f1.
        * destruct S1 as (y & r1 & z & Ey & _). exists y, r1, z. split; [exact Ey|].
          rewrite Ey, intros_app in Zq1. lia.
        * exfalso. rewrite Ew' in Eq. unfold W in Eq.
          destruct (split_cons _ _ _ _ _ _ _ Eq) as [(y & Ey & Eq2)|[(_ & Q & Eq2)|(y & _ & Ey)]].
          -- apply (S1 (y ++ Open k su true :: e1) r (e2 ++ [Close true])).
             ++ rewrite Eq2, Ee. rewrite <- !app_assoc. simpl. rewrite <- ?app_assoc. reflexivity.
             ++ rewrite Ey, intros_app in Zw. rewrite intros_app. simpl in *. lia.
          -- rewrite <- Eq2 in D1. rewrite dep_app in D1. rewrite Bes in D1. discriminate.
          -- destruct (split_cons _ _ _ _ _ _ _ Ey) as [(z & Ez & Eq2)|[(_ & Q & _)|(z & _ & Ez)]].
             ++ rewrite Eq2 in D1. unfold bal in Bes. rewrite Ez in Bes.
                rewrite dep_app in Bes. destruct (dep 0 y) as [dy|]; [|discriminate].
                simpl in Bes. rewrite dep_app in D1.
                destruct (dep 0 z) as [dz|] eqn:Dz; [|discriminate].
                rewrite (dep_lower z (Datatypes.S dy) dz Dz) in Bes. injection Bes as Bes. lia.
             ++ discriminate.
             ++ destruct z; discriminate.
    - exists nb', ns'. exact td.
    - apply claims_snoc; try discriminate; auto.
      intros lp' _ p1 k' su' y1 r' y2 E1 B1 Zn. exfalso. apply Zn.
      assert (E2 : P ++ Open k su true :: es = p1 ++ Open k' su' true :: y1 ++ Rd r' :: y2)
        by congruence.
      destruct (bal_unique _ _ _ _ _ _ _ _ _ _ E2 Bes B1) as (_ & _ & _ & _ & <-).
      rewrite Ew' in fa. unfold W in fa. rewrite intros_app in fa. simpl in fa.
      rewrite intros_app in fa. lia.
    - intros r' N. rewrite fc. simpl. apply (fresh_checks _ pre (Close true) vk). exact N.
  Qed.

  Theorem pass : forall pre q s, T = pre ++ q -> steps pre (St [] [] ann0) = Some s -> inv pre s.
  Proof.
    induction pre as [|e pre IH] using rev_ind; intros q s ET E.
    - injection E as <-. constructor; simpl; auto.
      + intros p1 k su lp q' d Q. destruct p1; discriminate.
      + exists [], []. constructor; auto; constructor. auto.
      + constructor; intros; try (destruct p; discriminate); destruct p1; discriminate.
    - rewrite steps_app in E. destruct (steps pre (St [] [] ann0)) as [s0|] eqn:E0; [|discriminate].
      simpl in E. rewrite andthen_some in E.
      assert (ET' : T = pre ++ e :: q) by (rewrite <- app_assoc in ET; exact ET).
      specialize (IH (e :: q) s0 ET' eq_refl).
      destruct e as [k su lp|k fo|r|b|lp]; simpl in E.
      + injection E as <-. apply step_open. exact IH.
      + injection E as <-. eapply step_body; eauto.
      + eapply step_read; eauto.
      + eapply step_add; eauto.
      + injection E as <-. eapply step_close; eauto.
  Qed.
End Run.
