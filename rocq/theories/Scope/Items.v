(** What the visitor's list of bindings holds, and what looking up the
    dominating one does to it.  Proof machinery only. *)
From Coq Require Import List Bool Arith Lia.
From Verif.Scope Require Import Spec Model Events Flow Link Path.
Import ListNotations.

Fixpoint bds (es : list ev) : list nat :=
  match es with
  | [] => []
  | Bd b :: es => b :: bds es
  | _ :: es => bds es
  end.
Fixpoint rds (es : list ev) : list nat :=
  match es with
  | [] => []
  | Rd r :: es => r :: rds es
  | _ :: es => rds es
  end.
Fixpoint bodies (es : list ev) : list nat :=
  match es with
  | [] => []
  | Body k _ :: es => k :: bodies es
  | _ :: es => bodies es
  end.
Lemma bds_app : forall u w, bds (u ++ w) = bds u ++ bds w.
Proof. induction u as [|[]]; intros w; simpl; rewrite ?IHu; auto. Qed.
Lemma rds_app : forall u w, rds (u ++ w) = rds u ++ rds w.
Proof. induction u as [|[]]; intros w; simpl; rewrite ?IHu; auto. Qed.
Lemma bodies_app : forall u w, bodies (u ++ w) = bodies u ++ bodies w.
Proof. induction u as [|[]]; intros w; simpl; rewrite ?IHu; auto. Qed.
Lemma bds_in : forall es b, In b (bds es) <-> In (Bd b) es.
Proof.
  induction es as [|e es IH]; intros b; [tauto|]. simpl.
  destruct e; simpl; rewrite IH; split; intros I; try tauto;
    destruct I as [I|I]; auto; try discriminate; injection I as ->; auto.
  Unshelve. all: auto.
Qed.
Lemma rds_in : forall es b, In b (rds es) <-> In (Rd b) es.
Proof.
  induction es as [|e es IH]; intros b; [tauto|]. simpl.
  destruct e; simpl; rewrite IH; split; intros I; try tauto;
    destruct I as [I|I]; auto; try discriminate; injection I as ->; auto.
  Unshelve. all: auto.
Qed.
Lemma bodies_in : forall es k, In k (bodies es) <-> exists fo, In (Body k fo) es.
Proof.
  induction es as [|e es IH]; intros k; [simpl; firstorder|].
  assert (E : In k (bodies (e :: es)) <-> (exists fo, e = Body k fo) \/ In k (bodies es)).
  { destruct e as [j su lp|j fo|r|b|lp]; simpl; split; intros I; auto;
      try (destruct I as [[fo' I]|I]; [discriminate|auto]).
    - destruct I as [->|I]; eauto.
    - destruct I as [[fo' I]|I]; [injection I as -> _|]; auto. }
  rewrite E, IH. split.
  - intros [[fo ->]|[fo I]]; exists fo; [left|right]; auto.
  - intros [fo [->|I]]; [left|right]; eauto.
Qed.

Lemma snoc_inv : forall A (p q : list A) x y, p ++ [x] = q ++ [y] -> p = q /\ x = y.
Proof. intros. apply app_inj_tail. assumption. Qed.
Lemma snoc_split : forall A (pre p q : list A) e x, pre ++ [e] = p ++ x :: q ->
  (q = [] /\ p = pre /\ x = e) \/ exists q', q = q' ++ [e] /\ pre = p ++ x :: q'.
Proof.
  intros A pre p q e x E.
  destruct (split_cons _ _ _ _ _ _ _ E) as [(w & -> & ->)|[(-> & -> & <-)|(w & -> & W)]].
  - right. exists w. auto.
  - left. auto.
  - destruct w; discriminate.
Qed.

Lemma app_split : forall A (u w l1 l2 : list A) i, u ++ w = l1 ++ i :: l2 ->
  (exists n, u = l1 ++ i :: n /\ l2 = n ++ w) \/ (exists n, l1 = u ++ n /\ w = n ++ i :: l2).
Proof.
  induction u as [|x u IH]; intros w l1 l2 i E; simpl in E.
  - right. exists l1. auto.
  - destruct l1 as [|y l1]; simpl in E; injection E as -> E.
    + left. exists u. auto.
    + destruct (IH _ _ _ _ E) as [(n & -> & ->)|(n & -> & ->)].
      * left. exists n. auto.
      * right. exists n. auto.
Qed.

Section Items.
  Context (a : ann).

  (** The bindings of the assignments, newest first. *)
  Inductive nbs : list ev -> list item -> Prop :=
  | nbs_nil : nbs [] []
  | nbs_bd : forall l nb b i, nbs l nb -> at_ i = BNode b ->
      (ignore i = false -> kinds a b = KNew /\ scope i = path l /\ checked i = []) ->
      (ignore i = true -> kinds a b <> KNew) ->
      nbs (l ++ [Bd b]) (i :: nb)
  | nbs_skip : forall l nb e, nbs l nb -> (forall b, e <> Bd b) -> nbs (l ++ [e]) nb.

  Lemma nbs_inv : forall l e nb, nbs (l ++ [e]) nb ->
    match e with
    | Bd b => exists i nb', nb = i :: nb' /\ nbs l nb' /\ at_ i = BNode b /\
        (ignore i = false -> kinds a b = KNew /\ scope i = path l /\ checked i = []) /\
        (ignore i = true -> kinds a b <> KNew)
    | _ => nbs l nb
    end.
  Proof.
    intros l e nb N. inversion N as [E|l' nb' b i N' A L R E|l' nb' e' N' Ne E]; subst.
    - destruct l; discriminate.
    - apply snoc_inv in E. destruct E as [-> <-]. exists i, nb'. auto 6.
    - apply snoc_inv in E. destruct E as [-> <-]. destruct e'; auto.
      exfalso. exact (Ne _ eq_refl).
  Qed.

  Lemma nbs_at : forall l nb, nbs l nb -> map at_ nb = map BNode (rev (bds l)).
  Proof.
    induction 1 as [|l nb b i N IH A L R|l nb e N IH Ne].
    - reflexivity.
    - rewrite bds_app, rev_app_distr. simpl. rewrite A, IH. reflexivity.
    - rewrite bds_app, rev_app_distr. destruct e; simpl; auto.
      exfalso. exact (Ne _ eq_refl).
  Qed.

  (** The binding of an event. *)
  Lemma nbs_item : forall w u b nb, nbs (u ++ Bd b :: w) nb ->
    exists n1 i n2, nb = n1 ++ i :: n2 /\ length n1 = length (bds w) /\
      map at_ n1 = map BNode (rev (bds w)) /\ nbs u n2 /\ at_ i = BNode b /\
      (ignore i = false -> kinds a b = KNew /\ scope i = path u /\ checked i = []) /\
      (ignore i = true -> kinds a b <> KNew).
  Proof.
    induction w as [|e w IH] using rev_ind; intros u b nb N.
    - apply nbs_inv in N. destruct N as (i & nb' & -> & N' & A & L & R).
      exists [], i, nb'. auto 9.
    - rewrite app_comm_cons, app_assoc in N. apply nbs_inv in N.
      rewrite bds_app, rev_app_distr.
      destruct e as [k su lp|k fo|r|b'|lp]; simpl; rewrite ?app_nil_r; auto.
      destruct N as (i' & nb' & -> & N' & A & L & R).
      destruct (IH _ _ _ N') as (n1 & i & n2 & -> & Ln & At & Rest).
      exists (i' :: n1), i, n2. split; [reflexivity|]. split.
      { simpl. rewrite app_length. simpl. lia. }
      split; [simpl; rewrite A, At; reflexivity|exact Rest].
  Qed.
  (** The event of a binding. *)
  Lemma nbs_event : forall l nb, nbs l nb -> forall n1 i n2, nb = n1 ++ i :: n2 ->
    exists u b w, l = u ++ Bd b :: w /\ at_ i = BNode b /\
      map at_ n1 = map BNode (rev (bds w)) /\ nbs u n2 /\
      (ignore i = false -> kinds a b = KNew /\ scope i = path u /\ checked i = []) /\
      (ignore i = true -> kinds a b <> KNew).
  Proof.
    induction 1 as [|l nb b i N IH A L R|l nb e N IH Ne]; intros n1 i' n2 E.
    - destruct n1; discriminate.
    - destruct n1 as [|j n1]; simpl in E; injection E as -> ->.
      + exists l, b, []. auto 9.
      + destruct (IH n1 i' n2 eq_refl) as (u & b' & w & -> & A' & At & Rest).
        exists u, b', (w ++ [Bd b]). rewrite <- app_assoc. split; [reflexivity|].
        split; [exact A'|]. rewrite bds_app, rev_app_distr. simpl. rewrite A, At. auto.
    - destruct (IH n1 i' n2 E) as (u & b' & w & -> & A' & At & Rest).
      exists u, b', (w ++ [e]). rewrite <- app_assoc. split; [reflexivity|].
      split; [exact A'|]. rewrite bds_app, rev_app_distr.
      destruct e; simpl; auto. exfalso. exact (Ne _ eq_refl).
  Qed.
  Lemma nbs_nil_inv : forall l, nbs l [] -> bds l = [].
  Proof.
    intros l N. apply nbs_at in N. simpl in N.
    destruct (bds l) as [|b bs]; [reflexivity|]. simpl in N. rewrite map_app in N.
    destruct (map BNode (rev bs)); discriminate.
  Qed.
  Lemma nbs_app : forall w u n2 n1, nbs u n2 -> map at_ n1 = map BNode (rev (bds w)) ->
    Forall (fun i => ignore i = true) n1 -> (forall b, In b (bds w) -> kinds a b <> KNew) ->
    nbs (u ++ w) (n1 ++ n2).
  Proof.
    induction w as [|e w IH] using rev_ind; intros u n2 n1 N At F K.
    - simpl in At. destruct n1; [|discriminate]. rewrite app_nil_r. exact N.
    - rewrite app_assoc. rewrite bds_app, rev_app_distr in At.
      assert (K' : forall b, In b (bds w) -> kinds a b <> KNew).
      { intros b I. apply K. rewrite bds_app. apply in_or_app. auto. }
      destruct e as [k su lp|k fo|r|b|lp]; simpl in At;
        try (apply nbs_skip; [apply IH; auto|discriminate]).
      destruct n1 as [|i n1]; [discriminate|]. simpl in At. injection At as Ai At.
      inversion F as [|? ? Fi Fl]; subst. simpl. apply nbs_bd; auto.
      + congruence.
      + intros _. apply K. rewrite bds_app. apply in_or_app. right. left. reflexivity.
  Qed.
End Items.

Lemma nbs_ext : forall a a' l nb, (forall b, In b (bds l) -> kinds a' b = kinds a b) ->
  nbs a l nb -> nbs a' l nb.
Proof.
  intros a a' l nb E N. induction N as [|l nb b i N IH A L R|l nb e N IH Ne].
  - constructor.
  - assert (Eb : kinds a' b = kinds a b).
    { apply E. rewrite bds_app. apply in_or_app. right. left. reflexivity. }
    constructor; rewrite ?Eb; auto. apply IH. intros b' I. apply E. rewrite bds_app.
    apply in_or_app. auto.
  - apply nbs_skip; [|exact Ne]. apply IH. intros b' I. apply E. rewrite bds_app.
    apply in_or_app. auto.
Qed.

(** The bindings of the declarations: only the oldest one is in use. *)
Inductive nss (pre : list ev) (a : ann) : list item -> Prop :=
| nss_nil : (forall j, decls a j = None) -> nss pre a []
| nss_decl : forall ig l k fo p2 l0 w0,
    pre = l ++ Body k fo :: p2 -> bds l = [] ->
    (exists u b w, p2 = u ++ Bd b :: w /\ stays u) ->
    pre = l0 ++ w0 -> path l0 <> [] -> ~ stays w0 ->
    (forall j, decls a j = if Nat.eqb j k then Some 1 else None) ->
    Forall (fun i => ignore i = true /\
                     exists j fo', at_ i = BSuite j /\ In (Body j fo') p2) ig ->
    nss pre a (ig ++ [Item (path l) (BSuite k) false [path l0]]).

Lemma nss_inv : forall pre a ns, nss pre a ns ->
  (ns = [] /\ forall j, decls a j = None) \/
  exists ig l k fo p2 l0 w0, ns = ig ++ [Item (path l) (BSuite k) false [path l0]] /\
    pre = l ++ Body k fo :: p2 /\ bds l = [] /\
    (exists u b w, p2 = u ++ Bd b :: w /\ stays u) /\
    pre = l0 ++ w0 /\ path l0 <> [] /\ ~ stays w0 /\
    (forall j, decls a j = if Nat.eqb j k then Some 1 else None) /\
    Forall (fun i => ignore i = true /\
                     exists j fo', at_ i = BSuite j /\ In (Body j fo') p2) ig.
Proof.
  intros pre a ns [N|ig l k fo p2 l0 w0 E B X E0 P0 N0 D F]; [left; auto|].
  right. exists ig, l, k, fo, p2, l0, w0. repeat (split; [assumption||reflexivity|]). exact F.
Qed.

Lemma not_stays_app : forall w w', ~ stays w -> ~ stays (w ++ w').
Proof. intros w w' N S. exact (N (stays_app_l _ _ S)). Qed.

Lemma nss_snoc : forall pre a ns e, nss pre a ns -> nss (pre ++ [e]) a ns.
Proof.
  intros pre a ns e [N|ig l k fo p2 l0 w0 E B (u & b & w & -> & S) E0 P0 N0 D F].
  - constructor. exact N.
  - apply (nss_decl _ _ ig l k fo ((u ++ Bd b :: w) ++ [e]) l0 (w0 ++ [e])); auto.
    + rewrite E, <- app_assoc. reflexivity.
    + exists u, b, (w ++ [e]). rewrite <- app_assoc. auto.
    + rewrite E0, <- app_assoc. reflexivity.
    + apply not_stays_app. exact N0.
    + eapply Forall_impl; [|exact F]. intros i (I1 & j & fo' & A & I).
      split; [exact I1|]. exists j, fo'. split; [exact A|]. apply in_or_app. auto.
Qed.

Record tidy (pre : list ev) (a : ann) (its nb ns : list item) : Prop := Tidy {
  t_split : its = nb ++ ns;
  t_nb : nbs a pre nb;
  t_ns : nss pre a ns;
  t_last : ns = [] -> nb = [] \/ exists nb' i, nb = nb' ++ [i] /\ ignore i = false;
  t_new : forall b, ~ In b (bds pre) -> kinds a b = KNew
}.

Section Pass.
  Context (T : list ev).
  Context (Nop : NoDup (opens T)) (Nbd : NoDup (bds T)) (Nby : NoDup (bodies T)).
  Context (Root : forall p q, T = p ++ q -> p <> [] -> exists n, path p = 0 :: n).
  Context (Kf : forall p e q, T = p ++ e :: q ->
             (exists b, e = Bd b) \/ (exists k fo, e = Body k fo) ->
             forall j su, In (j, su) (tl (ostack p)) ->
             su = true /\ exists fo, In (Body j fo) p).
  Context (Bf : forall p k fo q, T = p ++ Body k fo :: q ->
             exists st, ostack p = (k, true) :: st).

  Lemma root_at : forall p e q, T = p ++ e :: q -> dep 0 [e] = Some 0 ->
    exists n, path p = 0 :: n.
  Proof.
    intros p e q E D. rewrite <- (path_flat p e D). apply (Root _ q).
    - rewrite <- app_assoc. exact E.
    - destruct p; discriminate.
  Qed.
  Lemma one_body : forall p k fo q p' fo' q' rest,
    T = (p ++ Body k fo :: q) ++ rest -> p ++ Body k fo :: q = p' ++ Body k fo' :: q' ->
    p = p' /\ q = q'.
  Proof.
    intros p k fo q p' fo' q' rest E E'.
    assert (N : NoDup (bodies (p ++ Body k fo :: q))).
    { rewrite E, bodies_app in Nby. exact (nodup_app_l _ _ _ Nby). }
    destruct (split_cons _ _ _ _ _ _ _ E') as [(e & -> & ->)|[(-> & _ & ->)|(e & -> & ->)]]; auto;
      exfalso; rewrite ?bodies_app in N; simpl in N; rewrite ?bodies_app in N; simpl in N.
    - rewrite <- app_assoc in N. apply (nodup_app_not _ _ _ k (nodup_app_r _ _ _ N)).
      + left. reflexivity.
      + left. reflexivity.
    - apply NoDup_remove_2 in N. apply N. apply in_or_app. right. apply in_or_app. right.
      left. reflexivity.
  Qed.
  Lemma one_bd : forall p b q p' q' rest,
    T = (p ++ Bd b :: q) ++ rest -> p ++ Bd b :: q = p' ++ Bd b :: q' -> p = p' /\ q = q'.
  Proof.
    intros p k q p' q' rest E E'.
    assert (N : NoDup (bds (p ++ Bd k :: q))).
    { rewrite E, bds_app in Nbd. exact (nodup_app_l _ _ _ Nbd). }
    destruct (split_cons _ _ _ _ _ _ _ E') as [(e & -> & ->)|[(-> & _ & ->)|(e & -> & ->)]]; auto;
      exfalso; rewrite ?bds_app in N; simpl in N; rewrite ?bds_app in N; simpl in N.
    - rewrite <- app_assoc in N. apply (nodup_app_not _ _ _ k (nodup_app_r _ _ _ N)).
      + left. reflexivity.
      + left. reflexivity.
    - apply NoDup_remove_2 in N. apply N. apply in_or_app. right. apply in_or_app. right.
      left. reflexivity.
  Qed.
  Lemma intros_none : forall a es, (forall e, In e es -> is_intro a e = false) ->
    intros a es = 0.
  Proof.
    intros a. induction es as [|e es IH]; intros E; [reflexivity|]. simpl.
    rewrite (E e) by (left; reflexivity). apply IH. intros e' I. apply E. right. exact I.
  Qed.
  Lemma intros_zero : forall a es, intros a es = 0 -> forall e, In e es -> is_intro a e = false.
  Proof.
    intros a. induction es as [|e es IH]; intros Z e' I; [destruct I|]. simpl in Z.
    destruct I as [->|I]; [destruct (is_intro a e'); [discriminate|reflexivity]|].
    apply IH; [lia|exact I].
  Qed.

  (** Nothing is introduced before a declaration. *)
  Lemma decl_first : forall pre rest a its nb ns, T = pre ++ rest -> tidy pre a its nb ns ->
    forall p k fo q, pre = p ++ Body k fo :: q -> decls a k <> None ->
    decls a k = Some 1 /\ intros a p = 0 /\ bds p = [] /\
    exists u b w, q = u ++ Bd b :: w /\ stays u.
  Proof.
    intros pre rest a its nb ns ET [t1 t2 t3 t4 t5] p k fo q E Dk.
    destruct t3 as [N|ig l k' fo' p2 l0 w0 E' B X E0 P0 N0 D F].
    - rewrite N in Dk. congruence.
    - rewrite D in Dk |- *. destruct (Nat.eqb_spec k k') as [<-|]; [|congruence].
      rewrite E in ET, E'. destruct (one_body _ _ _ _ _ _ _ _ ET E') as [-> ->].
      split; [reflexivity|]. split; [|auto].
      apply intros_none. intros e I. destruct e as [j su lp|j fj|r|b|lp]; try reflexivity; simpl.
      + rewrite D. destruct (Nat.eqb_spec j k) as [->|]; [|reflexivity]. exfalso.
        rewrite ET, !bodies_app in Nby. apply nodup_app_l in Nby.
        apply (nodup_app_not _ _ _ k Nby); [apply bodies_in; eauto|]. simpl. auto.
      + exfalso. apply bds_in in I. rewrite B in I. destruct I.
  Qed.

  Record found (pre : list ev) (a a' : ann) (i : item) (l : list ev) (G : ev) (p2 : list ev)
    : Prop := Found {
    f_pre : pre = l ++ G :: p2;
    f_stays : stays p2;
    f_scope : scope i = path l;
    f_intro : is_intro a' G = true;
    f_after : intros a' p2 = 0;
    f_checks : checks a' = checks a;
    f_before : forall e, In e l -> is_intro a' e = is_intro a e;
    f_kinds : forall b, In (Bd b) l -> kinds a' b = kinds a b;
    f_switched : forall b, In (Bd b) p2 ->
      kinds a' b = match G with Bd _ => KUpd | _ => KUsed end;
    f_node : forall b, G = Bd b -> is_intro a G = true /\ checked i = [];
    f_suite : forall k fo, G = Body k fo ->
      exists l0 w0, checked i = [path l0] /\ pre = l0 ++ w0 /\ path l0 <> [] /\ ~ stays w0;
    f_old : is_intro a G = true \/ intros a l = 0;
    f_latest : forall u e w, pre = u ++ e :: w -> is_intro a e = true -> stays w ->
      is_intro a G = true /\ length u <= length l
  }.

  Lemma nss_ext : forall pre a a' ns, (forall j, decls a' j = decls a j) ->
    nss pre a ns -> nss pre a' ns.
  Proof.
    intros pre a a' ns E [N|ig l k fo p2 l0 w0 E1 B X E0 P0 N0 D F].
    - constructor. intros. rewrite E. auto.
    - econstructor; eauto. intros. rewrite E. auto.
  Qed.
  Lemma retired : forall sc l, Forall (fun i => ignore i = true) (map (retire sc) l).
  Proof. intros. apply Forall_forall. intros i I. apply in_map_iff in I. destruct I as (j & <- & _). reflexivity. Qed.
  Lemma node_suite : forall l k, ~ In (BSuite k) (map BNode l).
  Proof. intros l k I. apply in_map_iff in I. destruct I as (? & ? & _). discriminate. Qed.
  Lemma node_in : forall l b, In (BNode b) (map BNode l) <-> In b l.
  Proof.
    intros. split; intros I; [|apply in_map; exact I].
    apply in_map_iff in I. destruct I as (? & E & I). injection E as ->. exact I.
  Qed.

  Section Find.
    Context (pre rest : list ev) (s : st) (nb ns : list item).
    Context (ET : T = pre ++ rest).
    Context (td : tidy pre (an s) (items s) nb ns).
    Context (Hs : map (fun b => (id b, suite b)) (stack s) = ostack pre).
    Local Notation a := (an s).

    Lemma here_ids : ids (stack s) = path pre.
    Proof. unfold ids, path. rewrite <- Hs, map_map. reflexivity. Qed.
    Lemma here_nodup : NoDup (opens pre).
    Proof. rewrite ET, opens_app in Nop. exact (nodup_app_l _ _ _ Nop). Qed.

    (** The bindings in use. *)
    Lemma live_at : forall i, In i (items s) -> ignore i = false ->
      exists l e p2, pre = l ++ e :: p2 /\ scope i = path l /\ dep 0 [e] = Some 0 /\
        ((exists b, e = Bd b) \/ (exists k fo, e = Body k fo)).
    Proof.
      intros i I L. destruct td as [t1 t2 t3 t4 t5]. rewrite t1 in I.
      apply in_app_or in I. destruct I as [I|I].
      - apply in_split in I. destruct I as (n1 & n2 & E).
        destruct (nbs_event _ _ _ t2 _ _ _ E) as (u & b & w & Ep & A & _ & _ & Li & _).
        destruct (Li L) as (_ & Sc & _). exists u, (Bd b), w. eauto 8.
      - destruct t3 as [N|ig l k fo p2 l0 w0 E1 B X E0 P0 N0 D F]; [destruct I|].
        apply in_app_or in I. destruct I as [I|[<-|[]]].
        + rewrite Forall_forall in F. destruct (F i I). congruence.
        + exists l, (Body k fo), p2. simpl. eauto 8.
    Qed.

    Lemma dom_iff : forall l e p2, pre = l ++ e :: p2 -> dep 0 [e] = Some 0 ->
      (dominates (path l) (path pre) = true <-> stays p2).
    Proof.
      intros l e p2 E D.
      assert (Ne : path l <> []).
      { destruct (root_at l e (p2 ++ rest)) as (n & ->); try discriminate; auto.
        rewrite ET, E, <- app_assoc. reflexivity. }
      pose proof here_nodup as N. rewrite E in N |- *.
      rewrite (dominates_stays l (e :: p2) N Ne). split; intros [d S].
      - exists d. destruct e; simpl in S, D; try discriminate; exact S.
      - exists d. destruct e; simpl in S, D |- *; try discriminate; exact S.
    Qed.

    (** An introduction that is still open has a dominating binding. *)
    Lemma dom_item : forall u e w, pre = u ++ e :: w -> is_intro a e = true -> stays w ->
      exists i n1 n2, items s = n1 ++ i :: n2 /\ ignore i = false /\
        dominates (scope i) (path pre) = true /\
        match e with
        | Bd b => length n1 = length (bds w) /\ In i nb
        | _ => n2 = []
        end.
    Proof.
      intros u e w E I S. pose proof (intro_flat a e I) as De. pose proof td as [t1 t2 t3 t4 t5].
      destruct e as [k su lp|k fo|r|b|lp]; try discriminate.
      - destruct t3 as [N|ig l k' fo' p2 l0 w0 E1 B X E0 P0 N0 D F].
        + simpl in I. rewrite N in I. discriminate.
        + simpl in I. rewrite D in I. destruct (Nat.eqb_spec k k') as [<-|]; [|discriminate].
          assert (ET' : T = (u ++ Body k fo :: w) ++ rest) by (rewrite <- E; exact ET).
          rewrite E in E1. destruct (one_body _ _ _ _ _ _ _ _ ET' E1) as [-> ->].
          exists (Item (path l) (BSuite k) false [path l0]), (nb ++ ig), [].
          rewrite t1, <- app_assoc. repeat split; auto. simpl.
          apply (dom_iff l (Body k fo) p2); auto.
      - rewrite E in t2. destruct (nbs_item _ _ _ _ _ t2) as (n1 & i & n2 & En & Ln & _ & _ & A & L & R).
        assert (Li : ignore i = false).
        { destruct (ignore i) eqn:Q; [|reflexivity]. exfalso. apply (R eq_refl).
          simpl in I. destruct (kinds a b); congruence. }
        destruct (L Li) as (_ & Sc & _).
        exists i, n1, (n2 ++ ns). rewrite t1, En, <- app_assoc. repeat split; auto.
        + rewrite Sc. apply (dom_iff u (Bd b) w); auto.
        + apply in_or_app. right. left. reflexivity.
    Qed.

    (** A binding that dominates. *)
    Lemma find_dom : forall l1 i l2, items s = l1 ++ i :: l2 -> ignore i = false ->
      dominates (scope i) (path pre) = true ->
      Forall (fun j => ignore j = true \/ dominates (scope j) (path pre) = false) l1 ->
      (forall k, at_ i = BSuite k -> decls a k = Some 1) ->
      find s = Some (i, St (stack s) (map (retire (scope i)) l1 ++ i :: l2)
                 (switch (match at_ i with BSuite _ => true | _ => false end) l1 a)).
    Proof.
      intros l1 i l2 E Li Di F Dk. unfold find.
      destruct (items s) as [|x y] eqn:Ex; [destruct l1; discriminate|].
      rewrite E, here_ids.
      rewrite (walk_dom (path pre) i l2 Li Di l1 0 (length (path pre)) 0 F). simpl.
      rewrite (app_nth2 l1 (i :: l2) item0 (Nat.le_refl _)), Nat.sub_diag. simpl.
      rewrite Nat.eqb_refl.
      assert (U : match at_ i with
                  | BSuite k => match decls a k with Some (S _) => true | _ => false end
                  | BNode _ => false
                  end = match at_ i with BSuite _ => true | _ => false end).
      { destruct (at_ i) as [b|k]; [reflexivity|]. rewrite (Dk k eq_refl). reflexivity. }
      rewrite U. rewrite (app_nth2 l1 (i :: l2) item0 (Nat.le_refl _)), Nat.sub_diag. simpl.
      rewrite firstn_app, Nat.sub_diag, firstn_all. simpl. rewrite app_nil_r.
      rewrite skipn_app, Nat.sub_diag, skipn_all. simpl.
      destruct (at_ i); reflexivity.
    Qed.

    Theorem find_ok : items s <> [] ->
      exists i its' a' nb' ns' l G p2,
        find s = Some (i, St (stack s) its' a') /\ tidy pre a' its' nb' ns' /\
        found pre a a' i l G p2.
    Proof.
      intros Ne. pose proof td as [t1 t2 t3 t4 t5]. pose proof (nbs_at _ _ _ t2) as At.
      assert (Npb : NoDup (bds pre)).
      { rewrite ET, bds_app in Nbd. exact (nodup_app_l _ _ _ Nbd). }
      assert (Npk : NoDup (bodies pre)).
      { rewrite ET, bodies_app in Nby. exact (nodup_app_l _ _ _ Nby). }
      destruct (first_dom (path pre) (items s)) as [(l1 & i & l2 & E & Li & Di & F)|F].
      - (* there is one *)
        pose proof E as E'. rewrite t1 in E'. symmetry in E'.
        symmetry in E'. destruct (app_split _ _ _ _ _ _ E') as [(n2 & En & El)|(ig' & El & En)].
        2: { (* that of a declaration *)
          destruct (nss_inv _ _ _ t3) as
            [(Z & _)|(ig & l & k & fo & p2 & l0 & w0 & Ens & E1 & B & X & E0 & P0 & N0 & D & F')].
          { rewrite En in Z. destruct ig'; discriminate. }
          rewrite Ens in En.
          assert (Q : ig' = ig /\ i = Item (path l) (BSuite k) false [path l0] /\ l2 = []).
          { destruct (split_cons _ _ _ _ _ _ _ En) as [(e & -> & ->)|[(-> & <- & <-)|(e & -> & W)]].
            - exfalso. rewrite Forall_app in F'. destruct F' as [_ F'].
              inversion F' as [|? ? Fi _]; subst. destruct Fi. congruence.
            - auto.
            - destruct e; discriminate. }
          destruct Q as (-> & -> & ->). subst l1.
          assert (Dk : decls a k = Some 1) by (rewrite D, Nat.eqb_refl; reflexivity).
          pose proof (find_dom _ _ _ E Li Di F
                        ltac:(intros k0 Q; injection Q as <-; exact Dk)) as Fd.
          simpl in Fd.
          set (a' := switch true (nb ++ ig) a) in *.
          assert (Kin : forall b, In b (bds pre) -> kinds a' b = KUsed).
          { intros b I. apply switch_kinds_in. rewrite map_app, At.
            apply in_or_app. left. apply node_in. apply -> in_rev. exact I. }
          assert (Kout : forall b, ~ In b (bds pre) -> kinds a' b = kinds a b).
          { intros b I. apply switch_kinds_out. rewrite map_app, At. intros J.
            apply in_app_or in J. destruct J as [J|J].
            - apply node_in in J. apply in_rev in J. exact (I J).
            - rewrite Forall_forall in F'. apply in_map_iff in J. destruct J as (j & Aj & Ij).
              destruct (F' j Ij) as (_ & j' & fo' & Aj' & _). congruence. }
          assert (Kp2 : forall j fo', In (Body j fo') p2 -> j <> k).
          { intros j fo' I ->. rewrite E1, bodies_app in Npk. apply nodup_app_r in Npk.
            simpl in Npk. inversion Npk as [|? ? Nk _]; subst. apply Nk.
            apply bodies_in. eauto. }
          assert (Da : forall j, decls a' j = if Nat.eqb j k then Some 1 else None).
          { intros j. destruct (in_dec (fun x y : binding =>
                ltac:(decide equality; apply Nat.eq_dec) : {x = y} + {x <> y})
                (BSuite j) (map at_ (nb ++ ig))) as [J|J].
            - unfold a'. rewrite switch_decls_in by exact J.
              rewrite map_app, At in J. apply in_app_or in J. destruct J as [J|J].
              + exfalso. exact (node_suite _ _ J).
              + rewrite Forall_forall in F'. apply in_map_iff in J. destruct J as (i & Ai & Ii).
                destruct (F' i Ii) as (_ & j' & fo' & Aj' & Ib).
                rewrite Ai in Aj'. injection Aj' as <-.
                destruct (Nat.eqb_spec j k) as [->|]; [|reflexivity].
                exfalso. exact (Kp2 _ _ Ib eq_refl).
            - unfold a'. rewrite switch_decls_out by exact J. apply D. }
          exists (Item (path l) (BSuite k) false [path l0]),
            (map (retire (path l)) (nb ++ ig) ++ [Item (path l) (BSuite k) false [path l0]]),
            a', (map (retire (path l)) nb),
            (map (retire (path l)) ig ++ [Item (path l) (BSuite k) false [path l0]]),
            l, (Body k fo), p2.
          split; [exact Fd|].
          assert (ET' : T = (l ++ Body k fo :: p2) ++ rest) by (rewrite <- E1; exact ET).
          assert (Bl : forall b, In (Bd b) l -> False).
          { intros b I. apply bds_in in I. rewrite B in I. exact I. }
          assert (Kl : forall j fj, In (Body j fj) l -> j <> k).
          { intros j fj I ->. rewrite E1, bodies_app in Npk.
            apply (nodup_app_not _ _ _ k Npk); [apply bodies_in; eauto|]. simpl. auto. }
          split.
          { constructor.
            - rewrite map_app, app_assoc. reflexivity.
            - pose proof (nbs_app a' pre [] [] (map (retire (path l)) nb)) as Q.
              rewrite app_nil_r in Q. apply Q.
              + constructor.
              + rewrite map_retire. exact At.
              + apply retired.
              + intros b I. rewrite Kin by exact I. discriminate.
            - apply (nss_decl _ _ _ l k fo p2 l0 w0); auto.
              apply Forall_forall. intros i I. apply in_map_iff in I.
              destruct I as (j & <- & Ij). rewrite Forall_forall in F'.
              destruct (F' j Ij) as (_ & R). split; [reflexivity|exact R].
            - intros Q. destruct (map (retire (path l)) ig); discriminate.
            - intros b I. rewrite Kout by exact I. apply t5. exact I. }
          constructor; auto.
          * apply (dom_iff l (Body k fo) p2 E1 eq_refl). exact Di.
          * simpl. rewrite Da, Nat.eqb_refl. reflexivity.
          * apply intros_none. intros e I.
            destruct e as [j su lp|j fj|r|b|lp]; try reflexivity; simpl.
            -- rewrite Da. destruct (Nat.eqb_spec j k); [|reflexivity].
               exfalso. exact (Kp2 _ _ I e).
            -- rewrite Kin; [reflexivity|]. rewrite E1, bds_app. apply in_or_app. right.
               simpl. apply bds_in. exact I.
          * apply switch_checks.
          * intros e I. destruct e as [j su lp|j fj|r|b|lp]; try reflexivity; simpl.
            -- rewrite Da, D. reflexivity.
            -- destruct (Bl _ I).
          * intros b I. destruct (Bl _ I).
          * intros b I. apply Kin. rewrite E1, bds_app. apply in_or_app. right.
            simpl. apply bds_in. exact I.
          * intros b Q. discriminate.
          * intros k' fo' _. exists l0, w0. auto.
          * left. simpl. rewrite Dk. reflexivity.
          * intros u e w Eu Ie S.
            split; [simpl; rewrite Dk; reflexivity|].
            destruct (dom_item u e w Eu Ie S) as (i & n1 & n2 & Ei & Lv & Dm & Rest).
            destruct e as [j su lp|j fj|r|b|lp]; try discriminate.
            -- simpl in Ie. rewrite D in Ie. destruct (Nat.eqb_spec j k) as [->|]; [|discriminate].
               rewrite Eu in E1.
               destruct (one_body u k fj w l fo p2 rest) as [-> _]; auto.
               rewrite <- Eu. exact ET.
            -- exfalso. destruct Rest as [_ Inb]. rewrite Forall_forall in F.
               destruct (F i) as [F1|F1]; [apply in_or_app; auto|congruence|congruence]. }
        (* that of an assignment *)
        destruct (nbs_event _ _ _ t2 _ _ _ En) as (l & b & p2 & E1 & Ai & A1 & N2 & Lv & _).
        destruct (Lv Li) as (Kb & Sc & Ck). clear Lv.
        pose proof (find_dom _ _ _ E Li Di F ltac:(intros k Q; congruence)) as Fd.
        rewrite Ai in Fd. rewrite Sc in Fd.
        set (a' := switch false l1 a) in *.
        assert (Kin : forall b', In b' (bds p2) -> kinds a' b' = KUpd).
        { intros b' I. apply (switch_kinds_in false). rewrite A1. apply node_in.
          apply -> in_rev. exact I. }
        assert (Kout : forall b', ~ In b' (bds p2) -> kinds a' b' = kinds a b').
        { intros b' I. apply switch_kinds_out. rewrite A1. intros J.
          apply node_in in J. apply in_rev in J. exact (I J). }
        assert (Da : forall j, decls a' j = decls a j).
        { intros j. apply switch_decls_out. rewrite A1. apply node_suite. }
        rewrite E1, bds_app in Npb. simpl in Npb.
        assert (Nb2 : ~ In b (bds p2)).
        { apply nodup_app_r in Npb. inversion Npb; auto. }
        assert (Nl2 : forall b', In b' (bds l) -> ~ In b' (bds p2)).
        { intros b' I J. apply (nodup_app_not _ _ _ b' Npb I). right. exact J. }
        exists i, (map (retire (path l)) l1 ++ i :: l2), a',
          (map (retire (path l)) l1 ++ i :: n2), ns, l, (Bd b), p2.
        split; [exact Fd|]. split.
        { constructor.
          - rewrite El, <- app_assoc. reflexivity.
          - rewrite E1. rewrite (app_assoc l [Bd b] p2 : l ++ Bd b :: p2 = _).
            apply nbs_app.
            + apply nbs_bd; auto.
              * apply (nbs_ext a); [|exact N2]. intros b' I. apply Kout. auto.
              * intros _. rewrite Kout by exact Nb2. auto.
              * congruence.
            + rewrite map_retire. exact A1.
            + apply retired.
            + intros b' I. rewrite Kin by exact I. discriminate.
          - apply (nss_ext _ a); auto.
          - intros Q. right. destruct (t4 Q) as [Z|(nb' & j & Z & Lj)].
            + rewrite En in Z. destruct l1; discriminate.
            + rewrite En in Z. destruct n2 as [|y n2'] using rev_ind.
              * exists (map (retire (path l)) l1), i. auto.
              * clear IHn2'. exists (map (retire (path l)) l1 ++ i :: n2'), y.
                rewrite <- app_assoc. split; [reflexivity|].
                rewrite app_comm_cons, app_assoc in Z. apply snoc_inv in Z.
                destruct Z as [_ <-]. exact Lj.
          - intros b' I. rewrite Kout; [apply t5; exact I|]. intros J. apply I.
            rewrite E1, bds_app. apply in_or_app. right. right. exact J. }
        constructor; auto.
        * apply (dom_iff l (Bd b) p2 E1 eq_refl). rewrite <- Sc. exact Di.
        * simpl. rewrite Kout by exact Nb2. rewrite Kb. reflexivity.
        * apply intros_none. intros e I.
          destruct e as [j su lp|j fj|r|b'|lp]; try reflexivity; simpl.
          -- rewrite Da. destruct (decls a j) as [c|] eqn:Dj; [exfalso|reflexivity].
             apply in_split in I. destruct I as (u & w & Ep2).
             assert (Eb : pre = (l ++ Bd b :: u) ++ Body j fj :: w).
             { rewrite E1, Ep2, <- app_assoc. reflexivity. }
             destruct (decl_first pre rest a _ _ _ ET td _ _ _ _ Eb) as (_ & _ & Z & _);
               [congruence|].
             rewrite bds_app in Z. destruct (bds l); discriminate.
          -- rewrite Kin; [reflexivity|]. apply bds_in. exact I.
        * apply switch_checks.
        * intros e I. destruct e as [j su lp|j fj|r|b'|lp]; try reflexivity; simpl.
          -- rewrite Da. reflexivity.
          -- rewrite Kout; [reflexivity|]. apply Nl2. apply bds_in. exact I.
        * intros b' I. apply Kout. apply Nl2. apply bds_in. exact I.
        * intros b' I. apply Kin. apply bds_in. exact I.
        * intros b' Q. split; [|exact Ck]. simpl. rewrite Kb. reflexivity.
        * intros k fo Q. discriminate.
        * left. simpl. rewrite Kb. reflexivity.
        * intros u e w Eu Ie S. split; [simpl; rewrite Kb; reflexivity|].
          destruct (dom_item u e w Eu Ie S) as (i' & n1 & n2' & Ei & Lv & Dm & Rest).
          destruct e as [j su lp|j fj|r|b'|lp]; try discriminate.
          -- destruct (decl_first pre rest a _ _ _ ET td _ _ _ _ Eu) as (_ & _ & Z & _).
             { simpl in Ie. destruct (decls a j); congruence. }
             rewrite E1 in Eu.
             destruct (split_cons _ _ _ _ _ _ _ Eu) as [(e & -> & _)|[(_ & Q & _)|(e & -> & _)]].
             ++ rewrite app_length. lia.
             ++ discriminate.
             ++ exfalso. rewrite bds_app in Z. destruct (bds l); discriminate.
          -- destruct Rest as [Ln _]. rewrite E1 in Eu.
             destruct (split_cons _ _ _ _ _ _ _ Eu) as [(e & -> & _)|[(-> & _ & _)|(e & -> & Q)]].
             ++ rewrite app_length. lia.
             ++ lia.
             ++ exfalso. assert (L1 : length l1 = length (bds p2)).
                { rewrite <- (map_length at_ l1), A1, map_length, rev_length. reflexivity. }
                assert (Lt : length n1 < length l1).
                { rewrite L1, Q, bds_app, app_length. simpl. lia. }
                rewrite E in Ei.
                destruct (split_cons _ _ _ _ _ _ _ Ei) as [(x & -> & _)|[(-> & _ & _)|(x & -> & _)]].
                ** rewrite Forall_app in F. destruct F as [_ F].
                   inversion F as [|? ? Fi _]; subst. destruct Fi; congruence.
                ** lia.
                ** rewrite app_length in Lt. lia.
      - (* none *)
        assert (Lg : exists its lg l1 e p2', items s = its ++ [lg] /\ ignore lg = false /\
                  pre = l1 ++ e :: p2' /\ scope lg = path l1 /\ dep 0 [e] = Some 0 /\
                  bds l1 = [] /\
                  ((exists b, e = Bd b) /\ ns = [] \/
                   exists k fo ig, e = Body k fo /\ (exists u b w, p2' = u ++ Bd b :: w /\ stays u) /\
                     (forall j, decls a j = if Nat.eqb j k then Some 1 else None) /\
                     ns = ig ++ [lg] /\ at_ lg = BSuite k /\
                     Forall (fun i => ignore i = true /\
                       exists j fo', at_ i = BSuite j /\ In (Body j fo') p2') ig)).
        { destruct (nss_inv _ _ _ t3) as
            [(Z & _)|(ig & l & k & fo & p2 & l0 & w0 & Ens & E1 & B & X & E0 & P0 & N0 & D & F')].
          - destruct (t4 Z) as [Zn|(nb' & lg & En & Lg)].
            { exfalso. apply Ne. rewrite t1, Zn, Z. reflexivity. }
            destruct (nbs_event _ _ _ t2 _ _ _ En) as (u & b & w & Ep & A & _ & N2 & L & _).
            destruct (L Lg) as (_ & Sc & _).
            exists nb', lg, u, (Bd b), w. rewrite t1, Z, app_nil_r.
            repeat split; auto; [apply (nbs_nil_inv _ _ N2)|]. left. eauto.
          - exists (nb ++ ig), (Item (path l) (BSuite k) false [path l0]), l, (Body k fo), p2.
            rewrite t1, Ens, <- app_assoc. repeat split; auto.
            right. exists k, fo, ig. auto 8. }
        destruct Lg as (its & lg & l1 & e & p2' & Ei & Lg & Ep & Sc & De & Bl1 & Alt).
        assert (El1 : T = l1 ++ e :: p2' ++ rest) by (rewrite ET, Ep, <- app_assoc; reflexivity).
        destruct (Root pre rest ET) as (pn & Pp).
        { rewrite Ep. destruct l1; discriminate. }
        destruct (walk_none (path pre) lg Lg its 0 (length (path pre)) 0) as (c & Ew & Hc & Lc & Nc).
        { rewrite <- Ei. rewrite Forall_forall in F |- *. intros j Ij.
          destruct (F j Ij) as [Fj|Fj]; [auto|].
          destruct (ignore j) eqn:Q; [auto|]. right. split; [exact Fj|].
          destruct (live_at j Ij Q) as (l' & e' & p' & Ep' & Sc' & De' & _).
          destruct (root_at l' e' (p' ++ rest)) as (n & Pn); auto.
          { rewrite ET, Ep', <- app_assoc. reflexivity. }
          rewrite Sc', Pn, Pp. split; [discriminate|reflexivity]. }
        { rewrite Pp. simpl. lia. }
        rewrite Sc in Lc, Nc.
        remember (nth (c - 1) (path pre) 0) as k eqn:Hk.
        (* the block of the declaration *)
        assert (Np1 : NoDup (opens l1)).
        { pose proof here_nodup as N. rewrite Ep, opens_app in N. exact (nodup_app_l _ _ _ N). }
        destruct (ostack l1) as [|[k0 su0] st0] eqn:Eo.
        { unfold path in Lc. rewrite Eo in Lc. simpl in Lc. lia. }
        destruct (path_top _ _ _ _ Eo) as [Pl1 _].
        assert (Ik : In k (map fst st0)).
        { rewrite Pl1 in Nc, Lc. rewrite app_length in Lc. simpl in Lc.
          rewrite app_nth1 in Nc by lia. apply in_rev. rewrite <- Nc. apply nth_In. lia. }
        apply in_map_iff in Ik. destruct Ik as ([k' su] & Q & Ik). simpl in Q. subst k'.
        destruct (Kf l1 e (p2' ++ rest) El1) with (j := k) (su := su) as (-> & fo & Ib).
        { destruct Alt as [[A _]|(k1 & fo1 & ig1 & -> & _)]; eauto. }
        { rewrite Eo. exact Ik. }
        apply in_split in Ib. destruct Ib as (l & w & El).
        set (p2 := w ++ e :: p2').
        assert (E1 : pre = l ++ Body k fo :: p2).
        { rewrite Ep, El, <- app_assoc. reflexivity. }
        destruct (Bf l k fo (p2 ++ rest)) as (st & Eol).
        { rewrite ET, E1, <- app_assoc. reflexivity. }
        assert (Sk : forall q, NoDup (opens (l ++ Body k fo :: q)) ->
                     In k (path (l ++ Body k fo :: q)) -> stays q).
        { intros q N I. destruct (dep 0 q) as [d|] eqn:D; [exists d; exact D|]. exfalso.
          apply (closed_out l (Body k fo :: q) k true st N Eol); [|exact I].
          intros [d S]. simpl in S. congruence. }
        assert (Sw : stays w).
        { apply Sk; [rewrite <- El; exact Np1|]. rewrite <- El. apply path_in. rewrite Eo.
          right. apply (in_map fst _ (k, true)). exact Ik. }
        assert (Kp : In k (path pre)).
        { rewrite Hk. apply nth_In. lia. }
        assert (Sp : stays p2).
        { apply Sk; rewrite <- E1; [exact here_nodup|exact Kp]. }
        assert (Lcl : length (path l) = c /\ firstn c (path pre) = path l /\
                      exists n, ostack pre = n ++ ostack l /\ length (path pre) - c = length n).
        { destruct Sp as [d Sp].
          destruct (ostack_dep l (Body k fo :: p2) d Sp) as (n & En & Ln).
          rewrite <- E1 in En.
          assert (Epp : path pre = path l ++ rev (map fst n)).
          { unfold path. rewrite En, map_app, rev_app_distr. reflexivity. }
          destruct (path_top _ _ _ _ Eol) as [Pl Tl].
          assert (L : length (path l) = c).
          { pose proof (path_nodup pre here_nodup) as Nn.
            assert (length (path l) - 1 = c - 1).
            { apply (proj1 (NoDup_nth (path pre) 0) Nn).
              - rewrite Epp, app_length, Pl, app_length. simpl. lia.
              - lia.
              - rewrite <- Hk. rewrite Epp, last_nth_app, Tl; [reflexivity|].
                rewrite Pl. destruct (rev (map fst st)); discriminate. }
            assert (length (path l) >= 1) by (rewrite Pl, app_length; simpl; lia). lia. }
          split; [exact L|]. split.
          - rewrite Epp, firstn_app, L, Nat.sub_diag, <- L, firstn_all. simpl.
            apply app_nil_r.
          - exists n. split; [exact En|]. rewrite Epp, app_length, rev_length, map_length. lia. }
        destruct Lcl as (Lcl & Fcl & n & Eon & Ln).
        assert (Fs : first_suite (skipn (length (path pre) - c) (stack s)) = Some k).
        { assert (Es : map (fun b => (id b, suite b)) (skipn (length (path pre) - c) (stack s)) =
                       (k, true) :: st).
          { rewrite <- skipn_map, Hs, Eon, Ln, skipn_app, Nat.sub_diag, skipn_all. exact Eol. }
          destruct (skipn (length (path pre) - c) (stack s)) as [|x y]; [discriminate|].
          simpl in Es. injection Es as Ex Es _. simpl. rewrite Es, Ex. reflexivity. }
        set (D := Item (path l) (BSuite k) false [path l1]).
        set (a' := switch true (items s) (set_decl k (Some 1) a)).
        assert (Fd : find s = Some (D, St (stack s) (map (retire (path l)) (items s) ++ [D]) a')).
        { unfold find. destruct (items s) as [|x y] eqn:Ex; [congruence|].
          rewrite Ei, here_ids, Ew. simpl plus.
          rewrite (app_nth2 its [lg] item0 (Nat.le_refl _)), Nat.sub_diag. simpl nth.
          rewrite Sc. destruct (Nat.eqb_spec (length (path l1)) c) as [Q|_]; [lia|].
          rewrite Fs, Fcl. fold D.
          assert (Lx : S (length its) = length (its ++ [lg])) by (rewrite app_length; simpl; lia).
          rewrite Lx, firstn_all, skipn_all.
          rewrite (app_nth2 (its ++ [lg]) [D] item0 (Nat.le_refl _)), Nat.sub_diag. simpl nth.
          rewrite firstn_app, Nat.sub_diag, firstn_all. simpl firstn. rewrite app_nil_r.
          rewrite skipn_app, Nat.sub_diag, skipn_all. simpl skipn.
          unfold a'. rewrite Ei. reflexivity. }
        assert (Ans : forall j, In (BSuite j) (map at_ (items s)) ->
                      exists fo', In (Body j fo') p2).
        { intros j J. rewrite t1, map_app, At in J. apply in_app_or in J. destruct J as [J|J].
          - destruct (node_suite _ _ J).
          - destruct Alt as [[_ Z]|(k1 & fo1 & ig & -> & _ & _ & Z & Al & F')].
            + rewrite Z in J. destruct J.
            + rewrite Z, map_app in J. apply in_app_or in J. destruct J as [J|[J|[]]].
              * apply in_map_iff in J. destruct J as (i & Ai & Ii).
                rewrite Forall_forall in F'. destruct (F' i Ii) as (_ & j' & fo' & Aj & I).
                rewrite Ai in Aj. injection Aj as <-. exists fo'. apply in_or_app. right. right.
                exact I.
              * rewrite Al in J. injection J as <-. exists fo1. apply in_or_app. right. left.
                reflexivity. }
        assert (Kp2 : forall j fo', In (Body j fo') p2 -> j <> k).
        { intros j fo' I ->. rewrite E1, bodies_app in Npk. apply nodup_app_r in Npk.
          simpl in Npk. inversion Npk as [|? ? Nk _]; subst. apply Nk. apply bodies_in. eauto. }
        assert (Kl : forall j fj, In (Body j fj) l -> j <> k).
        { intros j fj I ->. rewrite E1, bodies_app in Npk.
          apply (nodup_app_not _ _ _ k Npk); [apply bodies_in; eauto|]. simpl. auto. }
        assert (Kin : forall b, In b (bds pre) -> kinds a' b = KUsed).
        { intros b I. apply (switch_kinds_in true). rewrite t1, map_app, At.
          apply in_or_app. left. apply node_in. apply -> in_rev. exact I. }
        assert (Kout : forall b, ~ In b (bds pre) -> kinds a' b = kinds a b).
        { intros b I. unfold a'. rewrite switch_kinds_out; [reflexivity|].
          rewrite t1, map_app, At. intros J. apply in_app_or in J. destruct J as [J|J].
          - apply node_in in J. apply in_rev in J. exact (I J).
          - destruct Alt as [[_ Z]|(k1 & fo1 & ig & -> & _ & _ & Z & Al & F')].
            + rewrite Z in J. destruct J.
            + rewrite Z, map_app in J. apply in_app_or in J. destruct J as [J|[J|[]]].
              * apply in_map_iff in J. destruct J as (i & Ai & Ii).
                rewrite Forall_forall in F'. destruct (F' i Ii) as (_ & j' & fo' & Aj & _).
                congruence.
              * congruence. }
        assert (Aold : forall j, decls a j <> None -> In (BSuite j) (map at_ (items s))).
        { intros j Q. rewrite t1, map_app. apply in_or_app. right.
          destruct Alt as [[_ Z]|(k1 & fo1 & ig & -> & _ & Dd & Z & Al & F')].
          - destruct (nss_inv _ _ _ t3) as [(_ & N)|(ig & ? & ? & ? & ? & ? & ? & En & _)].
            + rewrite N in Q. congruence.
            + rewrite Z in En. destruct ig; discriminate.
          - rewrite Dd in Q. destruct (Nat.eqb_spec j k1) as [Ej|]; [|congruence].
            rewrite Ej, Z, map_app. apply in_or_app. right. left. exact Al. }
        assert (Da : forall j, decls a' j = if Nat.eqb j k then Some 1 else None).
        { intros j. destruct (in_dec (fun x y : binding =>
              ltac:(decide equality; apply Nat.eq_dec) : {x = y} + {x <> y})
              (BSuite j) (map at_ (items s))) as [J|J].
          - unfold a'. rewrite switch_decls_in by exact J.
            destruct (Ans j J) as (fo' & I). pose proof (Kp2 _ _ I).
            destruct (Nat.eqb_spec j k); congruence.
          - unfold a'. rewrite switch_decls_out by exact J. simpl. unfold upd.
            destruct (Nat.eqb_spec j k); [reflexivity|].
            destruct (decls a j) eqn:Q; [|reflexivity]. exfalso. apply J. apply Aold. congruence. }
        assert (Bl : bds l = []).
        { rewrite El, bds_app in Bl1. destruct (bds l); [reflexivity|discriminate]. }
        assert (Bl' : forall b, In (Bd b) l -> False).
        { intros b I. apply bds_in in I. rewrite Bl in I. exact I. }
        assert (Il : forall e', In e' l -> is_intro a e' = false).
        { intros e' I. destruct e' as [j su lp|j fj|r|b|lp]; try reflexivity; simpl.
          - destruct (decls a j) eqn:Q; [exfalso|reflexivity].
            destruct (Ans j) as (fo' & I'); [apply Aold; congruence|].
            rewrite E1, bodies_app in Npk. apply (nodup_app_not _ _ _ j Npk).
            + apply bodies_in. eauto.
            + right. apply bodies_in. eauto.
          - destruct (Bl' _ I). }
        assert (Ns2 : ~ stays (e :: p2')).
        { intros S. rewrite Forall_forall in F. destruct (F lg) as [F1|F1].
          - rewrite Ei. apply in_or_app. right. left. reflexivity.
          - congruence.
          - rewrite Sc in F1.
            assert (dominates (path l1) (path pre) = true); [|congruence].
            apply (dom_iff l1 e p2' Ep De). destruct S as [d S]. exists d.
            destruct e; simpl in S, De; try discriminate; exact S. }
        exists D, (map (retire (path l)) (items s) ++ [D]), a', (map (retire (path l)) nb),
          (map (retire (path l)) ns ++ [D]), l, (Body k fo), p2.
        split; [exact Fd|]. split.
        { constructor.
          - rewrite t1, map_app, app_assoc. reflexivity.
          - pose proof (nbs_app a' pre [] [] (map (retire (path l)) nb)) as Q.
            rewrite app_nil_r in Q. apply Q.
            + constructor.
            + rewrite map_retire. exact At.
            + apply retired.
            + intros b I. rewrite Kin by exact I. discriminate.
          - apply (nss_decl _ _ _ l k fo p2 l1 (e :: p2')); auto.
            + destruct Alt as [[[b ->] _]|(k1 & fo1 & ig & -> & (u & b & w' & -> & Su) & _)].
              * exists w, b, p2'. auto.
              * exists (w ++ Body k1 fo1 :: u), b, w'. split.
                -- unfold p2. rewrite <- app_assoc. reflexivity.
                -- apply stays_app; [exact Sw|]. destruct Su as [d Su]. exists d. exact Su.
            + rewrite Pl1. destruct (rev (map fst st0)); discriminate.
            + apply Forall_forall. intros i I. apply in_map_iff in I.
              destruct I as (j & <- & Ij). split; [reflexivity|]. simpl.
              assert (Aj : exists j', at_ j = BSuite j').
              { destruct Alt as [[_ Z]|(k1 & fo1 & ig & _ & _ & _ & Z & Al & F')].
                - rewrite Z in Ij. destruct Ij.
                - rewrite Z in Ij. apply in_app_or in Ij. destruct Ij as [Ij|[<-|[]]]; [|eauto].
                  rewrite Forall_forall in F'. destruct (F' j Ij) as (_ & j' & fo' & Q & _). eauto. }
              destruct Aj as [j' Aj]. destruct (Ans j') as (fo' & I).
              { rewrite t1, map_app. apply in_or_app. right. rewrite <- Aj. apply in_map. exact Ij. }
              exists j', fo'. auto.
          - intros Q. destruct (map (retire (path l)) ns); discriminate.
          - intros b I. rewrite Kout by exact I. apply t5. exact I. }
        constructor; auto.
        * simpl. rewrite Da, Nat.eqb_refl. reflexivity.
        * apply intros_none. intros e' I.
          destruct e' as [j su lp|j fj|r|b|lp]; try reflexivity; simpl.
          -- rewrite Da. destruct (Nat.eqb_spec j k) as [Q|]; [|reflexivity].
             exfalso. exact (Kp2 _ _ I Q).
          -- rewrite Kin; [reflexivity|]. rewrite E1, bds_app. apply in_or_app. right.
             simpl. apply bds_in. exact I.
        * unfold a'. rewrite switch_checks. reflexivity.
        * intros e' I. rewrite (Il _ I).
          destruct e' as [j su lp|j fj|r|b|lp]; try reflexivity; simpl.
          -- rewrite Da. destruct (Nat.eqb_spec j k) as [Q|]; [|reflexivity].
             exfalso. exact (Kl _ _ I Q).
          -- destruct (Bl' _ I).
        * intros b I. destruct (Bl' _ I).
        * intros b I. apply Kin. rewrite E1, bds_app. apply in_or_app. right.
          simpl. apply bds_in. exact I.
        * intros b Q. discriminate.
        * intros k' fo' _. exists l1, (e :: p2'). repeat split; auto.
          rewrite Pl1. destruct (rev (map fst st0)); discriminate.
        * right. apply intros_none. exact Il.
        * intros u e' w' Eu Ie S. exfalso.
          destruct (dom_item u e' w' Eu Ie S) as (i & n1 & n2 & Ei' & Lv & Dm & _).
          rewrite Forall_forall in F. destruct (F i); [|congruence|congruence].
          rewrite Ei'. apply in_or_app. right. left. reflexivity.
    Qed.
  End Find.
End Pass.
