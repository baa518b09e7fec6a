(** The blocks that are open after some events, and when a binding made in one
    of them is found to dominate.  Proof machinery only. *)
From Coq Require Import List Bool Arith Lia.
From Verif.Scope Require Import Spec Model Events Flow Link.
Import ListNotations.

Lemma nodup_app_l : forall A (u w : list A), NoDup (u ++ w) -> NoDup u.
Proof.
  induction u as [|x u IH]; intros w N; [constructor|].
  inversion N; subst. constructor; eauto. intros I. apply H1. apply in_or_app. auto.
Qed.
Lemma nodup_app_r : forall A (u w : list A), NoDup (u ++ w) -> NoDup w.
Proof. induction u; intros w N; [exact N|]. inversion N; subst. auto. Qed.
Lemma nodup_app_not : forall A (u w : list A) x, NoDup (u ++ w) -> In x u -> ~ In x w.
Proof.
  induction u as [|y u IH]; intros w x N I; [destruct I|].
  inversion N; subst. destruct I as [->|I]; [|eauto].
  intros I. apply H1. apply in_or_app. auto.
Qed.

Definition ostep (st : list (nat * bool)) (e : ev) : list (nat * bool) :=
  match e with
  | Open k su _ => (k, su) :: st
  | Close _ => tl st
  | _ => st
  end.
Definition os (es : list ev) (st : list (nat * bool)) := fold_left ostep es st.
Definition ostack (es : list ev) := os es [].
Definition path (es : list ev) : list nat := rev (map fst (ostack es)).

Lemma os_app : forall u w st, os (u ++ w) st = os w (os u st).
Proof. intros. unfold os. apply fold_left_app. Qed.
Lemma ostack_app : forall u w, ostack (u ++ w) = os w (ostack u).
Proof. intros. apply os_app. Qed.

Lemma os_dep : forall es d d' st u, dep d es = Some d' -> length u = d ->
  exists u', os es (u ++ st) = u' ++ st /\ length u' = d'.
Proof.
  induction es as [|e es IH]; intros d d' st u D L.
  - injection D as <-. exists u. auto.
  - destruct e as [k su lp|k fo|r|b|lp]; simpl in D; simpl os; eauto.
    + apply (IH (S d) d' st ((k, su) :: u) D). simpl. lia.
    + destruct d; [discriminate|]. destruct u as [|y u]; [discriminate|]. simpl.
      apply (IH d d' st u D). simpl in L. lia.
Qed.
Lemma ostack_dep : forall l p d, dep 0 p = Some d ->
  exists u, ostack (l ++ p) = u ++ ostack l /\ length u = d.
Proof. intros l p d D. rewrite ostack_app. exact (os_dep p 0 d (ostack l) [] D eq_refl). Qed.
Lemma ostack_bal : forall l p, bal p -> ostack (l ++ p) = ostack l.
Proof.
  intros l p B. destruct (ostack_dep l p 0 B) as ([|] & E & L); [exact E|discriminate].
Qed.
Lemma path_dep : forall l p d, dep 0 p = Some d ->
  exists n, path (l ++ p) = path l ++ n /\ length n = d.
Proof.
  intros l p d D. destruct (ostack_dep l p d D) as (u & E & L). unfold path. rewrite E.
  exists (rev (map fst u)). rewrite map_app, rev_app_distr, rev_length, map_length. auto.
Qed.
Lemma path_flat : forall l e, dep 0 [e] = Some 0 -> path (l ++ [e]) = path l.
Proof. intros. unfold path. rewrite ostack_bal; auto. Qed.

Lemma os_incl : forall es st k, In k (map fst (os es st)) -> In k (map fst st) \/ In k (opens es).
Proof.
  induction es as [|e es IH]; intros st k I; [auto|].
  destruct e as [j su lp|j fo|r|b|lp]; simpl in I |- *; apply IH in I; simpl in I;
    destruct I as [I|I]; auto.
  - destruct I; auto.
  - left. destruct st; [exact I|right; exact I].
Qed.
Lemma os_nodup : forall es st, NoDup (map fst st ++ opens es) -> NoDup (map fst (os es st)).
Proof.
  induction es as [|e es IH]; intros st N; simpl in *.
  - rewrite app_nil_r in N. exact N.
  - destruct e as [j su lp|j fo|r|b|lp]; simpl in N; apply IH; simpl; auto.
    + assert (E := NoDup_remove _ _ _ N). destruct E. constructor; auto.
    + destruct st; simpl in *; [exact N|]. inversion N; auto.
Qed.
Lemma ostack_nodup : forall es, NoDup (opens es) -> NoDup (map fst (ostack es)).
Proof. intros. apply os_nodup. exact H. Qed.
Lemma path_nodup : forall es, NoDup (opens es) -> NoDup (path es).
Proof. intros. apply NoDup_rev. apply ostack_nodup. exact H. Qed.
Lemma path_in : forall es k, In k (path es) <-> In k (map fst (ostack es)).
Proof. intros. symmetry. apply in_rev. Qed.

(** A closed block is never open again. *)
Lemma closed_out : forall l p k su st, NoDup (opens (l ++ p)) ->
  ostack l = (k, su) :: st -> ~ stays p -> ~ In k (path (l ++ p)).
Proof.
  intros l p k su st N E S I.
  assert (D : dep 0 p = None).
  { destruct (dep 0 p) as [d|] eqn:D; [|reflexivity]. exfalso. apply S. exists d. exact D. }
  destruct (not_stays p D) as (u & lp & w & -> & B).
  apply path_in in I. rewrite app_assoc in I. rewrite ostack_app, ostack_bal in I by exact B.
  simpl in I. rewrite E in I. simpl in I.
  assert (Nl : NoDup (opens l)) by (rewrite opens_app in N; exact (nodup_app_l _ _ _ N)).
  apply os_incl in I. destruct I as [I|I].
  - pose proof (ostack_nodup l Nl) as Ns. rewrite E in Ns. simpl in Ns. inversion Ns; auto.
  - rewrite opens_app in N.
    apply (nodup_app_not _ _ _ k N).
    + destruct (os_incl l [] k) as [[]|O]; [|exact O].
      fold (ostack l). rewrite E. left. reflexivity.
    + rewrite opens_app. apply in_or_app. right. exact I.
Qed.

Lemma last_nth_app : forall (u n : list nat), u <> [] ->
  nth (length u - 1) (u ++ n) 0 = nth (length u - 1) u 0.
Proof.
  intros u n N. apply app_nth1. destruct u; [congruence|]. simpl. lia.
Qed.

Lemma path_top : forall l k su st, ostack l = (k, su) :: st ->
  path l = rev (map fst st) ++ [k] /\ nth (length (path l) - 1) (path l) 0 = k.
Proof.
  intros l k su st E. unfold path. rewrite E. simpl. split; [reflexivity|].
  rewrite app_length. simpl. rewrite app_nth2 by lia.
  replace (length (rev (map fst st)) + 1 - 1 - length (rev (map fst st))) with 0 by lia.
  reflexivity.
Qed.

Lemma dominates_stays : forall l p, NoDup (opens (l ++ p)) -> path l <> [] ->
  (dominates (path l) (path (l ++ p)) = true <-> stays p).
Proof.
  intros l p N Ne. split.
  - intros D. destruct (dep 0 p) as [d|] eqn:Dp; [exists d; exact Dp|]. exfalso.
    unfold dominates in D. apply andb_true_iff in D. destruct D as [D1 D2].
    apply Nat.leb_le in D1. apply Nat.eqb_eq in D2.
    destruct (ostack l) as [|[k su] st] eqn:E; [unfold path in Ne; rewrite E in Ne; auto|].
    destruct (path_top _ _ _ _ E) as [_ Tp]. rewrite Tp in D2.
    assert (S : ~ stays p) by (intros [d S]; congruence).
    apply (closed_out l p k su st N E S). rewrite D2. apply nth_In.
    destruct (path l); [congruence|]. simpl in *. lia.
  - intros [d D]. destruct (path_dep l p d D) as (n & E & L). rewrite E.
    unfold dominates. rewrite last_nth_app by exact Ne. rewrite Nat.eqb_refl, app_length.
    rewrite andb_true_r. apply Nat.leb_le. lia.
Qed.

(** ** What the visitor looks for *)

Lemma walk_dom : forall s i l2, ignore i = false -> dominates (scope i) s = true ->
  forall l1 n c g,
  Forall (fun j => ignore j = true \/ dominates (scope j) s = false) l1 ->
  walk s (l1 ++ i :: l2) n c g = (n + length l1, length (scope i)).
Proof.
  intros s i l2 Hi Hd. induction l1 as [|j l1 IH]; intros n c g F; simpl.
  - rewrite Hi, Hd, Nat.add_0_r. reflexivity.
  - inversion F as [|? ? Fj Fl]; subst.
    destruct (ignore j) eqn:Ej.
    + rewrite IH by exact Fl. f_equal. lia.
    + destruct Fj as [Fj|Fj]; [discriminate|]. rewrite Fj, IH by exact Fl. f_equal. lia.
Qed.

Lemma lower_spec : forall a s c, nth 0 a 0 = nth 0 s 0 -> 1 <= c ->
  1 <= lower a s c <= c /\ nth (lower a s c - 1) a 0 = nth (lower a s c - 1) s 0.
Proof.
  induction c as [|c IH]; intros E L; [lia|]. cbn [lower].
  destruct (Nat.eqb_spec (nth c a 0) (nth c s 0)) as [Q|Q].
  - split; [lia|]. simpl. rewrite Nat.sub_0_r. exact Q.
  - destruct c as [|c]; [congruence|]. destruct (IH E) as [A B]; [lia|]. split; [lia|exact B].
Qed.

Lemma walk_none : forall s i, ignore i = false -> forall l n c g,
  Forall (fun j => ignore j = true \/
                   (dominates (scope j) s = false /\ scope j <> [] /\
                    nth 0 (scope j) 0 = nth 0 s 0)) (l ++ [i]) ->
  1 <= c <= length s ->
  exists c', walk s (l ++ [i]) n c g = (n + length l, c') /\
    1 <= c' <= length s /\ c' < length (scope i) /\
    nth (c' - 1) (scope i) 0 = nth (c' - 1) s 0.
Proof.
  intros s i Hi. induction l as [|j l IH]; intros n c g F Hc; simpl.
  - rewrite Hi. inversion F as [|? ? Fi _]; subst.
    destruct Fi as [Fi|(Fd & Fn & F0)]; [congruence|]. rewrite Fd.
    assert (L0 : 1 <= length (scope i)) by (destruct (scope i); [congruence|simpl; lia]).
    destruct (lower_spec (scope i) s (Nat.min c (length (scope i))) F0) as [A B]; [lia|].
    eexists. split; [rewrite Nat.add_0_r; reflexivity|]. split; [lia|split; [|exact B]].
    remember (lower (scope i) s (Nat.min c (length (scope i)))) as c' eqn:Ec.
    destruct (Nat.eq_dec c' (length (scope i))) as [Q|Q]; [|lia]. exfalso.
    rewrite Q in B. unfold dominates in Fd. rewrite B, Nat.eqb_refl in Fd.
    rewrite andb_true_r in Fd. apply Nat.leb_gt in Fd. lia.
  - inversion F as [|? ? Fj Fl]; subst. destruct (ignore j) eqn:Ej.
    + destruct (IH (S n) c g Fl Hc) as (c' & E & R). exists c'. rewrite E. split; [f_equal; lia|exact R].
    + destruct Fj as [Fj|(Fd & Fn & F0)]; [discriminate|]. rewrite Fd.
      assert (L0 : 1 <= length (scope j)) by (destruct (scope j); [congruence|simpl; lia]).
      destruct (lower_spec (scope j) s (Nat.min c (length (scope j))) F0) as [A B]; [lia|].
      destruct (IH (S n) (lower (scope j) s (Nat.min c (length (scope j)))) n Fl) as (c' & E & R); [lia|].
      exists c'. rewrite E. split; [f_equal; lia|exact R].
Qed.

Lemma first_dom : forall s l,
  (exists l1 i l2, l = l1 ++ i :: l2 /\ ignore i = false /\ dominates (scope i) s = true /\
     Forall (fun j => ignore j = true \/ dominates (scope j) s = false) l1) \/
  Forall (fun j => ignore j = true \/ dominates (scope j) s = false) l.
Proof.
  intros s. induction l as [|j l IH]; [right; constructor|].
  destruct (ignore j) eqn:Ej.
  - destruct IH as [(l1 & i & l2 & -> & A & B & C)|F].
    + left. exists (j :: l1), i, l2. auto 6.
    + right. auto.
  - destruct (dominates (scope j) s) eqn:Ed.
    + left. exists [], j, l. auto.
    + destruct IH as [(l1 & i & l2 & -> & A & B & C)|F].
      * left. exists (j :: l1), i, l2. auto 6.
      * right. auto.
Qed.

(** ** What is changed *)

Lemma switch_kinds_in : forall used l a b, In (BNode b) (map at_ l) ->
  kinds (switch used l a) b = if used then KUsed else KUpd.
Proof.
  intros used. induction l as [|i l IH]; intros a b I; [destruct I|]. simpl.
  destruct (in_dec (fun x y : binding => ltac:(decide equality; apply Nat.eq_dec) : {x = y} + {x <> y})
              (BNode b) (map at_ l)) as [J|J]; [apply IH; exact J|].
  destruct I as [I|I]; [|contradiction].
  assert (G : forall l a, ~ In (BNode b) (map at_ l) ->
              kinds (switch used l a) b = kinds a b).
  { clear. induction l as [|i l IH]; intros a N; [reflexivity|]. simpl.
    rewrite IH by (intros I; apply N; right; exact I).
    unfold switch1. destruct (at_ i) as [b'|k] eqn:E; simpl; [|reflexivity].
    unfold upd. destruct (Nat.eqb_spec b b') as [->|]; [|reflexivity].
    exfalso. apply N. left. exact E. }
  rewrite G by exact J. unfold switch1. rewrite I. simpl. unfold upd. rewrite Nat.eqb_refl.
  reflexivity.
Qed.
Lemma switch_kinds_out : forall used l a b, ~ In (BNode b) (map at_ l) ->
  kinds (switch used l a) b = kinds a b.
Proof.
  intros used. induction l as [|i l IH]; intros a b N; [reflexivity|]. simpl.
  rewrite IH by (intros I; apply N; right; exact I).
  unfold switch1. destruct (at_ i) as [b'|k] eqn:E; simpl; [|reflexivity].
  unfold upd. destruct (Nat.eqb_spec b b') as [->|]; [|reflexivity].
  exfalso. apply N. left. exact E.
Qed.
Lemma switch_decls_out : forall used l a k, ~ In (BSuite k) (map at_ l) ->
  decls (switch used l a) k = decls a k.
Proof.
  intros used. induction l as [|i l IH]; intros a k N; [reflexivity|]. simpl.
  rewrite IH by (intros I; apply N; right; exact I).
  unfold switch1. destruct (at_ i) as [b'|k'] eqn:E; simpl; [reflexivity|].
  unfold upd. destruct (Nat.eqb_spec k k') as [->|]; [|reflexivity].
  exfalso. apply N. left. exact E.
Qed.
Lemma switch_decls_in : forall used l a k, In (BSuite k) (map at_ l) ->
  decls (switch used l a) k = None.
Proof.
  intros used. induction l as [|i l IH]; intros a k I; [destruct I|]. simpl.
  destruct (in_dec (fun x y : binding => ltac:(decide equality; apply Nat.eq_dec) : {x = y} + {x <> y})
              (BSuite k) (map at_ l)) as [J|J]; [apply IH; exact J|].
  destruct I as [I|I]; [|contradiction].
  rewrite switch_decls_out by exact J. unfold switch1. rewrite I. simpl. unfold upd.
  rewrite Nat.eqb_refl. reflexivity.
Qed.
Lemma switch_checks : forall used l a, checks (switch used l a) = checks a.
Proof.
  intros used. induction l as [|i l IH]; intros a; [reflexivity|]. simpl. rewrite IH.
  unfold switch1. destruct (at_ i); reflexivity.
Qed.
Lemma map_retire : forall sc l, map at_ (map (retire sc) l) = map at_ l.
Proof. intros. rewrite map_map. apply map_ext. reflexivity. Qed.

(** [mark] *)
Definition marked (b : blk) : blk :=
  match noted b with Some _ => Blk (id b) (suite b) (Some true) | None => b end.

Lemma mark_spec : forall sc stk, length sc <= length stk ->
  (forall i, i < length sc -> nth i sc 0 = nth i (ids stk) 0) ->
  forall d, nth_error (mark sc stk) d =
    option_map (fun b => if d <? length stk - length sc then marked b else b) (nth_error stk d).
Proof.
  intros sc. induction stk as [|b r IH]; intros L E d; [destruct d; reflexivity|].
  assert (Ei : ids (b :: r) = ids r ++ [id b]) by reflexivity.
  assert (Li : length (ids r) = length r) by (unfold ids; rewrite rev_length, map_length; reflexivity).
  destruct (Nat.eq_dec (length sc) (S (length r))) as [Q|Q].
  - assert (Z : forall d', (d' <? length (b :: r) - length sc) = false).
    { intros. apply Nat.ltb_ge. cbn [length]. lia. }
    rewrite Z.
    assert (Hs : forall stk, (forall i, i < length stk -> nth i sc 0 = nth i (ids stk) 0) ->
                  length stk <= length sc -> mark sc stk = stk).
    { clear. induction stk as [|b r IH]; intros E L; [reflexivity|]. simpl.
      assert (Ei : ids (b :: r) = ids r ++ [id b]) by reflexivity.
      assert (Li : length (ids r) = length r)
        by (unfold ids; rewrite rev_length, map_length; reflexivity).
      destruct (noted b).
      - simpl in L. destruct (Nat.ltb_spec (length r) (length sc)); [|lia]. simpl.
        rewrite E by (simpl; lia). rewrite Ei, app_nth2 by lia. rewrite Li, Nat.sub_diag. simpl.
        rewrite Nat.eqb_refl. reflexivity.
      - f_equal. apply IH; [|simpl in L; lia]. intros i Hi. rewrite E by (simpl; lia).
        rewrite Ei. apply app_nth1. lia. }
    rewrite Hs.
    + destruct (nth_error (b :: r) d); reflexivity.
    + intros i Hi. apply E. simpl in Hi. lia.
    + simpl. lia.
  - assert (L' : length sc <= length r) by (simpl in L; lia).
    assert (E' : forall i, i < length sc -> nth i sc 0 = nth i (ids r) 0).
    { intros i Hi. rewrite E by exact Hi. rewrite Ei. apply app_nth1. lia. }
    assert (Lt : (length r <? length sc) = false) by (apply Nat.ltb_ge; lia).
    destruct d as [|d].
    + assert (Z : (0 <? length (b :: r) - length sc) = true) by (apply Nat.ltb_lt; cbn [length]; lia).
      rewrite Z. simpl. unfold marked. destruct (noted b) eqn:Nb; rewrite ?Lt; reflexivity.
    + assert (R : nth_error (mark sc (b :: r)) (S d) = nth_error (mark sc r) d).
      { simpl. destruct (noted b); rewrite ?Lt; reflexivity. }
      rewrite R, (IH L' E' d). cbn [nth_error length].
      destruct (nth_error r d); cbn [option_map]; [|reflexivity].
      replace (S d <? S (length r) - length sc) with (d <? length r - length sc); [reflexivity|].
      destruct (Nat.ltb_spec d (length r - length sc)), (Nat.ltb_spec (S d) (S (length r) - length sc));
        auto; lia.
Qed.
Lemma mark_blocks : forall sc stk,
  map (fun b => (id b, suite b)) (mark sc stk) = map (fun b => (id b, suite b)) stk.
Proof.
  intros sc. induction stk as [|b r IH]; [reflexivity|]. simpl.
  destruct (noted b).
  - destruct ((length r <? length sc) && (nth (length r) sc 0 =? id b)); simpl; [reflexivity|].
    rewrite IH. reflexivity.
  - simpl. rewrite IH. reflexivity.
Qed.
