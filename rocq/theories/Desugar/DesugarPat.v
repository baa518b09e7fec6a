(** Proofs about the translation of patterns. *)
From Coq Require Import ZArith List Bool String Lia.
From Verif.Desugar Require Import DesugarSpec DesugarModel.
Import ListNotations.
Local Open Scope Z_scope.
Local Open Scope list_scope.

(** ** Induction over patterns *)

Section PatInd.
  Context (P : pat -> Prop).
  Context (HInt : forall z, P (PInt z)) (HBool : forall b, P (PBool b))
          (HRange : forall a b, P (PRange a b)) (HStr : forall s, P (PStr s))
          (HTuple : forall ps, Forall P ps -> P (PTuple ps))
          (HList : forall ps, Forall P ps -> P (PList ps))
          (HEll : P PEllipsis) (HOr : forall p q, P p -> P q -> P (POr p q))
          (HWild : P PWild) (HVar : forall x, P (PVar x))
          (HBind : forall x p, P p -> P (PBind x p)).

  Fixpoint pat_ind' (p : pat) : P p :=
    let all := fix all (ps : list pat) : Forall P ps :=
      match ps with
      | [] => Forall_nil P
      | q :: ps' => Forall_cons q (pat_ind' q) (all ps')
      end in
    match p with
    | PInt z => HInt z
    | PBool b => HBool b
    | PRange a b => HRange a b
    | PStr s => HStr s
    | PTuple ps => HTuple ps (all ps)
    | PList ps => HList ps (all ps)
    | PEllipsis => HEll
    | POr p q => HOr p q (pat_ind' p) (pat_ind' q)
    | PWild => HWild
    | PVar x => HVar x
    | PBind x p => HBind x p (pat_ind' p)
    end.
End PatInd.

(** ** The nested functions by name *)

Definition pitems : bool -> list pat -> list val -> option (list (string * val)) :=
  fix items (ell : bool) (ps : list pat) (vs : list val) {struct ps} :=
    match ps with
    | [] => match vs with [] => Some [] | _ => None end
    | q :: ps' =>
        match q, ell with
        | PEllipsis, true =>
            if (List.length ps' <=? List.length vs)%nat
            then items ell ps' (skipn (List.length vs - List.length ps') vs)
            else None
        | _, _ =>
            match vs with
            | [] => None
            | w :: vs' =>
                match pmatch q w, items ell ps' vs' with
                | Some b, Some bs => Some (b ++ bs)
                | _, _ => None
                end
            end
        end
    end.

Lemma pmatch_tuple ps vs : pmatch (PTuple ps) (VTuple vs) = pitems false ps vs.
Proof. reflexivity. Qed.
Lemma pmatch_list ps vs : pmatch (PList ps) (VList vs) = pitems true ps vs.
Proof. reflexivity. Qed.

Definition ttuple (t : nat) (path : list Z) (suite : tgt) : Z -> list pat -> tgt :=
  fix tuple (i : Z) (ps : list pat) {struct ps} : tgt :=
    match ps with
    | [] => suite
    | q :: ps' => tr_pat t (path ++ [i]) q (tuple (i + 1) ps')
    end.

Definition tlist (t : nat) (path : list Z) (suite : tgt) : Z -> Z -> bool -> list pat -> tgt :=
  fix lst (size i : Z) (seen : bool) (ps : list pat) {struct ps} : tgt :=
    match ps with
    | [] => suite
    | q :: ps' =>
        if is_ellipsis q then lst size (i + 1) true ps'
        else tr_pat t (path ++ [if seen then i - size else i]) q (lst size (i + 1) seen ps')
    end.

Lemma tr_pat_tuple t path ps suite :
  tr_pat t path (PTuple ps) suite =
  TIf (TIs t path KTuple)
    (TIf (TLen t path false (Z.of_nat (List.length ps))) (ttuple t path suite 0 ps)).
Proof. reflexivity. Qed.

Lemma tr_pat_list t path ps suite :
  tr_pat t path (PList ps) suite =
  TIf (TIs t path KList)
    (TIf (TLen t path (existsb is_ellipsis ps)
            (if existsb is_ellipsis ps then Z.of_nat (List.length ps) - 1 else Z.of_nat (List.length ps)))
       (tlist t path suite (Z.of_nat (List.length ps)) 0 false ps)).
Proof. reflexivity. Qed.

Definition all_ok (ps : list pat) : Prop := fold_right (fun q P => pat_ok q /\ P) True ps.

(** ** Bindings *)

Lemma upds_other bs e x : ~ In x (map fst bs) -> upds bs e x = e x.
Proof.
  revert e. induction bs as [|[y v] bs IH]; simpl; intros e H; auto.
  unfold upds. simpl. fold (upds bs (upd y v e)). rewrite IH by tauto. unfold upd.
  destruct (String.eqb_spec x y); auto. subst. tauto.
Qed.

Lemma upds_same bs e e' : (forall x, ~ In x (map fst bs) -> e x = e' x) ->
  forall x, upds bs e x = upds bs e' x.
Proof.
  revert e e'. induction bs as [|[y v] bs IH]; simpl; intros e e' H x; [apply H; auto|].
  unfold upds. simpl. fold (upds bs (upd y v e)) (upds bs (upd y v e')). apply IH. intros z Hz.
  unfold upd. destruct (String.eqb_spec z y); auto. apply H. intros [E|E]; [congruence|contradiction].
Qed.

Lemma upds_ext bs e e' : (forall x, e x = e' x) -> forall x, upds bs e x = upds bs e' x.
Proof. intros H. apply upds_same. auto. Qed.

Lemma upds_app bs bs' e : upds (bs ++ bs') e = upds bs' (upds bs e).
Proof. unfold upds. now rewrite fold_left_app. Qed.

Lemma pitems_plain ell q ps vs : (ell = false \/ is_ellipsis q = false) ->
  pitems ell (q :: ps) vs =
  match vs with
  | [] => None
  | w :: vs' =>
      match pmatch q w, pitems ell ps vs' with
      | Some b, Some bs => Some (b ++ bs)
      | _, _ => None
      end
  end.
Proof.
  intros H. destruct q; try reflexivity. destruct ell; [destruct H; discriminate|reflexivity].
Qed.

Lemma pitems_ell ps vs : pitems true (PEllipsis :: ps) vs =
  if (List.length ps <=? List.length vs)%nat
  then pitems true ps (skipn (List.length vs - List.length ps) vs) else None.
Proof. reflexivity. Qed.

(** A pattern that matches binds exactly its variables. *)
Lemma pmatch_vars p : forall v bs, pat_ok p -> pmatch p v = Some bs ->
  forall x, In x (map fst bs) <-> In x (pvars p).
Proof.
  assert (HL : forall ell ps, Forall (fun p => forall v bs, pat_ok p -> pmatch p v = Some bs ->
      forall x, In x (map fst bs) <-> In x (pvars p)) ps ->
    forall vs bs, all_ok ps -> pitems ell ps vs = Some bs ->
    forall x, In x (map fst bs) <-> In x (flat_map pvars ps)).
  { intros ell ps HF. induction HF as [|q ps Hq HF IH]; intros vs bs Hok E x.
    - destruct vs; [|discriminate]. inversion E. reflexivity.
    - destruct Hok as [Hq' Hok].
      destruct (is_ellipsis q && ell) eqn:Eq.
      + apply andb_true_iff in Eq as [E1 ->]. destruct q; try discriminate.
        rewrite pitems_ell in E. destruct (Nat.leb_spec (List.length ps) (List.length vs)); [|discriminate].
        simpl. eapply IH; eauto.
      + rewrite pitems_plain in E by (apply andb_false_iff in Eq; tauto).
        destruct vs as [|w vs]; [discriminate|].
        destruct (pmatch q w) as [b|] eqn:Em; [|discriminate].
        destruct (pitems ell ps vs) as [bs'|] eqn:Ei; [|discriminate]. inversion E; subst.
        simpl. rewrite map_app, !in_app_iff, (Hq w b Hq' Em x), (IH vs bs' Hok Ei x). tauto. }
  induction p as [z|b|a b|s|ps IH|ps IH| |p q IHp IHq| |y|y p IH] using pat_ind'; intros v bs Hok E x.
  - destruct v; simpl in E; try discriminate. destruct (z0 =? z); inversion E. reflexivity.
  - destruct v; simpl in E; try discriminate. destruct (Bool.eqb _ _); inversion E. reflexivity.
  - destruct v; simpl in E; try discriminate. destruct (_ && _); inversion E. reflexivity.
  - destruct v; simpl in E; try discriminate. destruct (String.eqb _ _); inversion E. reflexivity.
  - destruct v; try discriminate. rewrite pmatch_tuple in E. now apply (HL false ps IH vs).
  - destruct v; try discriminate. rewrite pmatch_list in E. destruct Hok as [_ Hok].
    now apply (HL true ps IH vs).
  - destruct v; discriminate.
  - destruct Hok as (Hp & Hq & Hpq).
    assert (E' : match pmatch p v with Some bs => Some bs | None => pmatch q v end = Some bs)
      by (destruct v; exact E). clear E.
    simpl. rewrite in_app_iff. destruct (pmatch p v) eqn:Ep.
    + inversion E'; subst. rewrite (IHp v bs Hp Ep x), <- (Hpq x). tauto.
    + rewrite (IHq v bs Hq E' x), (Hpq x). tauto.
  - destruct v; inversion E; reflexivity.
  - destruct v; inversion E; reflexivity.
  - assert (E' : match pmatch p v with Some bs => Some ((y, v) :: bs) | None => None end = Some bs)
      by (destruct v; exact E). clear E.
    destruct (pmatch p v) eqn:Ep; [|discriminate]. inversion E'; subst. simpl.
    now rewrite (IH v l Hok Ep x).
Qed.

(** ** Paths *)

Lemma follow_app v path path' w : follow v path = Some w -> follow v (path ++ path') = follow w path'.
Proof.
  revert v. induction path as [|i path IH]; simpl; intros v H; [now inversion H|].
  destruct (index v i); [auto|discriminate].
Qed.

Lemma follow_item v path w i : follow v path = Some w -> follow v (path ++ [i]) = index w i.
Proof. intros H. rewrite (follow_app _ _ _ _ H). simpl. destruct (index w i); auto. Qed.

Lemma skipn_cons {A} (l : list A) i : (i < List.length l)%nat ->
  exists w, nth_error l i = Some w /\ skipn i l = w :: skipn (S i) l.
Proof.
  revert i. induction l as [|a l IH]; simpl; intros i H; [lia|].
  destruct i as [|i]; simpl; [eauto|]. apply IH. lia.
Qed.

(** ** Patterns that do not match leave everything but their variables alone *)

Definition quiet (k : nat) (V : list string) (T : nat -> val) (e0 : env) (p : tgt) : Prop :=
  forall s : tenv, snd s = T -> (forall x, ~ In x V -> fst s x = e0 x) ->
  exists s' : tenv, texec k p s = Some (Normal, s') /\ snd s' = T /\
             forall x, ~ In x V -> fst s' x = e0 x.

Lemma quiet_skip k V T e0 : quiet k V T e0 TSkip.
Proof. intros s H1 H2. exists s. auto. Qed.

Lemma quiet_if k V T e0 c p b : (forall s : tenv, snd s = T -> eval_test c s = Some b) ->
  (b = true -> quiet k V T e0 p) -> quiet k V T e0 (TIf c p).
Proof.
  intros Hc Hp s H1 H2. simpl. rewrite (Hc s H1). destruct b; [now apply Hp|]. exists s. auto.
Qed.

Lemma quiet_seq k V T e0 p q : quiet k V T e0 p -> quiet k V T e0 q -> quiet k V T e0 (TSeq p q).
Proof.
  intros Hp Hq s H1 H2. destruct (Hp s H1 H2) as (s1 & E & H3 & H4). simpl. rewrite E.
  now apply Hq.
Qed.

Lemma quiet_assign k V T e0 x t path v : follow (T t) path = Some v -> In x V ->
  quiet k V T e0 (TAssignPath x t path).
Proof.
  intros Hf Hx s H1 H2. simpl. rewrite H1, Hf. eexists. split; [reflexivity|]. split; [exact H1|].
  intros y Hy. simpl. unfold upd. destruct (String.eqb_spec y x); [now subst|auto].
Qed.

Lemma on_path_eval s t path v f : follow (snd s t) path = Some v -> on_path s t path f = f v.
Proof. intros H. unfold on_path. now rewrite H. Qed.

Lemma ell_split ps : existsb is_ellipsis ps = true ->
  exists pre post, ps = pre ++ PEllipsis :: post /\ existsb is_ellipsis pre = false.
Proof.
  induction ps as [|q ps IH]; simpl; intros H; [discriminate|].
  destruct (is_ellipsis q) eqn:E.
  - exists [], ps. destruct q; try discriminate. auto.
  - destruct (IH H) as (pre & post & -> & Hp). exists (q :: pre), post. split; auto.
    simpl. now rewrite E.
Qed.

Lemma no_ell_filter ps : existsb is_ellipsis ps = false <-> List.length (filter is_ellipsis ps) = 0%nat.
Proof.
  induction ps as [|q ps IH]; simpl; [tauto|]. destruct (is_ellipsis q); simpl; [|exact IH].
  split; intros; discriminate.
Qed.

(** Lengths that a list pattern can match. *)
Lemma pitems_length ell ps vs bs : (ell = false \/ existsb is_ellipsis ps = false) ->
  pitems ell ps vs = Some bs -> List.length vs = List.length ps.
Proof.
  revert vs bs. induction ps as [|q ps IH]; intros vs bs H E.
  - destruct vs; [reflexivity|discriminate].
  - simpl in H. rewrite pitems_plain in E by (destruct H as [H|H]; [auto|apply orb_false_iff in H; tauto]).
    destruct vs as [|w vs]; [discriminate|].
    destruct (pmatch q w); [|discriminate]. destruct (pitems ell ps vs) eqn:Ei; [|discriminate].
    simpl. f_equal. eapply IH; [|exact Ei]. destruct H as [H|H]; [auto|apply orb_false_iff in H; tauto].
Qed.

Lemma pitems_length_ge ps vs bs : (List.length (filter is_ellipsis ps) = 1)%nat ->
  pitems true ps vs = Some bs -> (List.length ps - 1 <= List.length vs)%nat.
Proof.
  revert vs bs. induction ps as [|q ps IH]; intros vs bs H E; [simpl; lia|].
  simpl in H. destruct (is_ellipsis q) eqn:Eq.
  - destruct q; try discriminate. rewrite pitems_ell in E.
    destruct (Nat.leb_spec (List.length ps) (List.length vs)); [simpl; lia|discriminate].
  - rewrite pitems_plain in E by auto. destruct vs as [|w vs]; [discriminate|].
    destruct (pmatch q w); [|discriminate]. destruct (pitems true ps vs) eqn:Ei; [|discriminate].
    specialize (IH vs l0 H Ei). simpl. destruct ps; simpl in *; [discriminate|lia].
Qed.

(** The position in the value that item [i] of a list pattern of [size] items looks at. *)
Definition pos (len size i : nat) (seen : bool) : nat := if seen then len - (size - i) else i.

(** What the length test guarantees when item [i] is reached. *)
Definition fits (len size i : nat) (seen : bool) (ps : list pat) : Prop :=
  (i + List.length ps = size)%nat /\
  if seen then existsb is_ellipsis ps = false /\ (List.length ps <= len)%nat
  else if existsb is_ellipsis ps
       then (List.length (filter is_ellipsis ps) = 1)%nat /\ (size <= len + 1)%nat
       else len = size.

Lemma fits_step len size i seen q ps : is_ellipsis q = false ->
  fits len size i seen (q :: ps) ->
  fits len size (S i) seen ps /\ (pos len size i seen < len)%nat /\
  pos len size (S i) seen = S (pos len size i seen).
Proof.
  unfold fits, pos. simpl. intros Hq [H1 H2]. rewrite Hq in H2. simpl in H2.
  destruct seen; [destruct H2 as [H2 H3]; split; [split; [lia|split; [auto|lia]]|lia]|].
  destruct (existsb is_ellipsis ps) eqn:E.
  - destruct H2 as [H2 H3]. split; [split; [lia|split; [auto|lia]]|].
    destruct ps; [discriminate|]. simpl in *. lia.
  - split; [split; lia|lia].
Qed.

Lemma fits_ell len size i seen ps :
  fits len size i seen (PEllipsis :: ps) ->
  seen = false /\ fits len size (S i) true ps /\
  (List.length ps <= len - i)%nat /\ (i <= len)%nat /\
  pos len size (S i) true = (i + ((len - i) - List.length ps))%nat.
Proof.
  unfold fits, pos. simpl. intros [H1 H2]. destruct seen; [destruct H2; discriminate|].
  destruct H2 as [H2 H3]. split; auto.
  assert (H4 : existsb is_ellipsis ps = false) by (apply no_ell_filter; lia).
  split; [split; [lia|split; [auto|lia]]|]. lia.
Qed.

Lemma index_list vs len size i seen :
  len = List.length vs -> (i < size)%nat -> (size - i <= len \/ seen = false)%nat ->
  (pos len size i seen < len)%nat ->
  index (VList vs) (if seen then Z.of_nat i - Z.of_nat size else Z.of_nat i) =
  nth_error vs (pos len size i seen).
Proof.
  intros -> H1 H2 H3. unfold pos in *. simpl. destruct seen.
  - replace (Z.of_nat i - Z.of_nat size <? 0) with true by (symmetry; apply Z.ltb_lt; lia).
    destruct H2; [|discriminate].
    replace (_ <? 0) with false by (symmetry; apply Z.ltb_ge; lia). f_equal. lia.
  - replace (Z.of_nat i <? 0) with false by (symmetry; apply Z.ltb_ge; lia).
    replace (Z.of_nat i <? 0) with false by (symmetry; apply Z.ltb_ge; lia). f_equal. lia.
Qed.

Lemma skipn_skipn' {A} a b (l : list A) : skipn a (skipn b l) = skipn (b + a) l.
Proof.
  revert l. induction b as [|b IH]; intros l; simpl; auto.
  destruct l; [destruct a; reflexivity|apply IH].
Qed.

Lemma list_test ps vs :
  (List.length (filter is_ellipsis ps) <= 1)%nat ->
  let ell := existsb is_ellipsis ps in
  let size := Z.of_nat (List.length ps) in
  let l := Z.of_nat (List.length vs) in
  let ok := if ell then (if ell then size - 1 else size) <=? l
            else l =? (if ell then size - 1 else size) in
  (ok = true -> fits (List.length vs) (List.length ps) 0 false ps) /\
  (ok = false -> pitems true ps vs = None).
Proof.
  intros H1. simpl. unfold fits. destruct (existsb is_ellipsis ps) eqn:E.
  - assert (H2 : List.length (filter is_ellipsis ps) = 1%nat).
    { destruct (List.length (filter is_ellipsis ps)) as [|[|n]] eqn:F; try lia.
      apply no_ell_filter in F. congruence. }
    split; intros H.
    + split; [lia|]. apply Z.leb_le in H. split; [auto|lia].
    + destruct (pitems true ps vs) eqn:Ei; auto.
      apply pitems_length_ge in Ei; auto. apply Z.leb_gt in H. lia.
  - split; intros H.
    + apply Z.eqb_eq in H. split; lia.
    + destruct (pitems true ps vs) eqn:Ei; auto.
      apply pitems_length in Ei; auto. apply Z.eqb_neq in H. lia.
Qed.

Section Quiet.
  Context (k : nat) (V : list string) (T : nat -> val) (e0 : env) (t : nat).

  Definition quiet_pat (p : pat) : Prop := forall path suite v,
    follow (T t) path = Some v -> incl (pvars p) V -> pat_ok p ->
    pmatch p v = None \/ quiet k V T e0 suite -> quiet k V T e0 (tr_pat t path p suite).

  Lemma quiet_tuple ps : Forall quiet_pat ps -> forall path suite vs i,
    follow (T t) path = Some (VTuple vs) -> (i + List.length ps = List.length vs)%nat ->
    incl (flat_map pvars ps) V -> all_ok ps ->
    pitems false ps (skipn i vs) = None \/ quiet k V T e0 suite ->
    quiet k V T e0 (ttuple t path suite (Z.of_nat i) ps).
  Proof.
    induction 1 as [|q ps Hq HF IH]; intros path suite vs i Hf Hl Hv Hok H.
    - simpl in *. rewrite skipn_all2 in H by lia. destruct H; [discriminate|auto].
    - simpl in Hl, Hv, Hok. destruct Hok as [Hok1 Hok2]. apply incl_app_inv in Hv as [Hv1 Hv2].
      destruct (skipn_cons vs i ltac:(lia)) as (w & Hw & Hs).
      simpl. apply (Hq (path ++ [Z.of_nat i]) _ w); auto.
      { rewrite (follow_item _ _ _ _ Hf). simpl.
        replace (Z.of_nat i <? 0) with false by (symmetry; apply Z.ltb_ge; lia).
        now rewrite Nat2Z.id. }
      destruct (pmatch q w) as [b|] eqn:Em; [right|now left].
      replace (Z.of_nat i + 1) with (Z.of_nat (S i)) by lia.
      apply (IH path suite vs (S i)); auto; [lia|].
      destruct H as [H|H]; [left|now right]. rewrite Hs, pitems_plain, Em in H by auto.
      destruct (pitems false ps (skipn (S i) vs)); [discriminate|reflexivity].
  Qed.

  Lemma quiet_list ps : Forall quiet_pat ps -> forall path suite vs size i seen,
    follow (T t) path = Some (VList vs) -> fits (List.length vs) size i seen ps ->
    incl (flat_map pvars ps) V -> all_ok ps ->
    pitems true ps (skipn (pos (List.length vs) size i seen) vs) = None \/ quiet k V T e0 suite ->
    quiet k V T e0 (tlist t path suite (Z.of_nat size) (Z.of_nat i) seen ps).
  Proof.
    induction 1 as [|q ps Hq HF IH]; intros path suite vs size i seen Hf Hl Hv Hok H.
    - simpl. destruct H as [H|H]; [|auto]. simpl in H.
      destruct (skipn _ vs) eqn:E; [discriminate|]. apply (f_equal (@List.length val)) in E.
      rewrite skipn_length in E. unfold fits, pos in *. simpl in *. destruct seen; lia.
    - simpl in Hv, Hok. destruct Hok as [Hok1 Hok2]. apply incl_app_inv in Hv as [Hv1 Hv2].
      replace (Z.of_nat i + 1) with (Z.of_nat (S i)) in * by lia. simpl.
      replace (Z.of_nat i + 1) with (Z.of_nat (S i)) by lia.
      destruct (is_ellipsis q) eqn:Eq.
      + destruct q; try discriminate.
        destruct (fits_ell _ _ _ _ _ Hl) as (-> & Hl' & Hle & Hi & Hp).
        apply (IH path suite vs size (S i) true); auto.
        destruct H as [H|H]; [left|now right].
        change (pos (List.length vs) size i false) with i in H.
        rewrite pitems_ell, skipn_length in H.
        replace (List.length ps <=? List.length vs - i)%nat with true in H
          by (symmetry; apply Nat.leb_le; lia).
        rewrite skipn_skipn' in H. now rewrite Hp.
      + destruct (fits_step _ _ _ _ _ _ Eq Hl) as (Hl' & Hp & Hs).
        destruct (skipn_cons vs _ Hp) as (w & Hw & Hsk).
        apply (Hq _ _ w); auto.
        { rewrite (follow_item _ _ _ _ Hf). rewrite (index_list vs (List.length vs) size i seen); auto.
          - destruct Hl as [Hl _]. simpl in Hl. lia.
          - destruct Hl as [Hl Hl2]. simpl in Hl. destruct seen; [left|now right]. simpl in Hl2. lia. }
        destruct (pmatch q w) as [b|] eqn:Em; [right|now left].
        apply (IH path suite vs size (S i) seen); auto.
        destruct H as [H|H]; [left|now right].
        rewrite Hsk, pitems_plain, Em in H by auto. rewrite Hs.
        destruct (pitems true ps _); [discriminate|reflexivity].
  Qed.

  Lemma tr_pat_quiet p : quiet_pat p.
  Proof.
    induction p as [z|b|a b|s|ps IH|ps IH| |p q IHp IHq| |y|y p IH] using pat_ind';
      intros path suite v Hf Hv Hok H.
    - apply quiet_if with (b := has_tag v KInt).
      { intros s Hs. simpl. rewrite (on_path_eval _ _ _ v); [reflexivity|now rewrite Hs]. }
      intros Ht. destruct v; try discriminate.
      apply quiet_if with (b := z0 =? z).
      { intros s Hs. simpl. rewrite (on_path_eval _ _ _ (VInt z0)); [reflexivity|now rewrite Hs]. }
      intros E. destruct H as [H|H]; auto. simpl in H. rewrite E in H. discriminate.
    - apply quiet_if with (b := has_tag v KBool).
      { intros s Hs. simpl. rewrite (on_path_eval _ _ _ v); [reflexivity|now rewrite Hs]. }
      intros Ht. destruct v; try discriminate.
      apply quiet_if with (b := Bool.eqb b0 b).
      { intros s Hs. simpl. rewrite (on_path_eval _ _ _ (VBool b0)); [reflexivity|now rewrite Hs]. }
      intros E. destruct H as [H|H]; auto. simpl in H. rewrite E in H. discriminate.
    - apply quiet_if with (b := has_tag v KInt).
      { intros s Hs. simpl. rewrite (on_path_eval _ _ _ v); [reflexivity|now rewrite Hs]. }
      intros Ht. destruct v; try discriminate.
      apply quiet_if with (b := a <=? z).
      { intros s Hs. simpl. rewrite (on_path_eval _ _ _ (VInt z)); [reflexivity|now rewrite Hs]. }
      intros E1. apply quiet_if with (b := z <=? b).
      { intros s Hs. simpl. rewrite (on_path_eval _ _ _ (VInt z)); [reflexivity|now rewrite Hs]. }
      intros E2. destruct H as [H|H]; auto. simpl in H. rewrite E1, E2 in H. discriminate.
    - apply quiet_if with (b := has_tag v KStr).
      { intros s' Hs. simpl. rewrite (on_path_eval _ _ _ v); [reflexivity|now rewrite Hs]. }
      intros Ht. destruct v; try discriminate.
      apply quiet_if with (b := String.eqb s0 s).
      { intros s' Hs. simpl. rewrite (on_path_eval _ _ _ (VStr s0)); [reflexivity|now rewrite Hs]. }
      intros E. destruct H as [H|H]; auto. simpl in H. rewrite E in H. discriminate.
    - rewrite tr_pat_tuple. apply quiet_if with (b := has_tag v KTuple).
      { intros s Hs. simpl. rewrite (on_path_eval _ _ _ v); [reflexivity|now rewrite Hs]. }
      intros Ht. destruct v as [| | |vs|]; try discriminate.
      apply quiet_if with (b := Z.of_nat (List.length vs) =? Z.of_nat (List.length ps)).
      { intros s Hs. simpl. rewrite (on_path_eval _ _ _ (VTuple vs)); [reflexivity|now rewrite Hs]. }
      intros E. apply Z.eqb_eq in E. rewrite pmatch_tuple in H.
      apply (quiet_tuple ps IH path suite vs 0); auto. lia.
    - rewrite tr_pat_list. apply quiet_if with (b := has_tag v KList).
      { intros s Hs. simpl. rewrite (on_path_eval _ _ _ v); [reflexivity|now rewrite Hs]. }
      intros Ht. destruct v as [| | | |vs]; try discriminate. destruct Hok as [Ho1 Ho2].
      destruct (list_test ps vs Ho1) as [L1 L2].
      eapply quiet_if.
      { intros s Hs. simpl. rewrite (on_path_eval _ _ _ (VList vs)); [reflexivity|now rewrite Hs]. }
      intros E. rewrite pmatch_list in H.
      apply (quiet_list ps IH path suite vs (List.length ps) 0 false); auto.
    - apply quiet_skip.
    - destruct Hok as (Hp & Hq & _). simpl in Hv. apply incl_app_inv in Hv as [Hv1 Hv2].
      assert (H' : (pmatch p v = None /\ pmatch q v = None) \/ quiet k V T e0 suite).
      { destruct H as [H|H]; auto. left.
        assert (E : match pmatch p v with Some bs => Some bs | None => pmatch q v end = None)
          by (destruct v; exact H).
        destruct (pmatch p v); [discriminate|auto]. }
      simpl. apply quiet_seq; [eapply IHp|eapply IHq]; eauto; tauto.
    - simpl. destruct H as [H|H]; auto. destruct v; discriminate.
    - simpl. destruct H as [H|H]; [destruct v; discriminate|]. apply quiet_seq; auto.
      eapply quiet_assign; eauto. apply Hv. now left.
    - simpl. apply quiet_seq.
      + eapply quiet_assign; eauto. apply Hv. now left.
      + apply (IH path suite v); auto.
        * intros z Hz. apply Hv. now right.
        * destruct H as [H|H]; auto. left.
          assert (E : match pmatch p v with Some bs => Some ((y, v) :: bs) | None => None end = None)
            by (destruct v; exact H).
          destruct (pmatch p v); [discriminate|auto].
  Qed.
End Quiet.

(** ** Patterns that match run the suite with their bindings *)

Definition active (r : result tenv) : Prop := forall s, r <> Some (Normal, s).

Section Run.
  Context (k : nat) (T : nat -> val) (t : nat).

  (** [p] reaches [suite] in a state with the bindings [bs]; that is all unless other
      alternatives are tried afterwards. *)
  Definition reaches (single : bool) (prog suite : tgt) (bs : list (string * val)) (s : tenv) : Prop :=
    exists s1 : tenv, snd s1 = T /\ (forall x, fst s1 x = upds bs (fst s) x) /\
      (single = true \/ active (texec k suite s1) -> texec k prog s = texec k suite s1).

  Definition run_pat (p : pat) : Prop := forall path suite v bs s,
    follow (T t) path = Some v -> pat_ok p -> pmatch p v = Some bs -> snd s = T ->
    reaches (no_or p) (tr_pat t path p suite) suite bs s.

  Lemma reaches_nil b suite s : snd s = T -> reaches b suite suite [] s.
  Proof. intros H. exists s. auto. Qed.

  Lemma reaches_if b c prog suite bs s : eval_test c s = Some true ->
    reaches b prog suite bs s -> reaches b (TIf c prog) suite bs s.
  Proof.
    intros Hc (s1 & H1 & H2 & H3). exists s1. do 2 (split; auto). simpl. rewrite Hc. exact H3.
  Qed.

  Lemma reaches_trans b b' prog mid suite bs bs' s :
    reaches b prog mid bs s -> (forall s', snd s' = T -> reaches b' mid suite bs' s') ->
    reaches (b && b') prog suite (bs ++ bs') s.
  Proof.
    intros (s1 & H1 & H2 & H3) Hm. destruct (Hm s1 H1) as (s2 & H4 & H5 & H6).
    exists s2. split; auto. split.
    - intros x. rewrite H5, upds_app. now apply upds_ext.
    - intros H. assert (E : texec k mid s1 = texec k suite s2).
      { apply H6. destruct H as [H|H]; auto. apply andb_true_iff in H. tauto. }
      rewrite <- E. apply H3. rewrite E. destruct H as [H|H]; auto.
      apply andb_true_iff in H. tauto.
  Qed.

  Lemma run_tuple ps : Forall run_pat ps -> forall path suite vs i bs s,
    follow (T t) path = Some (VTuple vs) -> (i + List.length ps = List.length vs)%nat ->
    all_ok ps -> pitems false ps (skipn i vs) = Some bs -> snd s = T ->
    reaches (forallb no_or ps) (ttuple t path suite (Z.of_nat i) ps) suite bs s.
  Proof.
    induction 1 as [|q ps Hq HF IH]; intros path suite vs i bs s Hf Hl Hok E Hs.
    - simpl in *. rewrite skipn_all2 in E by lia. inversion E. now apply reaches_nil.
    - simpl in Hl, Hok. destruct Hok as [Hok1 Hok2].
      destruct (skipn_cons vs i ltac:(lia)) as (w & Hw & Hsk).
      rewrite Hsk, pitems_plain in E by auto.
      destruct (pmatch q w) as [b|] eqn:Em; [|discriminate].
      destruct (pitems false ps (skipn (S i) vs)) as [bs'|] eqn:Ei; [|discriminate].
      inversion E; subst. simpl forallb.
      change (ttuple t path suite (Z.of_nat i) (q :: ps)) with
        (tr_pat t (path ++ [Z.of_nat i]) q (ttuple t path suite (Z.of_nat i + 1) ps)).
      replace (Z.of_nat i + 1) with (Z.of_nat (S i)) by lia.
      apply reaches_trans with (mid := ttuple t path suite (Z.of_nat (S i)) ps).
      + apply (Hq _ _ w); auto. rewrite (follow_item _ _ _ _ Hf). simpl.
        replace (Z.of_nat i <? 0) with false by (symmetry; apply Z.ltb_ge; lia).
        now rewrite Nat2Z.id.
      + intros s' Hs'. apply (IH path suite vs (S i)); auto. lia.
  Qed.

  Lemma run_list ps : Forall run_pat ps -> forall path suite vs size i seen bs s,
    follow (T t) path = Some (VList vs) -> fits (List.length vs) size i seen ps ->
    all_ok ps -> pitems true ps (skipn (pos (List.length vs) size i seen) vs) = Some bs -> snd s = T ->
    reaches (forallb no_or ps) (tlist t path suite (Z.of_nat size) (Z.of_nat i) seen ps) suite bs s.
  Proof.
    induction 1 as [|q ps Hq HF IH]; intros path suite vs size i seen bs s Hf Hl Hok E Hs.
    - simpl in *. destruct (skipn _ vs); inversion E. now apply reaches_nil.
    - simpl in Hok. destruct Hok as [Hok1 Hok2].
      change (tlist t path suite (Z.of_nat size) (Z.of_nat i) seen (q :: ps)) with
        (if is_ellipsis q then tlist t path suite (Z.of_nat size) (Z.of_nat i + 1) true ps
         else tr_pat t (path ++ [if seen then Z.of_nat i - Z.of_nat size else Z.of_nat i]) q
                (tlist t path suite (Z.of_nat size) (Z.of_nat i + 1) seen ps)).
      replace (Z.of_nat i + 1) with (Z.of_nat (S i)) by lia.
      destruct (is_ellipsis q) eqn:Eq.
      + destruct q; try discriminate.
        destruct (fits_ell _ _ _ _ _ Hl) as (-> & Hl' & Hle & Hi & Hp).
        apply (IH path suite vs size (S i) true); auto.
        change (pos (List.length vs) size i false) with i in E.
        rewrite pitems_ell, skipn_length in E.
        replace (List.length ps <=? List.length vs - i)%nat with true in E
          by (symmetry; apply Nat.leb_le; lia).
        rewrite skipn_skipn' in E. now rewrite Hp.
      + destruct (fits_step _ _ _ _ _ _ Eq Hl) as (Hl' & Hp & Hps).
        destruct (skipn_cons vs _ Hp) as (w & Hw & Hsk).
        rewrite Hsk, pitems_plain in E by auto.
        destruct (pmatch q w) as [b|] eqn:Em; [|discriminate].
        destruct (pitems true ps _) as [bs'|] eqn:Ei; [|discriminate].
        inversion E; subst. simpl forallb.
        apply reaches_trans with (mid := tlist t path suite (Z.of_nat size) (Z.of_nat (S i)) seen ps).
        * apply (Hq _ _ w); auto.
          rewrite (follow_item _ _ _ _ Hf). rewrite (index_list vs (List.length vs) size i seen); auto.
          -- destruct Hl as [Hl _]. simpl in Hl. lia.
          -- destruct Hl as [Hl Hl2]. simpl in Hl. destruct seen; [left|now right]. simpl in Hl2. lia.
        * intros s' Hs'. apply (IH path suite vs size (S i) seen); auto. now rewrite Hps.
  Qed.

  Lemma tr_pat_run p : run_pat p.
  Proof.
    induction p as [z|b|a b|s|ps IH|ps IH| |p q IHp IHq| |y|y p IH] using pat_ind';
      intros path suite v bs s1 Hf Hok E Hs;
      assert (Hf' : follow (snd s1 t) path = Some v) by (rewrite Hs; exact Hf).
    - destruct v; simpl in E; try discriminate. destruct (z0 =? z) eqn:Ez; inversion E; subst.
      apply reaches_if; [simpl; now rewrite (on_path_eval _ _ _ _ _ Hf')|].
      apply reaches_if; [simpl; rewrite (on_path_eval _ _ _ _ _ Hf'); simpl; now rewrite Ez|].
      now apply reaches_nil.
    - destruct v; simpl in E; try discriminate. destruct (Bool.eqb b0 b) eqn:Ez; inversion E; subst.
      apply reaches_if; [simpl; now rewrite (on_path_eval _ _ _ _ _ Hf')|].
      apply reaches_if; [simpl; rewrite (on_path_eval _ _ _ _ _ Hf'); simpl; now rewrite Ez|].
      now apply reaches_nil.
    - destruct v; simpl in E; try discriminate. destruct (_ && _) eqn:Ez; inversion E; subst.
      apply andb_true_iff in Ez as [E1 E2].
      apply reaches_if; [simpl; now rewrite (on_path_eval _ _ _ _ _ Hf')|].
      apply reaches_if; [simpl; rewrite (on_path_eval _ _ _ _ _ Hf'); simpl; now rewrite E1|].
      apply reaches_if; [simpl; rewrite (on_path_eval _ _ _ _ _ Hf'); simpl; now rewrite E2|].
      now apply reaches_nil.
    - destruct v; simpl in E; try discriminate. destruct (String.eqb s0 s) eqn:Ez; inversion E; subst.
      apply reaches_if; [simpl; now rewrite (on_path_eval _ _ _ _ _ Hf')|].
      apply reaches_if; [simpl; rewrite (on_path_eval _ _ _ _ _ Hf'); simpl; now rewrite Ez|].
      now apply reaches_nil.
    - destruct v as [| | |vs|]; try discriminate. rewrite pmatch_tuple in E. rewrite tr_pat_tuple.
      assert (Hl := pitems_length false ps vs bs ltac:(auto) E).
      apply reaches_if; [simpl; now rewrite (on_path_eval _ _ _ _ _ Hf')|].
      apply reaches_if.
      { simpl. rewrite (on_path_eval _ _ _ _ _ Hf'). simpl. f_equal. apply Z.eqb_eq. lia. }
      apply (run_tuple ps IH path suite vs 0); auto.
    - destruct v as [| | | |vs]; try discriminate. rewrite pmatch_list in E. rewrite tr_pat_list.
      destruct Hok as [Ho1 Ho2]. destruct (list_test ps vs Ho1) as [L1 L2].
      apply reaches_if; [simpl; now rewrite (on_path_eval _ _ _ _ _ Hf')|].
      match type of L1 with ?b = true -> _ => destruct b eqn:Eb end.
      2:{ rewrite L2 in E by auto. discriminate. }
      apply reaches_if.
      { simpl. rewrite (on_path_eval _ _ _ _ _ Hf'). simpl. f_equal. exact Eb. }
      apply (run_list ps IH path suite vs (List.length ps) 0 false); auto.
    - destruct v; discriminate.
    - destruct Hok as (Hp & Hq & Hpq).
      assert (E' : match pmatch p v with Some bs => Some bs | None => pmatch q v end = Some bs)
        by (destruct v; exact E). clear E.
      destruct (pmatch p v) eqn:Ep.
      + inversion E'; subst. destruct (IHp path suite v bs s1 Hf Hp Ep Hs) as (s2 & H1 & H2 & H3).
        exists s2. do 2 (split; auto). intros [H|H]; [discriminate|]. simpl. rewrite H3 by auto.
        destruct (texec k suite s2) as [[[] ]|] eqn:Es; auto. now destruct (H t0).
      + destruct (tr_pat_quiet k (pvars p) T (fst s1) t p path suite v Hf (incl_refl _) Hp
                    (or_introl Ep) s1 Hs ltac:(auto)) as (s2 & H1 & H2 & H3).
        destruct (IHq path suite v bs s2 Hf Hq E' H2) as (s3 & H4 & H5 & H6).
        exists s3. split; auto. split.
        * intros x. rewrite H5. apply upds_same. intros z Hz. apply H3.
          rewrite (pmatch_vars q v bs Hq E' z), <- (Hpq z) in Hz. exact Hz.
        * intros [H|H]; [discriminate|]. simpl. rewrite H1. apply H6. auto.
    - assert (bs = []) as -> by (destruct v; inversion E; auto). simpl. now apply reaches_nil.
    - assert (bs = [(y, v)]) as -> by (destruct v; inversion E; auto).
      exists (tupd y v s1). split; [auto|]. split; [reflexivity|]. intros _. simpl. rewrite Hs, Hf. reflexivity.
    - assert (E' : match pmatch p v with Some bs => Some ((y, v) :: bs) | None => None end = Some bs)
        by (destruct v; exact E). clear E.
      destruct (pmatch p v) as [bs'|] eqn:Ep; [|discriminate]. inversion E'; subst bs.
      change ((y, v) :: bs') with ([(y, v)] ++ bs'). change (no_or (PBind y p)) with (true && no_or p).
      apply reaches_trans with (mid := tr_pat t path p suite).
      + exists (tupd y v s1). split; [auto|]. split; [reflexivity|]. intros _. simpl. rewrite Hs, Hf. reflexivity.
      + intros s' Hs'. now apply (IH path suite v).
  Qed.
End Run.
