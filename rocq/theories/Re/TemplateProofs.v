(** Proofs about replacement templates. *)
From Coq Require Import List ZArith Bool Lia.
From Verif.Common Require Import Result.
From Verif.Re Require Import TemplateSpec TemplateModel.
Import ListNotations.
Local Open Scope Z_scope.
Local Open Scope res_scope.

(** [_split] without accumulators *)
Fixpoint sp (fuel : nat) (t : list Z) : res (list Z * list (list Z)) :=
  match fuel with
  | O => NoFuel
  | S fuel =>
      let (piece, t) := cut_backslash t in
      match t with
      | [] => Ok (piece, [])
      | _ =>
          match (if octal_match t then None else group_match t) with
          | Some index => '(h, l) <- sp fuel (skipn index t) ;; Ok (piece, firstn index t :: h :: l)
          | None => '(h, l) <- sp fuel (skipn 2 t) ;; Ok (piece ++ firstn 2 t ++ h, l)
          end
      end
  end.

Lemma split_sp fuel : forall done cur t,
  split_loop fuel done cur t = ('(h, l) <- sp fuel t ;; Ok (done ++ (cur ++ h) :: l)).
Proof.
  induction fuel as [|fuel IH]; intros done cur t; [reflexivity|]. cbn [split_loop sp].
  destruct (cut_backslash t) as [piece u]. destruct u as [|x u]; [reflexivity|].
  destruct (if octal_match (x :: u) then None else group_match (x :: u)) as [index|].
  - rewrite IH. destruct (sp fuel (skipn index (x :: u))) as [[h l]| | |]; cbn [bind]; [|reflexivity..].
    f_equal. rewrite <- app_assoc. reflexivity.
  - rewrite IH. destruct (sp fuel (skipn 2 (x :: u))) as [[h l]| | |]; cbn [bind]; [|reflexivity..].
    f_equal. f_equal. f_equal. rewrite <- !app_assoc. reflexivity.
Qed.

Lemma sp_char fuel c r : c <> 92 ->
  sp (S fuel) (c :: r) = ('(h, l) <- sp (S fuel) r ;; Ok (c :: h, l)).
Proof.
  intros N. cbn [sp cut_backslash]. destruct (Z.eqb_spec c 92) as [E|_]; [lia|].
  destruct (cut_backslash r) as [piece u]. destruct u as [|x u]; [reflexivity|].
  destruct (if octal_match (x :: u) then None else group_match (x :: u)) as [index|].
  - destruct (sp fuel (skipn index (x :: u))) as [[h l]| | |]; reflexivity.
  - destruct (sp fuel (skipn 2 (x :: u))) as [[h l]| | |]; reflexivity.
Qed.

Lemma sp_pair fuel c r : (if octal_match (92 :: c :: r) then None else group_match (92 :: c :: r)) = None ->
  sp (S fuel) (92 :: c :: r) = ('(h, l) <- sp fuel r ;; Ok (92 :: c :: h, l)).
Proof. intros E. cbn [sp cut_backslash]. change (92 =? 92) with true. cbv iota. rewrite E. reflexivity. Qed.

Lemma sp_group fuel r index : (if octal_match (92 :: r) then None else group_match (92 :: r)) = Some index ->
  sp (S fuel) (92 :: r) = ('(h, l) <- sp fuel (skipn index (92 :: r)) ;; Ok ([], firstn index (92 :: r) :: h :: l)).
Proof. intros E. cbn [sp cut_backslash]. change (92 =? 92) with true. cbv iota. rewrite E. reflexivity. Qed.

Lemma sp_chars ds : forallb octal ds = true -> forall fuel r,
  sp (S fuel) (ds ++ r) = ('(h, l) <- sp (S fuel) r ;; Ok (ds ++ h, l)).
Proof.
  induction ds as [|d ds IH]; intros D fuel r.
  - cbn [app]. destruct (sp (S fuel) r) as [[h l]| | |]; reflexivity.
  - cbn [forallb] in D. apply andb_prop in D as [D1 D2]. cbn [app]. rewrite sp_char.
    + rewrite IH by assumption. destruct (sp (S fuel) r) as [[h l]| | |]; reflexivity.
    + unfold octal in D1. apply andb_prop in D1 as [A B]. apply Z.leb_le in A, B. lia.
Qed.

(** The first piece begins as the text does. *)
Lemma sp_starts fuel r h l : sp fuel r = Ok (h, l) -> starts octal r = false -> starts octal h = false.
Proof.
  destruct fuel as [|fuel]; [discriminate|]. cbn [sp]. destruct r as [|c r].
  - cbn. intros X; inversion X. reflexivity.
  - cbn [cut_backslash]. destruct (Z.eqb_spec c 92) as [->|N].
    + intros X _. destruct (if octal_match (92 :: r) then None else group_match (92 :: r)) as [index|].
      * destruct (sp fuel (skipn index (92 :: r))) as [[h' l']| | |]; cbn [bind] in X; inversion X. reflexivity.
      * destruct (sp fuel (skipn 2 (92 :: r))) as [[h' l']| | |]; cbn [bind] in X; inversion X. reflexivity.
    + destruct (cut_backslash r) as [piece u]. intros X F. destruct u as [|x u]; [inversion X; exact F|].
      destruct (if octal_match (x :: u) then None else group_match (x :: u)) as [index|].
      * destruct (sp fuel (skipn index (x :: u))) as [[h' l']| | |]; cbn [bind] in X; inversion X. exact F.
      * destruct (sp fuel (skipn 2 (x :: u))) as [[h' l']| | |]; cbn [bind] in X; inversion X. exact F.
Qed.

Lemma unescape_more n : forall m s, (length s < n)%nat -> (length s < m)%nat -> unescape n s = unescape m s.
Proof.
  induction n as [|n IH]; intros m s A B; [lia|]. destruct m as [|m]; [lia|].
  destruct s as [|x t]; [reflexivity|]. cbn [length] in A, B. cbn [unescape].
  rewrite (IH m t) by lia. destruct (x =? 92); [|reflexivity].
  destruct t as [|c t']; [reflexivity|]. cbn [length] in A, B. rewrite (IH m t') by lia.
  assert (L : (length (skipn (length (octal_run 3 t')) t') <= length t')%nat) by (rewrite skipn_length; lia).
  rewrite (IH m (skipn (length (octal_run 3 t')) t')) by lia. reflexivity.
Qed.

Definition unesc (s : list Z) : res (list Z) := unescape (S (length s)) s.

Lemma unesc_char c s : c <> 92 -> unesc (c :: s) = (r <- unesc s ;; Ok (c :: r)).
Proof.
  intros N. unfold unesc. cbn [length]. cbn [unescape]. destruct (Z.eqb_spec c 92) as [E|_]; [lia|]. reflexivity.
Qed.

Lemma unesc_escape c v s : In (c, v) escapes -> unesc (92 :: c :: s) = (r <- unesc s ;; Ok (v :: r)).
Proof.
  intros I. assert (M : unescape (S (S (length s))) s = unesc s) by (apply unescape_more; lia).
  unfold unesc at 1. cbn [length]. cbn in I.
  do 8 (destruct I as [I|I]; [inversion I; subst; clear I; rewrite <- M; reflexivity|]). destruct I.
Qed.

Lemma octal_run_exact ds : forallb octal ds = true -> forall n h, (length ds <= n)%nat -> starts octal h = false ->
  octal_run n (ds ++ h) = ds.
Proof.
  induction ds as [|d ds IH]; intros D n h L F; cbn [app].
  - destruct n as [|n]; [reflexivity|]. destruct h as [|c h]; [reflexivity|]. cbn in F |- *. rewrite F. reflexivity.
  - cbn [forallb] in D. apply andb_prop in D as [D1 D2]. destruct n as [|n]; [cbn in L; lia|].
    cbn [octal_run]. rewrite D1. rewrite IH; [reflexivity|exact D2|cbn in L; lia|exact F].
Qed.

Lemma octal_range c : octal c = true -> 48 <= c <= 55.
Proof. unfold octal. intros A. apply andb_prop in A as [A B]. apply Z.leb_le in A, B. lia. Qed.

Lemma digit_range c : digit c = true -> 48 <= c <= 57.
Proof. unfold digit. intros A. apply andb_prop in A as [A B]. apply Z.leb_le in A, B. lia. Qed.

Lemma unesc_octal c ds h : octal c = true -> forallb octal ds = true -> (length ds <= 3)%nat -> starts octal h = false ->
  unesc (92 :: c :: ds ++ h) = (r <- unesc h ;; Ok (value 8 (c :: ds) mod 256 :: r)).
Proof.
  intros C D L F.
  assert (M : unescape (S (S (length (ds ++ h)))) h = unesc h).
  { apply unescape_more; [rewrite app_length; lia|lia]. }
  unfold unesc at 1. cbn [length]. set (n := S (S (length (ds ++ h)))) in *. cbn [unescape]. change (92 =? 92) with true. cbv iota.
  pose proof (octal_range c C) as R.
  repeat match goal with |- context [c =? ?k] => destruct (Z.eqb_spec c k); [lia|] end.
  rewrite C. rewrite octal_run_exact by assumption. rewrite skipn_app, skipn_all, Nat.sub_diag. cbn [app skipn].
  rewrite M. reflexivity.
Qed.

Lemma unesc_other c s : letter c = false -> digit c = false -> c <> 92 -> c <> 34 -> c <> 39 ->
  unesc (92 :: c :: s) = (r <- unesc s ;; Ok (92 :: c :: r)).
Proof.
  intros A B N1 N2 N3.
  assert (E : unesc (92 :: c :: s) = (r <- unesc (c :: s) ;; Ok (92 :: r))).
  { unfold unesc. cbn [length]. cbn [unescape]. change (92 =? 92) with true. cbv iota.
    assert (O8 : octal c = false).
    { destruct (octal c) eqn:E; [|reflexivity]. apply octal_range in E. unfold digit in B.
      apply andb_false_iff in B as [B|B]; apply Z.leb_gt in B; lia. }
    rewrite O8, A.
    assert (forall k, letter k = true -> c <> k) as LK by (intros k K ->; congruence).
    repeat match goal with |- context [c =? ?k] =>
      destruct (Z.eqb_spec c k); [first [lia|exfalso; apply (LK k); [reflexivity|assumption]]|] end.
    reflexivity. }
  rewrite E, unesc_char by assumption. destruct (unesc s); reflexivity.
Qed.

Section Groups.
Context (group : ref -> res (option (list Z))).

Definition done_with (s : list Z) (fuel : nat) (want : res (list Z)) : Prop :=
  exists h l, sp fuel s = Ok (h, l) /\
    (ps <- expand_pieces group false (h :: l) ;; Ok (concat ps)) = want.

Lemma expand_first h l lit' h' : unesc h' = (x <- unesc h ;; Ok (lit' ++ x)) ->
  (ps <- expand_pieces group false (h' :: l) ;; Ok (concat ps)) =
  (x <- (ps <- expand_pieces group false (h :: l) ;; Ok (concat ps)) ;; Ok (lit' ++ x)).
Proof.
  intros B. cbn [expand_pieces negb].
  change (expand_piece group false h) with (unesc h). change (expand_piece group false h') with (unesc h').
  rewrite B. destruct (unesc h) as [lit| | |]; cbn [bind]; [|reflexivity..].
  destruct (expand_pieces group true l) as [ps| | |]; cbn [bind concat]; [|reflexivity..]. now rewrite app_assoc.
Qed.

Lemma run_lits s fuel s' fuel' want lit' g :
  done_with s fuel want ->
  (forall h l, sp fuel s = Ok (h, l) -> sp fuel' s' = Ok (g h, l)) ->
  (forall h l, sp fuel s = Ok (h, l) -> unesc (g h) = (x <- unesc h ;; Ok (lit' ++ x))) ->
  done_with s' fuel' (x <- want ;; Ok (lit' ++ x)).
Proof.
  intros (h & l & S1 & E) A B. exists (g h), l. split; [now apply A|].
  rewrite <- E. apply expand_first. now apply (B h l).
Qed.

Lemma run_ref s fuel s' fuel' want piece r :
  done_with s fuel want ->
  (forall h l, sp fuel s = Ok (h, l) -> sp fuel' s' = Ok ([], piece :: h :: l)) ->
  expand_piece group true piece = (g <- group r ;; Ok (match g with Some x => x | None => [] end)) ->
  done_with s' fuel' (g <- group r ;; l <- want ;; Ok (match g with Some x => x | None => [] end ++ l)).
Proof.
  intros (h & l & S1 & E) A B. exists [], (piece :: h :: l). split; [now apply A|].
  rewrite <- E. 
  change (expand_pieces group false ([] :: piece :: h :: l)) with
    (x0 <- expand_piece group false [] ;; l0 <- (x1 <- expand_piece group true piece ;; l1 <- expand_pieces group false (h :: l) ;; Ok (x1 :: l1)) ;; Ok (x0 :: l0)).
  rewrite B. change (expand_piece group false []) with (@Ok (list Z) []). cbn [bind].
  destruct (group r) as [g| | |]; cbn [bind]; [|reflexivity..].
  destruct (expand_pieces group false (h :: l)) as [ps| | |]; cbn [bind]; reflexivity.
Qed.

Lemma not_group c r : digit c = false -> c <> 103 -> (if octal_match (92 :: c :: r) then None else group_match (92 :: c :: r)) = None.
Proof.
  intros A N. destruct (octal_match (92 :: c :: r)); [reflexivity|]. unfold group_match.
  assert (E : (49 <=? c) && (c <=? 57) = false).
  { apply andb_false_iff. rewrite !Z.leb_gt. unfold digit in A.
    apply andb_false_iff in A as [A|A]; apply Z.leb_gt in A; lia. }
  rewrite E. destruct (Z.eqb_spec c 103); [lia|reflexivity].
Qed.

Lemma word_run_exact name r : forallb word name = true -> word_run (name ++ 62 :: r) = length name.
Proof.
  induction name as [|c name IH]; intros W; [reflexivity|]. cbn [forallb] in W. apply andb_prop in W as [W1 W2].
  cbn [app word_run length]. rewrite W1, IH by assumption. reflexivity.
Qed.

Lemma named_match name r : name <> [] -> forallb word name = true ->
  (if octal_match (92 :: 103 :: 60 :: name ++ 62 :: r) then None else group_match (92 :: 103 :: 60 :: name ++ 62 :: r)) =
  Some (length name + 4)%nat.
Proof.
  intros N W.
  assert (E : octal_match (92 :: 103 :: 60 :: name ++ 62 :: r) = false).
  { destruct name as [|c name]; [congruence|]. reflexivity. }
  rewrite E. unfold group_match. change ((49 <=? 103) && (103 <=? 57)) with false. change (103 =? 103) with true. cbv iota.
  rewrite word_run_exact by assumption. rewrite skipn_app, skipn_all, Nat.sub_diag. cbn [app skipn starts].
  destruct name as [|c name]; [congruence|]. reflexivity.
Qed.

Lemma digits_words ds : forallb digit ds = true -> forallb word ds = true.
Proof.
  rewrite !forallb_forall. intros A x I. unfold word. rewrite (A x I). destruct (letter x); reflexivity.
Qed.

Lemma firstn_named name r : firstn (length name + 4) (92 :: 103 :: 60 :: name ++ 62 :: r) = 92 :: 103 :: 60 :: name ++ [62].
Proof.
  replace (length name + 4)%nat with (S (S (S (length (name ++ [62]))))) by (rewrite app_length; cbn; lia).
  cbn [firstn]. f_equal. f_equal. f_equal. replace (name ++ 62 :: r) with ((name ++ [62]) ++ r) by (rewrite <- app_assoc; reflexivity).
  rewrite firstn_app, firstn_all, Nat.sub_diag. cbn [firstn]. apply app_nil_r.
Qed.

Lemma skipn_named name r : skipn (length name + 4) (92 :: 103 :: 60 :: name ++ 62 :: r) = r.
Proof.
  replace (length name + 4)%nat with (S (S (S (length (name ++ [62]))))) by (rewrite app_length; cbn; lia).
  cbn [skipn]. replace (name ++ 62 :: r) with ((name ++ [62]) ++ r) by (rewrite <- app_assoc; reflexivity).
  rewrite skipn_app, skipn_all, Nat.sub_diag. reflexivity.
Qed.

Lemma piece_named name : name <> [] -> expand_piece group true (92 :: 103 :: 60 :: name ++ [62]) =
  (g <- group (if forallb digit name then Num (value 10 name) else Name name) ;; Ok (match g with Some x => x | None => [] end)).
Proof.
  intros N. unfold expand_piece. cbn [negb].
  assert (E : Nat.leb (length (92 :: 103 :: 60 :: name ++ [62])) 3 = false).
  { apply Nat.leb_gt. cbn [length]. rewrite app_length. cbn. lia. }
  rewrite E. cbn [skipn]. rewrite removelast_last. destruct (forallb digit name); reflexivity.
Qed.

Lemma value_zero ds : value 8 (48 :: ds) = value 8 ds.
Proof. reflexivity. Qed.

Lemma value_pos ds : forallb octal ds = true -> forall v, 0 <= v ->
  0 <= fold_left (fun v d => v * 8 + (d - 48)) ds v.
Proof.
  induction ds as [|d ds IH]; intros D v V; [exact V|]. cbn [forallb] in D. apply andb_prop in D as [D1 D2].
  cbn [fold_left]. apply IH; [exact D2|]. apply octal_range in D1. lia.
Qed.

Lemma small_octal ds : forallb octal ds = true -> (length ds <= 2)%nat -> value 8 ds mod 256 = value 8 ds.
Proof.
  intros D L. apply Z.mod_small. split; [apply value_pos; [exact D|lia]|].
  destruct ds as [|a [|b [|c ds]]]; cbn [length] in L; [cbn; lia| | |lia]; cbn [forallb] in D.
  - apply andb_prop in D as [D1 _]. apply octal_range in D1. cbn [value fold_left]. lia.
  - apply andb_prop in D as [D1 D2]. apply andb_prop in D2 as [D2 _]. apply octal_range in D1, D2. cbn [value fold_left]. unfold value. cbn [fold_left]. lia.
Qed.

Lemma octal_digit c : octal c = true -> digit c = true.
Proof. intros C. apply octal_range in C. unfold digit. apply andb_true_iff. rewrite !Z.leb_le. lia. Qed.

Lemma starts_app f r u : f 92 = false -> (u = [] \/ exists v, u = 92 :: v) -> starts f r = false -> starts f (r ++ u) = false.
Proof. intros A [->|[v ->]] B; destruct r as [|c r]; try reflexivity; assumption. Qed.

(** The expansion of [ts], then of a rest *)
Fixpoint and_then (ts : list tok) (want : res (list Z)) : res (list Z) :=
  match ts with
  | [] => want
  | Lit c :: ts => l <- and_then ts want ;; Ok (c :: l)
  | Ref r :: ts => g <- group r ;; l <- and_then ts want ;; Ok (match g with Some x => x | None => [] end ++ l)
  end.

Theorem run_template u wantu : (u = [] \/ exists v, u = 92 :: v) ->
  (forall fuel, (length u < fuel)%nat -> done_with u fuel wantu) ->
  forall s ts, template true s ts -> forall fuel, (length (s ++ u) < fuel)%nat ->
  done_with (s ++ u) fuel (and_then ts wantu).
Proof.
  intros HU HW.
  induction 1 as [|c r ts N T IH|c v r ts I T IH|ds r ts D L F1 F2 T IH|a b c r ts N A B C V F T IH|a r ts N A F T IH
    |a b r ts N A B F T IH|ds r ts N D T IH|name r ts N W F T IH|c r ts A B N Q T IH]; intros fuel FL.
  - apply HW. exact FL.
  - cbn [length app] in FL. destruct fuel as [|fuel]; [lia|]. cbn [and_then app].
    apply (run_lits (r ++ u) (S fuel) _ _ _ [c] (fun h => c :: h)); [apply IH; lia| |].
    + intros h l E. rewrite sp_char, E by assumption. reflexivity.
    + intros h l _. rewrite unesc_char by assumption. reflexivity.
  - cbn [length app] in FL. destruct fuel as [|fuel]; [lia|]. cbn [and_then app].
    apply (run_lits (r ++ u) fuel _ _ _ [v] (fun h => 92 :: c :: h)); [apply IH; lia| |].
    + intros h l E. rewrite sp_pair, E; [reflexivity|].
      apply not_group; cbn in I; (do 8 (destruct I as [I|I]; [inversion I; subst; first [reflexivity|lia]|])); destruct I.
    + intros h l _. rewrite (unesc_escape c v) by assumption. reflexivity.
  - cbn [app] in *. rewrite <- app_assoc in *. cbn [length app] in FL. rewrite app_length in FL. destruct fuel as [|fuel]; [lia|]. destruct fuel as [|fuel]; [lia|]. cbn [and_then].
    apply (run_lits (r ++ u) (S fuel) _ _ _ [value 8 ds] (fun h => 92 :: 48 :: ds ++ h)); [apply IH; lia| |].
    + intros h l E. rewrite sp_pair; [rewrite sp_chars, E by assumption; reflexivity|].
      destruct (octal_match _); reflexivity.
    + intros h l E. rewrite unesc_octal; [|reflexivity|exact D|lia|apply (sp_starts _ _ _ _ E), starts_app; [reflexivity|exact HU|now apply F2]].
      rewrite value_zero, small_octal by assumption. reflexivity.
  - cbn [length app] in FL. destruct fuel as [|fuel]; [lia|]. destruct fuel as [|fuel]; [lia|]. cbn [and_then app].
    apply (run_lits (r ++ u) (S fuel) _ _ _ [value 8 [a; b; c]] (fun h => 92 :: a :: [b; c] ++ h)); [apply IH; lia| |].
    + intros h l E. rewrite sp_pair; [change (b :: c :: r ++ u) with ([b; c] ++ r ++ u); rewrite sp_chars, E; [reflexivity|]|].
      * cbn [forallb]. now rewrite B, C.
      * cbn [octal_match]. rewrite A, B, C. reflexivity.
    + intros h l E. rewrite unesc_octal; [|exact A|cbn [forallb]; now rewrite B, C|cbn; lia|apply (sp_starts _ _ _ _ E), starts_app; [reflexivity|exact HU|now apply F]].
      rewrite Z.mod_small; [reflexivity|]. split; [|exact V]. apply octal_range in A, B, C. unfold value. cbn [fold_left]. lia.
  - cbn [length app] in FL. destruct fuel as [|fuel]; [lia|]. cbn [and_then app].
    apply (starts_app digit r u eq_refl HU) in F.
    apply (run_ref (r ++ u) fuel _ _ _ [92; a]); [apply IH; lia| |].
    + intros h l E. rewrite (sp_group _ _ 2); [cbn [skipn firstn]; now rewrite E|].
      assert (O1 : octal_match (92 :: a :: r ++ u) = false).
      { destruct (r ++ u) as [|b [|c q]]; [reflexivity..|]. cbn [octal_match]. cbn [starts] in F.
        destruct (octal b) eqn:Eb; [apply octal_digit in Eb; congruence|]. now rewrite andb_false_r. }
      rewrite O1. unfold group_match. apply digit_range in A.
      assert (G : (49 <=? a) && (a <=? 57) = true) by (apply andb_true_iff; rewrite !Z.leb_le; lia).
      rewrite G, F. reflexivity.
    + reflexivity.
  - cbn [length app] in FL. destruct fuel as [|fuel]; [lia|]. cbn [and_then app].
    apply (run_ref (r ++ u) fuel _ _ _ [92; a; b]); [apply IH; lia| |].
    + intros h l E. rewrite (sp_group _ _ 3); [cbn [skipn firstn]; now rewrite E|].
      assert (O1 : octal_match (92 :: a :: b :: r ++ u) = false).
      { destruct (octal a && octal b) eqn:Eab.
        - apply (starts_app octal r u eq_refl HU) in F. destruct (r ++ u) as [|c q]; [reflexivity|].
          cbn [octal_match]. rewrite Eab. exact F.
        - destruct (r ++ u) as [|c q]; [reflexivity|]. cbn [octal_match]. now rewrite Eab. }
      rewrite O1. unfold group_match. apply digit_range in A.
      assert (G : (49 <=? a) && (a <=? 57) = true) by (apply andb_true_iff; rewrite !Z.leb_le; lia).
      rewrite G. cbn [starts]. rewrite B. reflexivity.
    + reflexivity.
  - cbn [app] in *. rewrite <- app_assoc in *. cbn [app] in *. cbn [length] in FL. rewrite app_length in FL. cbn [length] in FL. destruct fuel as [|fuel]; [lia|]. cbn [and_then].
    apply (run_ref (r ++ u) fuel _ _ _ (92 :: 103 :: 60 :: ds ++ [62])); [apply IH; lia| |].
    + intros h l E. rewrite (sp_group _ _ (length ds + 4)).
      * rewrite skipn_named, firstn_named, E. reflexivity.
      * apply named_match; [exact N|now apply digits_words].
    + rewrite piece_named by assumption. now rewrite D.
  - cbn [app] in *. rewrite <- app_assoc in *. cbn [app] in *. cbn [length] in FL. rewrite app_length in FL. cbn [length] in FL. destruct fuel as [|fuel]; [lia|]. cbn [and_then].
    apply (run_ref (r ++ u) fuel _ _ _ (92 :: 103 :: 60 :: name ++ [62])); [apply IH; lia| |].
    + intros h l E. rewrite (sp_group _ _ (length name + 4)).
      * rewrite skipn_named, firstn_named, E. reflexivity.
      * now apply named_match.
    + rewrite piece_named by assumption. destruct name as [|c name]; [congruence|]. cbn [starts] in F. cbn [forallb]. now rewrite F.
  - cbn [length app] in FL. destruct fuel as [|fuel]; [lia|]. cbn [and_then app].
    destruct (Q eq_refl) as [Q1 Q2].
    assert (E2 : (l <- (l <- and_then ts wantu ;; Ok (c :: l)) ;; Ok (92 :: l)) = (x <- and_then ts wantu ;; Ok ([92; c] ++ x))).
    { destruct (and_then ts wantu); reflexivity. }
    rewrite E2.
    apply (run_lits (r ++ u) fuel _ _ _ [92; c] (fun h => 92 :: c :: h)); [apply IH; lia| |].
    + intros h l E. rewrite sp_pair, E; [reflexivity|]. apply not_group; [exact B|]. intros ->. discriminate A.
    + intros h l _. rewrite unesc_other by assumption. reflexivity.
Qed.

Lemma expand_done s want : done_with s (S (length s)) want -> expand group s = want.
Proof.
  intros (h & l & E & R). unfold expand, split_template. rewrite split_sp, E. cbn [bind app]. exact R.
Qed.

Lemma and_then_end ts : and_then ts (Ok []) = expansion group ts.
Proof. induction ts as [|[c|r] ts IH]; cbn [and_then expansion]; [reflexivity|..]; now rewrite IH. Qed.

Theorem expand_correct s ts : template true s ts -> expand group s = expansion group ts.
Proof.
  intros T. apply expand_done. rewrite <- and_then_end. rewrite <- (app_nil_r s) at 1.
  apply run_template; [now left| |exact T|rewrite app_nil_r; lia].
  intros fuel F. destruct fuel as [|fuel]; [cbn in F; lia|]. exists [], []. split; reflexivity.
Qed.

Lemma group_match_positive t index : group_match t = Some index -> (2 <= index)%nat.
Proof.
  unfold group_match. destruct t as [|x t]; [discriminate|].
  repeat (match goal with |- context [match ?p with _ => _ end] => destruct p end; try discriminate); intros X; inversion X; lia.
Qed.

Lemma cut_length t : forall a b, cut_backslash t = (a, b) -> (length b <= length t)%nat.
Proof.
  induction t as [|c t IH]; cbn [cut_backslash]; intros a b E; [inversion E; cbn; lia|].
  destruct (c =? 92); [inversion E; lia|]. destruct (cut_backslash t) as [a' b']. inversion E; subst.
  specialize (IH _ _ eq_refl). cbn [length]. lia.
Qed.

Lemma sp_total fuel : forall t, (length t < fuel)%nat -> exists h l, sp fuel t = Ok (h, l).
Proof.
  induction fuel as [|fuel IH]; intros t F; [lia|]. cbn [sp].
  destruct (cut_backslash t) as [piece u] eqn:C. apply cut_length in C. destruct u as [|x u]; [eauto|].
  cbn [length] in C.
  destruct (if octal_match (x :: u) then None else group_match (x :: u)) as [index|] eqn:G.
  - assert (P : (2 <= index)%nat) by (destruct (octal_match (x :: u)); [discriminate|exact (group_match_positive _ _ G)]).
    destruct (IH (skipn index (x :: u))) as (h & l & E); [rewrite skipn_length; cbn [length]; lia|].
    rewrite E. cbn [bind]. eauto.
  - destruct (IH (skipn 2 (x :: u))) as (h & l & E); [rewrite skipn_length; cbn [length]; lia|].
    rewrite E. cbn [bind]. eauto.
Qed.

Lemma unesc_bad c s : letter c = true -> (forall v, ~ In (c, v) escapes) -> unesc (92 :: c :: s) = Raise OtherError.
Proof.
  intros A N. unfold unesc. cbn [length]. cbn [unescape]. change (92 =? 92) with true. cbv iota.
  assert (O8 : octal c = false).
  { destruct (octal c) eqn:E; [|reflexivity]. apply octal_range in E. unfold letter in A.
    apply orb_prop in A as [A|A]; apply andb_prop in A as [A1 A2]; apply Z.leb_le in A1, A2; lia. }
  rewrite O8, A.
  repeat match goal with |- context [c =? ?k] =>
    destruct (Z.eqb_spec c k) as [->|]; [first [discriminate A|exfalso; eapply N; cbn; tauto]|] end.
  reflexivity.
Qed.

Lemma and_then_raise ts e out : and_then ts (Raise e) <> Ok out.
Proof.
  revert out. induction ts as [|[c|r] ts IH]; intros out; cbn [and_then]; [discriminate|..].
  - destruct (and_then ts (Raise e)) as [l| | |]; cbn [bind]; try discriminate. now destruct (IH l).
  - destruct (group r) as [g| | |]; cbn [bind]; try discriminate.
    destruct (and_then ts (Raise e)) as [l| | |]; cbn [bind]; try discriminate. now destruct (IH l).
Qed.

Theorem expand_bad s ts c r : template true s ts -> letter c = true -> (forall v, ~ In (c, v) escapes) ->
  (c = 103 -> group_match (92 :: c :: r) = None) -> forall out, expand group (s ++ 92 :: c :: r) <> Ok out.
Proof.
  intros T A N G out. rewrite (expand_done _ (and_then ts (Raise OtherError))); [apply and_then_raise|].
  apply run_template; [right; eauto| |exact T|lia].
  intros fuel F. cbn [length] in F. destruct fuel as [|fuel]; [lia|].
  destruct (sp_total fuel r ltac:(lia)) as (h & l & E). exists (92 :: c :: h), l. split.
  - rewrite sp_pair, E; [reflexivity|]. destruct (Z.eqb_spec c 103) as [E1|N1].
    + destruct (octal_match (92 :: c :: r)); [reflexivity|now apply G].
    + apply not_group; [|exact N1]. unfold letter in A. unfold digit. apply andb_false_iff. rewrite !Z.leb_gt.
      apply orb_prop in A as [A|A]; apply andb_prop in A as [A1 A2]; apply Z.leb_le in A1, A2; lia.
  - cbn [expand_pieces]. change (expand_piece group false (92 :: c :: h)) with (unesc (92 :: c :: h)).
    rewrite unesc_bad by assumption. reflexivity.
Qed.

(** [group_match] of "\g" in terms of the text *)
Lemma g_no_match r : (forall name q, name <> [] -> forallb word name = true -> r <> 60 :: name ++ 62 :: q) ->
  group_match (92 :: 103 :: r) = None.
Proof.
  intros A. unfold group_match. change ((49 <=? 103) && (103 <=? 57)) with false. change (103 =? 103) with true. cbv iota.
  destruct r as [|x q]; [reflexivity|]. destruct (Z.eqb_spec x 60) as [->|N].
  2:{ destruct x as [|p|p]; try reflexivity.
      repeat (match goal with |- match match ?p with _ => _ end with _ => _ end = _ => destruct p | |- match ?p with _ => _ end = _ => destruct p end; try reflexivity); lia. }
  destruct ((0 <? word_run q)%nat && starts (fun x => x =? 62) (skipn (word_run q) q)) eqn:E; [|reflexivity].
  apply andb_prop in E as [E1 E2]. apply Nat.ltb_lt in E1. exfalso.
  assert (W : forall t, forallb word (firstn (word_run t) t) = true).
  { induction t as [|c t IH]; [reflexivity|]. cbn [word_run]. destruct (word c) eqn:Wc; [|reflexivity]. cbn [firstn forallb]. now rewrite Wc, IH. }
  destruct (skipn (word_run q) q) as [|y z] eqn:K; [discriminate|]. cbn [starts] in E2. apply Z.eqb_eq in E2. subst y.
  apply (A (firstn (word_run q) q) z); [|apply W|].
  - intros X. destruct q as [|c q]; [cbn in E1; lia|]. cbn [word_run] in *. destruct (word c); [discriminate X|lia].
  - rewrite <- K, firstn_skipn. reflexivity.
Qed.
End Groups.
