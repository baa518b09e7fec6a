(** Proofs about reading compressed files by lines. *)
From Coq Require Import List ZArith Bool Lia.
From Verif.Common Require Import Result Arr.
From Verif.Files Require Import Spec Model.
Import ListNotations.
Local Open Scope Z_scope.
Local Open Scope res_scope.

Definition cells (l : list Z) : list (option Z) := map Some l.
Lemma zlen_app {A} (a b : list A) : zlen (a ++ b) = zlen a + zlen b.
Proof. unfold zlen. rewrite app_length. lia. Qed.
Lemma zlen_cons {A} (x : A) b : zlen (x :: b) = zlen b + 1.
Proof. unfold zlen. cbn [length]. lia. Qed.
Lemma zlen_nil {A} : zlen (@nil A) = 0.
Proof. reflexivity. Qed.
Lemma zlen_pos {A} (a : list A) : 0 <= zlen a.
Proof. apply zlen_nonneg. Qed.
Lemma zlen_snoc {A} (d : list A) x : zlen (d ++ [x]) = zlen d + 1.
Proof. unfold zlen. rewrite app_length. cbn [length]. lia. Qed.
Lemma zlen_cells l : zlen (cells l) = zlen l.
Proof. unfold zlen, cells. now rewrite map_length. Qed.
Lemma zlen_alloc n : 0 <= n -> zlen (alloc n) = n.
Proof. intros H. unfold zlen, alloc. rewrite repeat_length. lia. Qed.
Lemma cells_app a b : cells (a ++ b) = cells a ++ cells b.
Proof. apply map_app. Qed.
Lemma zlen_eq0 {A} (a : list A) : zlen a = 0 -> a = [].
Proof. destruct a as [|x a]; [reflexivity|]. rewrite zlen_cons. pose proof (zlen_pos a). lia. Qed.

Lemma aget_at {A} (a : list A) x b : aget (a ++ x :: b) (zlen a) = Ok x.
Proof.
  unfold aget. pose proof (zlen_pos a). destruct (Z.ltb_spec (zlen a) 0); [lia|]. unfold zlen. rewrite Nat2Z.id.
  rewrite nth_error_app2 by lia. now rewrite Nat.sub_diag.
Qed.
Lemma aset_at {A} (a : list A) x y b : aset (a ++ y :: b) (zlen a) x = Ok (a ++ x :: b).
Proof.
  unfold aset. pose proof (zlen_pos a). pose proof (zlen_pos b). destruct (Z.ltb_spec (zlen a) 0); [lia|].
  rewrite zlen_app, zlen_cons. destruct (Z.leb_spec (zlen a + (zlen b + 1)) (zlen a)); [lia|]. cbn [orb]. f_equal. unfold upd, zlen. rewrite Nat2Z.id.
  clear. induction a as [|z a IH]; [reflexivity|]. cbn. now rewrite IH.
Qed.
Lemma cell_last d x junk : cell (cells (d ++ [x]) ++ junk) (zlen (d ++ [x]) - 1) = Ok x.
Proof.
  rewrite cells_app, <- app_assoc. cbn. unfold cell. rewrite zlen_app, zlen_cons, zlen_nil.
  replace (zlen d + (0 + 1) - 1) with (zlen (cells d)) by (rewrite zlen_cells; lia). now rewrite aget_at.
Qed.
Lemma cell_end d p junk : p <> [] -> cell (cells (d ++ p) ++ junk) (zlen (d ++ p) - 1) = Ok (last p 0).
Proof.
  intros N. assert (E := app_removelast_last 0 N). assert (E' : d ++ p = (d ++ removelast p) ++ [last p 0]) by (rewrite <- app_assoc; now f_equal).
  rewrite E'. apply cell_last.
Qed.
Lemma put_ok bs : forall d junk, zlen bs <= zlen junk -> exists junk', put (cells d ++ junk) (zlen d) bs = Ok (cells (d ++ bs) ++ junk') /\ zlen junk' = zlen junk - zlen bs.
Proof.
  induction bs as [|x bs IH]; intros d junk L.
  - exists junk. rewrite app_nil_r, zlen_nil. split; [reflexivity|lia].
  - rewrite zlen_cons in L. pose proof (zlen_pos bs). destruct junk as [|y junk]; [rewrite zlen_nil in L; lia|]. rewrite zlen_cons in L. cbn [put].
    assert (A : aset (cells d ++ y :: junk) (zlen d) (Some x) = Ok (cells d ++ Some x :: junk)) by (rewrite <- (zlen_cells d); apply aset_at).
    rewrite A. cbn [bind]. destruct (IH (d ++ [x]) junk ltac:(lia)) as (j & E & Lj). exists j.
    rewrite cells_app, <- app_assoc, zlen_app, zlen_cons, zlen_nil in E. cbn [cells map app] in E. rewrite Z.add_0_l in E. rewrite E.
    rewrite <- app_assoc. rewrite !zlen_cons. split; [reflexivity|lia].
Qed.
Lemma strlen_ok p : forall fuel d junk, Forall (fun x => x <> 0) p -> (length p < fuel)%nat ->
  strlen fuel (cells (d ++ p ++ [0]) ++ junk) (zlen d) = Ok (zlen p).
Proof.
  induction p as [|x p IH]; intros fuel d junk F L; (destruct fuel as [|fuel]; [cbn in L; lia|]); cbn [strlen].
  - cbn [app]. rewrite cells_app, <- app_assoc. unfold cell. rewrite <- (zlen_cells d). cbn [cells map app]. rewrite aget_at. reflexivity.
  - inversion F as [|? ? Fx Fp]; subst. assert (C : cell (cells (d ++ (x :: p) ++ [0]) ++ junk) (zlen d) = Ok x).
    { rewrite cells_app, <- app_assoc. unfold cell. rewrite <- (zlen_cells d). cbn [cells map app]. rewrite aget_at. reflexivity. }
    rewrite C. cbn [bind]. destruct (Z.eqb_spec x 0); [contradiction|]. specialize (IH fuel (d ++ [x]) junk Fp ltac:(cbn in L; lia)).
    rewrite <- app_assoc, zlen_snoc in IH. cbn [app] in *. rewrite IH. cbn [bind]. now rewrite zlen_cons.
Qed.
Lemma str_ok l : forall d junk, str_of (cells (d ++ l) ++ junk) (zlen d) (length l) = Ok l.
Proof.
  induction l as [|x l IH]; intros d junk; [reflexivity|]. cbn [length str_of].
  assert (C : cell (cells (d ++ x :: l) ++ junk) (zlen d) = Ok x).
  { rewrite cells_app, <- app_assoc. unfold cell. rewrite <- (zlen_cells d). cbn [cells map app]. rewrite aget_at. reflexivity. }
  rewrite C. cbn [bind]. specialize (IH (d ++ [x]) junk). rewrite <- app_assoc, zlen_snoc in IH. cbn [app] in IH. rewrite IH. reflexivity.
Qed.
Lemma str_whole l junk : str_of (cells l ++ junk) 0 (Z.to_nat (zlen l)) = Ok l.
Proof. unfold zlen at 1. rewrite Nat2Z.id. exact (str_ok l [] junk). Qed.
Lemma grow_ok d junk s : zlen (cells d ++ junk) = s -> grow (cells d ++ junk) (s * 2) s = cells d ++ (junk ++ alloc s).
Proof.
  intros H. unfold grow. rewrite <- H. unfold zlen at 1. rewrite Nat2Z.id, firstn_all, <- app_assoc. do 3 f_equal. lia.
Qed.

(** ** Taking part of a line *)
Lemma take_all l : forall n r, ~ In 10 l -> zlen l + 1 <= n -> take_line n (l ++ 10 :: r) = (l ++ [10], r).
Proof.
  induction l as [|x l IH]; intros n r H L; cbn [app take_line].
  - rewrite zlen_nil in L. destruct (Z.leb_spec n 0); [lia|]. reflexivity.
  - rewrite zlen_cons in L. pose proof (zlen_pos l). destruct (Z.leb_spec n 0); [lia|]. destruct (Z.eqb_spec x 10) as [->|]; [exfalso; apply H; now left|].
    rewrite IH; [reflexivity| |lia]. intros C. apply H. now right.
Qed.
Lemma take_full p : forall q, ~ In 10 p -> take_line (zlen p) (p ++ q) = (p, q).
Proof.
  induction p as [|x p IH]; intros q H; cbn [app take_line].
  - destruct q; reflexivity.
  - rewrite zlen_cons. pose proof (zlen_pos p). destruct (Z.leb_spec (zlen p + 1) 0); [lia|]. destruct (Z.eqb_spec x 10) as [->|]; [exfalso; apply H; now left|].
    replace (zlen p + 1 - 1) with (zlen p) by lia. rewrite IH; [reflexivity|]. intros C. apply H. now right.
Qed.
Lemma take_short p : forall n, ~ In 10 p -> zlen p <= n -> take_line n p = (p, []).
Proof.
  induction p as [|x p IH]; intros n H L; cbn [take_line]; [reflexivity|].
  rewrite zlen_cons in L. pose proof (zlen_pos p). destruct (Z.leb_spec n 0); [lia|]. destruct (Z.eqb_spec x 10) as [->|]; [exfalso; apply H; now left|].
  rewrite IH; [reflexivity| |lia]. intros C. apply H. now right.
Qed.
(** Cutting a list. *)
Lemma cut (l : list Z) n : 0 <= n <= zlen l -> exists p q, l = p ++ q /\ zlen p = n.
Proof.
  intros H. exists (firstn (Z.to_nat n) l), (skipn (Z.to_nat n) l). split; [now rewrite firstn_skipn|].
  unfold zlen in *. rewrite firstn_length. lia.
Qed.
Lemma i32_small x : 0 <= x < 2 ^ 31 -> i32 x = x.
Proof. intros H. unfold i32. rewrite Z.mod_small by lia. lia. Qed.
Lemma i32_top : i32 (2 ^ 31) = - 2 ^ 31.
Proof. reflexivity. Qed.

(** ** One line of a gzip file *)
Definition sized (f : file) : Prop := exists k, 0 <= k /\ sz f = 2 ^ (7 + k) /\ zlen (buf f) = sz f.
Definition nonzero (l : list Z) : Prop := Forall (fun x => x <> 0) l.
Lemma sized_128 f : sized f -> 128 <= sz f.
Proof. intros (k & K & E & _). rewrite E, Z.pow_add_r by lia. assert (0 < 2 ^ k) by (apply Z.pow_pos_nonneg; lia). change (2 ^ 7) with 128. nia. Qed.
Lemma sized_double f d junk r b : sized f -> zlen (cells d ++ junk) = sz f -> sized {| sz := sz f * 2; buf := cells d ++ (junk ++ alloc (sz f)); rest := r; bad := b |}.
Proof.
  intros S Z0. pose proof (sized_128 f S) as G. destruct S as (k & K & E & L). exists (k + 1). cbn [sz buf]. split; [lia|]. split.
  - rewrite E. replace (7 + (k + 1)) with (7 + k + 1) by lia. rewrite (Z.pow_add_r 2 (7 + k) 1) by lia. lia.
  - rewrite app_assoc, zlen_app, Z0, zlen_alloc by lia. lia.
Qed.
Lemma sized_half K f : 0 <= K -> sized f -> sz f < 2 ^ K -> sz f * 2 <= 2 ^ K.
Proof.
  intros K0 (k & Kk & E & _) H. rewrite E in *. assert (7 + k < K) by (apply (Z.pow_lt_mono_r_iff 2); lia).
  replace (2 ^ (7 + k) * 2) with (2 ^ (7 + k + 1)) by (rewrite (Z.pow_add_r 2 (7 + k) 1) by lia; lia). apply Z.pow_le_mono_r; lia.
Qed.
Lemma nonzero_app a b : nonzero (a ++ b) <-> nonzero a /\ nonzero b.
Proof. apply Forall_app. Qed.

(** One successful [gzgets] and what the loop makes of it. *)
Lemma gz_step fuel f d junk p r len : i32 (sz f - zlen d) = len -> 1 <= len -> buf f = cells d ++ junk -> take_line (len - 1) (rest f) = (p, r) -> p <> [] ->
  nonzero p -> zlen p + 1 <= zlen junk ->
  exists junk', zlen (cells (d ++ p) ++ junk') = zlen (buf f) /\
  gz_loop (S fuel) f (zlen d) =
    if last p 0 =? 10 then Ok (zlen (d ++ p), {| sz := sz f; buf := cells (d ++ p) ++ junk'; rest := r; bad := bad f |})
    else gz_loop fuel {| sz := sz f * 2; buf := grow (cells (d ++ p) ++ junk') (sz f * 2) (sz f); rest := r; bad := bad f |} (zlen (d ++ p)).
Proof.
  intros EL L1 Eb Et Np NZ Lj. destruct (put_ok (p ++ [0]) d junk) as (j & Ep & Zj).
  { rewrite zlen_app, zlen_cons, zlen_nil. lia. }
  assert (B : cells (d ++ p ++ [0]) ++ j = cells (d ++ p) ++ (Some 0 :: j)).
  { rewrite app_assoc, cells_app, <- app_assoc. reflexivity. }
  exists (Some 0 :: j). split.
  { rewrite Eb, !zlen_app, zlen_cons, !zlen_cells, !zlen_app. rewrite zlen_app, zlen_cons, zlen_nil in Zj. lia. }
  cbn [gz_loop]. rewrite EL. unfold gzgets. destruct (Z.ltb_spec len 1); [lia|]. rewrite Et. destruct p as [|x0 p0]; [contradiction|]. set (p := x0 :: p0) in *.
  rewrite Eb, Ep. cbn [bind]. rewrite strlen_ok; [|exact NZ|].
  2:{ rewrite B, app_length. unfold cells. rewrite map_length, app_length. lia. }
  cbn [bind]. rewrite B, <- zlen_app. rewrite cell_end by assumption. cbn [bind].
  destruct (last p 0 =? 10); reflexivity.
Qed.
Lemma gz_end fuel f d junk : rest f = [] -> buf f = cells d ++ junk -> gz_loop (S fuel) f (zlen d) =
  if bad f then Raise OtherError else if zlen d =? 0 then Ok (-1, f) else Ok (zlen d, f).
Proof.
  intros R B. cbn [gz_loop]. unfold gzgets, gz_failed. rewrite R. cbn [take_line].
  destruct (i32 (sz f - zlen d) <? 1); cbn [bind]; rewrite andb_true_r; reflexivity.
Qed.
Lemma last_no10 p : ~ In 10 p -> p <> [] -> (last p 0 =? 10) = false.
Proof.
  intros H N. destruct (Z.eqb_spec (last p 0) 10) as [E|]; [|reflexivity]. exfalso. apply H. rewrite <- E.
  rewrite (app_removelast_last 0 N) at 2. apply in_app_iff. right. now left.
Qed.
Lemma last_app1 p x : last (p ++ [x]) 0 = x.
Proof. apply last_last. Qed.

Lemma gz_line K l : K = 30 \/ K = 31 -> forall fuel f d junk r, rest f = l ++ 10 :: r -> ~ In 10 l -> nonzero l -> buf f = cells d ++ junk ->
  sized f -> sz f <= 2 ^ K -> 2 <= zlen junk < 2 ^ 31 -> zlen (d ++ l) + 1 < 2 ^ K -> (length l < fuel)%nat ->
  exists f', gz_loop fuel f (zlen d) = Ok (zlen (d ++ l ++ [10]), f') /\ rest f' = r /\ bad f' = bad f /\ sized f' /\ sz f' <= 2 ^ K /\
    exists junk', buf f' = cells (d ++ l ++ [10]) ++ junk' /\ 1 <= zlen junk'.
Proof.
  intros HK. assert (K0 : 0 <= K) by lia. assert (K31 : 2 ^ K <= 2 ^ 31) by (apply Z.pow_le_mono_r; lia). induction l as [l IH] using (well_founded_induction (well_founded_ltof _ (@length Z))). unfold ltof in IH.
  intros fuel f d junk r R N NZ B S S30 J Q F. destruct fuel as [|fuel]; [lia|].
  assert (Zs : zlen d + zlen junk = sz f). { destruct S as (k & _ & _ & L). rewrite B, zlen_app, zlen_cells in L. exact L. }
  pose proof (zlen_pos d). assert (EL : i32 (sz f - zlen d) = zlen junk) by (rewrite i32_small; lia).
  destruct (Z.le_gt_cases (zlen l + 1) (zlen junk - 1)) as [C|C].
  - assert (Et : take_line (zlen junk - 1) (rest f) = (l ++ [10], r)) by (rewrite R; now apply take_all).
    destruct (gz_step fuel f d junk (l ++ [10]) r (zlen junk) EL ltac:(lia) B Et) as (j & Zj & E).
    + now destruct l.
    + apply nonzero_app. split; [assumption|]. now repeat constructor.
    + rewrite zlen_app, zlen_cons, zlen_nil. lia.
    + rewrite last_app1 in E. cbn [Z.eqb Pos.eqb] in E. eexists. split; [exact E|]. cbn [rest bad sz buf]. split; [reflexivity|]. split; [reflexivity|].
      split; [|split; [assumption|exists j; split; [reflexivity|]]].
      2:{ rewrite zlen_app, zlen_cells, B, (zlen_app (cells d) junk), zlen_cells, zlen_app, zlen_snoc in Zj. lia. }
      destruct S as (k & Kk & Ek & L). exists k. cbn [sz buf]. split; [assumption|]. split; [assumption|]. lia.
  - destruct (cut l (zlen junk - 1) ltac:(lia)) as (p & q & -> & Zp).
    assert (Np : ~ In 10 p) by (intros X; apply N; apply in_app_iff; now left).
    assert (Nq : ~ In 10 q) by (intros X; apply N; apply in_app_iff; now right).
    apply nonzero_app in NZ. destruct NZ as (NZp & NZq). rewrite <- app_assoc in R.
    assert (Pp : p <> []) by (intros ->; rewrite zlen_nil in Zp; lia).
    assert (Et : take_line (zlen junk - 1) (rest f) = (p, q ++ 10 :: r)) by (rewrite R, <- Zp; now apply take_full).
    destruct (gz_step fuel f d junk p (q ++ 10 :: r) (zlen junk) EL ltac:(lia) B Et Pp NZp ltac:(lia)) as (j & Zj & E).
    rewrite last_no10 in E by assumption. assert (L : zlen (buf f) = sz f) by (destruct S as (k & _ & _ & L); exact L).
    rewrite L in Zj. rewrite grow_ok in E by assumption. rewrite !zlen_app in Q. rewrite zlen_app in C. rewrite E.
    destruct (IH q) with (fuel := fuel) (f := {| sz := sz f * 2; buf := cells (d ++ p) ++ j ++ alloc (sz f); rest := q ++ 10 :: r; bad := bad f |}) (d := d ++ p) (junk := j ++ alloc (sz f)) (r := r) as (f' & E' & A1 & A2 & A3 & A4 & A5); try assumption; try reflexivity.
    + rewrite app_length. destruct p; [contradiction|]. cbn [length]. lia.
    + now apply sized_double.
    + cbn [sz]. apply sized_half; [assumption|assumption|]. lia.
    + pose proof (sized_128 f S). rewrite zlen_app, zlen_alloc by lia. assert (W := sized_half K f K0 S ltac:(lia)).
      rewrite zlen_app, zlen_cells, zlen_app in Zj. lia.
    + rewrite !zlen_app. lia.
    + rewrite app_length in F. destruct p; [contradiction|]. cbn [length] in F. lia.
    + exists f'. rewrite <- !app_assoc in *. now repeat split.
Qed.
Lemma gz_tail l : forall fuel f d junk, rest f = l -> ~ In 10 l -> nonzero l -> buf f = cells d ++ junk ->
  sized f -> sz f <= 2 ^ 30 -> 2 <= zlen junk -> zlen (d ++ l) < 2 ^ 30 -> (S (length l) < fuel)%nat ->
  exists f', gz_loop fuel f (zlen d) = (if bad f then Raise OtherError else if zlen (d ++ l) =? 0 then Ok (-1, f') else Ok (zlen (d ++ l), f')) /\
    rest f' = [] /\ bad f' = bad f /\ exists junk', buf f' = cells (d ++ l) ++ junk' /\ 2 <= zlen junk'.
Proof.
  induction l as [l IH] using (well_founded_induction (well_founded_ltof _ (@length Z))). unfold ltof in IH.
  intros fuel f d junk R N NZ B S S30 J Q F. destruct fuel as [|fuel]; [lia|].
  assert (Zs : zlen d + zlen junk = sz f). { destruct S as (k & _ & _ & L). rewrite B, zlen_app, zlen_cells in L. exact L. }
  pose proof (zlen_pos d). assert (EL : i32 (sz f - zlen d) = zlen junk) by (rewrite i32_small; lia).
  destruct l as [|x0 l0].
  { exists f. rewrite app_nil_r. split; [now apply (gz_end fuel f d junk)|]. split; [assumption|]. split; [reflexivity|]. now exists junk. }
  set (l := x0 :: l0) in *. assert (Pl : l <> []) by discriminate. assert (Ll : (1 <= length l)%nat) by (cbn; lia). clearbody l.
  assert (L : zlen (buf f) = sz f) by (destruct S as (k & _ & _ & L); exact L). pose proof (sized_128 f S) as G.
  destruct (Z.le_gt_cases (zlen l) (zlen junk - 1)) as [C|C].
  - assert (Et : take_line (zlen junk - 1) (rest f) = (l, [])) by (rewrite R; now apply take_short).
    destruct (gz_step fuel f d junk l [] (zlen junk) EL ltac:(lia) B Et Pl NZ ltac:(lia)) as (j & Zj & E).
    rewrite last_no10 in E by assumption. rewrite L in Zj. rewrite grow_ok in E by assumption. destruct fuel as [|fuel]; [lia|].
    rewrite (gz_end fuel _ (d ++ l) (j ++ alloc (sz f))) in E by reflexivity. cbn [bad] in E. eexists. split; [exact E|]. split; [reflexivity|]. split; [reflexivity|].
    exists (j ++ alloc (sz f)). split; [reflexivity|]. rewrite zlen_app, zlen_alloc by lia. pose proof (zlen_pos j). lia.
  - destruct (cut l (zlen junk - 1) ltac:(lia)) as (p & q & -> & Zp).
    assert (Np : ~ In 10 p) by (intros X; apply N; apply in_app_iff; now left).
    assert (Nq : ~ In 10 q) by (intros X; apply N; apply in_app_iff; now right).
    apply nonzero_app in NZ. destruct NZ as (NZp & NZq).
    assert (Pp : p <> []) by (intros ->; rewrite zlen_nil in Zp; lia).
    assert (Et : take_line (zlen junk - 1) (rest f) = (p, q)) by (rewrite R, <- Zp; now apply take_full).
    destruct (gz_step fuel f d junk p q (zlen junk) EL ltac:(lia) B Et Pp NZp ltac:(lia)) as (j & Zj & E).
    rewrite last_no10 in E by assumption. rewrite L in Zj. rewrite grow_ok in E by assumption. rewrite !zlen_app in Q. rewrite E.
    rewrite zlen_app in C.
    destruct (IH q) with (fuel := fuel) (f := {| sz := sz f * 2; buf := cells (d ++ p) ++ j ++ alloc (sz f); rest := q; bad := bad f |}) (d := d ++ p) (junk := j ++ alloc (sz f)) as (f' & E' & A1 & A2 & A3); try assumption; try reflexivity.
    + rewrite app_length. destruct p; [contradiction|]. cbn [length]. lia.
    + now apply sized_double.
    + cbn [sz]. apply sized_half; [lia|assumption|]. lia.
    + rewrite zlen_app, zlen_alloc by lia. pose proof (zlen_pos j). lia.
    + rewrite !zlen_app. lia.
    + rewrite app_length in F. destruct p; [contradiction|]. cbn [length] in F. lia.
    + exists f'. rewrite <- !app_assoc in *. now repeat split.
Qed.

(** ** One line of a bzip2 file *)
Lemma bz_run damaged n p : forall d pre junk q, ~ In 10 p -> zlen pre + zlen p <= n - 1 -> zlen p <= zlen junk ->
  exists junk', bz_gets_loop damaged (p ++ q) (cells (d ++ pre) ++ junk) (zlen d) n (zlen pre) =
    bz_gets_loop damaged q (cells (d ++ pre ++ p) ++ junk') (zlen d) n (zlen (pre ++ p)) /\ zlen junk' = zlen junk - zlen p.
Proof.
  induction p as [|x p IH]; intros d pre junk q N L J.
  - exists junk. rewrite !app_nil_r, zlen_nil. split; [reflexivity|lia].
  - rewrite zlen_cons in *. pose proof (zlen_pos p). destruct junk as [|y junk]; [rewrite zlen_nil in J; lia|]. rewrite zlen_cons in J.
    destruct (IH d (pre ++ [x]) junk q) as (j & E & Zj); [intros C; apply N; now right|rewrite zlen_snoc; lia|lia|].
    exists j. split; [|rewrite !zlen_cons; lia]. rewrite <- app_assoc in E. cbn [app] in E. rewrite <- E. clear E IH.
    assert (A : aset (cells (d ++ pre) ++ y :: junk) (zlen d + zlen pre) (Some x) = Ok (cells (d ++ pre ++ [x]) ++ junk)).
    { rewrite <- zlen_app, <- (zlen_cells (d ++ pre)), aset_at. rewrite (app_assoc d pre [x]), (cells_app (d ++ pre) [x]), <- app_assoc. reflexivity. }
    cbn [app bz_gets_loop]. destruct (Z.ltb_spec (zlen pre) (n - 1)); [|lia]. rewrite A. cbn [bind].
    destruct (Z.eqb_spec x 10) as [->|]; [exfalso; apply N; now left|]. now rewrite zlen_snoc.
Qed.
Lemma bz_run0 damaged n p d junk q : ~ In 10 p -> zlen p <= n - 1 -> zlen p <= zlen junk ->
  exists junk', bz_gets_loop damaged (p ++ q) (cells d ++ junk) (zlen d) n 0 =
    bz_gets_loop damaged q (cells (d ++ p) ++ junk') (zlen d) n (zlen p) /\ zlen junk' = zlen junk - zlen p.
Proof.
  intros N L J. destruct (bz_run damaged n p d [] junk q N) as (j & E & Zj); [rewrite zlen_nil; lia|assumption|].
  rewrite app_nil_r in E. cbn [app] in E. exists j. split; [exact E|exact Zj].
Qed.
Lemma bz_line l : forall fuel f d junk r, rest f = l ++ 10 :: r -> ~ In 10 l -> buf f = cells d ++ junk ->
  sized f -> 2 <= zlen junk -> (length l < fuel)%nat ->
  exists f', bz_loop fuel f (zlen d) = Ok (zlen (d ++ l ++ [10]), f') /\ rest f' = r /\ bad f' = bad f /\ sized f' /\
    exists junk', buf f' = cells (d ++ l ++ [10]) ++ junk'.
Proof.
  induction l as [l IH] using (well_founded_induction (well_founded_ltof _ (@length Z))). unfold ltof in IH.
  intros fuel f d junk r R N B S J F. destruct fuel as [|fuel]; [lia|].
  assert (Zs : zlen d + zlen junk = sz f). { destruct S as (k & _ & _ & L). rewrite B, zlen_app, zlen_cells in L. exact L. }
  pose proof (zlen_pos d). assert (EL : sz f - zlen d = zlen junk) by lia. pose proof (zlen_pos l).
  cbn [bz_loop]. unfold bz_gets. rewrite EL. destruct (Z.leb_spec (zlen junk) 0); [lia|].
  destruct (Z.le_gt_cases (zlen l + 1) (zlen junk - 1)) as [C|C].
  - rewrite R, B. destruct (bz_run0 (bad f) (zlen junk) l d junk (10 :: r) N ltac:(lia) ltac:(lia)) as (j & E & Zj). rewrite E. clear E.
    cbn [bz_gets_loop]. destruct (Z.ltb_spec (zlen l) (zlen junk - 1)); [|lia]. destruct j as [|y j]; [rewrite zlen_nil in Zj; lia|]. rewrite zlen_cons in Zj.
    rewrite <- zlen_app, <- (zlen_cells (d ++ l)), aset_at. cbn [bind Z.eqb Pos.eqb].
    assert (W : cells (d ++ l) ++ Some 10 :: j = cells (d ++ l ++ [10]) ++ j) by (rewrite (app_assoc d l), (cells_app (d ++ l)), <- app_assoc; reflexivity).
    rewrite W. destruct (Z.eqb_spec (zlen l + 1) 0); [lia|]. destruct (Z.ltb_spec (zlen l + 1) 0); [lia|].
    replace (zlen d + (zlen l + 1)) with (zlen (d ++ l ++ [10])) by (rewrite zlen_app, zlen_snoc; lia).
    rewrite cell_end by (now destruct l). rewrite last_app1. cbn [bind Z.eqb Pos.eqb]. eexists. split; [reflexivity|]. cbn [rest bad sz buf]. split; [reflexivity|]. split; [reflexivity|].
    split; [|now exists j]. destruct S as (k & K & Ek & L). exists k. cbn [sz buf]. split; [assumption|]. split; [assumption|].
    rewrite zlen_app, zlen_cells, zlen_app, zlen_snoc. lia.
  - destruct (cut l (zlen junk - 1) ltac:(lia)) as (p & q & -> & Zp).
    assert (Np : ~ In 10 p) by (intros X; apply N; apply in_app_iff; now left).
    assert (Nq : ~ In 10 q) by (intros X; apply N; apply in_app_iff; now right).
    assert (Pp : p <> []) by (intros ->; rewrite zlen_nil in Zp; lia). rewrite <- app_assoc in R.
    rewrite R, B. destruct (bz_run0 (bad f) (zlen junk) p d junk (q ++ 10 :: r) Np ltac:(lia) ltac:(lia)) as (j & E & Zj). rewrite E. clear E.
    assert (Ef : forall l0 b, bz_gets_loop (bad f) l0 b (zlen d) (zlen junk) (zlen p) = Ok (zlen p, b, l0)).
    { intros l0 b. destruct l0; cbn [bz_gets_loop]; (destruct (Z.ltb_spec (zlen p) (zlen junk - 1)); [lia|reflexivity]). }
    rewrite Ef. cbn [bind]. destruct (Z.eqb_spec (zlen p) 0); [lia|]. destruct (Z.ltb_spec (zlen p) 0); [lia|].
    rewrite <- zlen_app, cell_end by assumption. cbn [bind]. rewrite last_no10 by assumption.
    assert (Zb : zlen (cells (d ++ p) ++ j) = sz f) by (rewrite zlen_app, zlen_cells, zlen_app; lia). rewrite grow_ok by assumption.
    pose proof (sized_128 f S) as G.
    destruct (IH q) with (fuel := fuel) (f := {| sz := sz f * 2; buf := cells (d ++ p) ++ j ++ alloc (sz f); rest := q ++ 10 :: r; bad := bad f |}) (d := d ++ p) (junk := j ++ alloc (sz f)) (r := r) as (f' & E' & A1 & A2 & A3 & A5); try assumption; try reflexivity.
    + rewrite app_length. destruct p; [contradiction|]. cbn [length]. lia.
    + now apply sized_double.
    + rewrite zlen_app, zlen_alloc by lia. pose proof (zlen_pos j). lia.
    + rewrite app_length in F. destruct p; [contradiction|]. cbn [length] in F. lia.
    + exists f'. rewrite <- !app_assoc in *. now repeat split.
Qed.
Lemma bz_end fuel f d junk : rest f = [] -> buf f = cells d ++ junk -> 2 <= sz f - zlen d -> exists f', bz_loop (S fuel) f (zlen d) =
  (if bad f then Raise OtherError else if zlen d =? 0 then Ok (-1, f') else Ok (zlen d, f')) /\ rest f' = [] /\ bad f' = bad f /\ sz f' = sz f /\ buf f' = buf f.
Proof.
  intros R B J. exists f. split; [|auto]. cbn [bz_loop]. unfold bz_gets. destruct (Z.leb_spec (sz f - zlen d) 0); [lia|]. rewrite R. cbn [bz_gets_loop].
  destruct (Z.ltb_spec 0 (sz f - zlen d - 1)); [|lia]. destruct (bad f) eqn:D; cbn [bind]; [reflexivity|].
  destruct f as [z b0 r0 b1]. cbn in *. subst. reflexivity.
Qed.
Lemma bz_tail l : forall fuel f d junk, rest f = l -> ~ In 10 l -> buf f = cells d ++ junk ->
  sized f -> 2 <= zlen junk -> (S (length l) < fuel)%nat ->
  exists f', bz_loop fuel f (zlen d) = (if bad f then Raise OtherError else if zlen (d ++ l) =? 0 then Ok (-1, f') else Ok (zlen (d ++ l), f')) /\
    rest f' = [] /\ bad f' = bad f /\ exists junk', buf f' = cells (d ++ l) ++ junk' /\ 2 <= zlen junk'.
Proof.
  induction l as [l IH] using (well_founded_induction (well_founded_ltof _ (@length Z))). unfold ltof in IH.
  intros fuel f d junk R N B S J F. destruct fuel as [|fuel]; [lia|].
  assert (Zs : zlen d + zlen junk = sz f). { destruct S as (k & _ & _ & L). rewrite B, zlen_app, zlen_cells in L. exact L. }
  pose proof (zlen_pos d). assert (EL : sz f - zlen d = zlen junk) by lia.
  destruct l as [|x0 l0].
  { rewrite app_nil_r. destruct (bz_end fuel f d junk R B ltac:(lia)) as (f' & E & A1 & A2 & A3 & A4). exists f'. split; [exact E|]. split; [assumption|]. split; [assumption|].
    exists junk. split; [congruence|assumption]. }
  set (l := x0 :: l0) in *. assert (Pl : l <> []) by discriminate. assert (Ll : (1 <= length l)%nat) by (cbn; lia). clearbody l. pose proof (zlen_pos l).
  assert (Pz : zlen l <> 0) by (unfold zlen; lia). pose proof (sized_128 f S) as G.
  assert (Dz : zlen (d ++ l) <> 0) by (rewrite zlen_app; lia).
  destruct (Z.lt_ge_cases (zlen l) (zlen junk - 1)) as [C|C].
  - cbn [bz_loop]. unfold bz_gets. rewrite EL. destruct (Z.leb_spec (zlen junk) 0); [lia|].
    rewrite R, B. destruct (bz_run0 (bad f) (zlen junk) l d junk [] N ltac:(lia) ltac:(lia)) as (j & E & Zj). rewrite app_nil_r in E. rewrite E. clear E.
    cbn [bz_gets_loop]. destruct (Z.ltb_spec (zlen l) (zlen junk - 1)); [|lia]. destruct (bad f) eqn:D; cbn [bind].
    + exists {| sz := 0; buf := cells (d ++ l) ++ alloc 2; rest := []; bad := true |}. split; [reflexivity|]. split; [reflexivity|]. split; [reflexivity|].
      exists (alloc 2). split; [reflexivity|]. rewrite zlen_alloc; lia.
    + destruct (Z.eqb_spec (zlen l) 0); [lia|]. destruct (Z.ltb_spec (zlen l) 0); [lia|].
      rewrite <- zlen_app, cell_end by assumption. cbn [bind]. rewrite last_no10 by assumption.
      assert (Zb : zlen (cells (d ++ l) ++ j) = sz f) by (rewrite zlen_app, zlen_cells, zlen_app; lia). rewrite grow_ok by assumption.
      destruct fuel as [|fuel]; [lia|]. rewrite zlen_app, zlen_cells in Zb. pose proof (zlen_pos j).
      destruct (bz_end fuel {| sz := sz f * 2; buf := cells (d ++ l) ++ j ++ alloc (sz f); rest := []; bad := false |} (d ++ l) (j ++ alloc (sz f))) as (f' & E & A1 & A2 & A3 & A4);
        [reflexivity|reflexivity|cbn [sz]; lia|]. exists f'. split; [exact E|]. split; [assumption|]. split; [assumption|]. exists (j ++ alloc (sz f)). split; [assumption|].
      rewrite zlen_app, zlen_alloc by lia. lia.
  - destruct (cut l (zlen junk - 1) ltac:(lia)) as (p & q & -> & Zp).
    assert (Np : ~ In 10 p) by (intros X; apply N; apply in_app_iff; now left).
    assert (Nq : ~ In 10 q) by (intros X; apply N; apply in_app_iff; now right).
    assert (Pp : p <> []) by (intros ->; rewrite zlen_nil in Zp; lia).
    cbn [bz_loop]. unfold bz_gets. rewrite EL. destruct (Z.leb_spec (zlen junk) 0); [lia|].
    rewrite R, B. destruct (bz_run0 (bad f) (zlen junk) p d junk q Np ltac:(lia) ltac:(lia)) as (j & E & Zj). rewrite E. clear E.
    assert (Ef : forall l1 b, bz_gets_loop (bad f) l1 b (zlen d) (zlen junk) (zlen p) = Ok (zlen p, b, l1)).
    { intros l1 b. destruct l1; cbn [bz_gets_loop]; (destruct (Z.ltb_spec (zlen p) (zlen junk - 1)); [lia|reflexivity]). }
    rewrite Ef. cbn [bind]. destruct (Z.eqb_spec (zlen p) 0); [lia|]. destruct (Z.ltb_spec (zlen p) 0); [lia|].
    rewrite <- zlen_app, cell_end by assumption. cbn [bind]. rewrite last_no10 by assumption.
    assert (Zb : zlen (cells (d ++ p) ++ j) = sz f) by (rewrite zlen_app, zlen_cells, zlen_app; lia). rewrite grow_ok by assumption.
    destruct (IH q) with (fuel := fuel) (f := {| sz := sz f * 2; buf := cells (d ++ p) ++ j ++ alloc (sz f); rest := q; bad := bad f |}) (d := d ++ p) (junk := j ++ alloc (sz f)) as (f' & E' & A1 & A2 & A3); try assumption; try reflexivity.
    + rewrite app_length. destruct p; [contradiction|]. cbn [length]. lia.
    + now apply sized_double.
    + rewrite zlen_app, zlen_alloc by lia. pose proof (zlen_pos j). lia.
    + rewrite app_length in F. destruct p; [contradiction|]. cbn [length] in F. lia.
    + exists f'. rewrite <- !app_assoc in *. now repeat split.
Qed.

(** ** All lines *)
Section Iter.
Context (gl : nat -> file -> res (Z * file)) (fine : file -> Prop) (lok tok : list Z -> Prop).
Context (HL : forall fuel f l r, fine f -> rest f = l ++ 10 :: r -> ~ In 10 l -> lok l -> (length l < fuel)%nat ->
  exists f', gl fuel f = Ok (zlen (l ++ [10]), f') /\ rest f' = r /\ bad f' = bad f /\ fine f' /\ exists junk, buf f' = cells (l ++ [10]) ++ junk).
Context (HT : forall fuel f t, fine f -> rest f = t -> ~ In 10 t -> tok t -> (S (length t) < fuel)%nat ->
  exists f', gl fuel f = (if bad f then Raise OtherError else if zlen t =? 0 then Ok (-1, f') else Ok (zlen t, f')) /\
    rest f' = [] /\ bad f' = bad f /\ exists junk, buf f' = cells t ++ junk).
Context (HE : forall fuel f, rest f = [] -> bad f = false -> (0 < fuel)%nat -> exists f', gl fuel f = Ok (-1, f') /\ rest f' = []).

Definition shown (trim : bool) (l : list Z) : list Z := if trim then without_newline l else l.
Lemma iter_yield trim n f rd f' l junk : gl (S n) f = Ok (rd, f') -> rd = zlen l -> l <> [] -> buf f' = cells l ++ junk ->
  iter gl trim (S n) f = let (ls, e) := iter gl trim n f' in (shown trim l :: ls, e).
Proof.
  intros E -> N B. cbn [iter]. rewrite E. pose proof (zlen_pos l). destruct (Z.eqb_spec (zlen l) (-1)); [lia|]. rewrite B. destruct trim; cbn [shown bind].
  - assert (C := cell_end [] l junk N). cbn [app] in C. rewrite C. cbn [bind]. unfold without_newline.
    assert (El := app_removelast_last 0 N). destruct (Z.eqb_spec (last l 0) 10).
    + assert (B' : cells l ++ junk = cells (removelast l) ++ Some (last l 0) :: junk).
      { rewrite El at 1. rewrite cells_app, <- app_assoc. reflexivity. }
      rewrite B'. replace (zlen l - 1) with (zlen (removelast l)) by (rewrite El at 2; rewrite zlen_snoc; lia).
      rewrite str_whole. reflexivity.
    + rewrite str_whole. reflexivity.
  - rewrite str_whole. reflexivity.
Qed.
Lemma iter_ok trim content ls t : splits content ls t -> forall f fuel, rest f = content -> fine f -> tok t ->
  Forall (fun l => lok (removelast l)) ls -> (length content + 2 < fuel)%nat ->
  if bad f then iter gl trim fuel f = (map (shown trim) ls, Raise OtherError)
  else exists f', iter gl trim fuel f = (map (shown trim) (all_lines ls t), Ok f') /\ rest f' = [].
Proof.
  induction 1 as [t Nt|l r ls t Nl Sr IH]; intros f fuel R Fi T A F.
  - destruct fuel as [|n]; [lia|]. destruct (HT (S n) f t Fi R Nt T ltac:(lia)) as (f' & E & R' & B' & junk & Bj). destruct (bad f) eqn:D.
    + cbn [iter]. rewrite E. reflexivity.
    + destruct (Z.eqb_spec (zlen t) 0) as [Z0|Z0].
      * apply zlen_eq0 in Z0. rewrite Z0. exists f'. cbn [iter]. rewrite E. now split.
      * assert (Nt' : t <> []) by (intros ->; now apply Z0). rewrite (iter_yield trim n f (zlen t) f' t junk E eq_refl Nt' Bj).
        destruct n as [|n]; [lia|]. destruct (HE (S n) f' R' B' ltac:(lia)) as (f2 & E2 & R2). cbn [iter]. rewrite E2. exists f2.
        destruct t; [contradiction|]. now split.
  - destruct fuel as [|n]; [lia|]. inversion A as [|? ? Al Als]; subst. rewrite removelast_last in Al. rewrite app_length in F. cbn [length] in F.
    destruct (HL (S n) f l r Fi R Nl Al ltac:(lia)) as (f' & E & R' & B' & Fi' & junk & Bj).
    rewrite (iter_yield trim n f _ f' (l ++ [10]) junk E eq_refl ltac:(now destruct l) Bj). specialize (IH f' n R' Fi' T Als ltac:(lia)). rewrite B' in IH.
    destruct (bad f).
    + rewrite IH. reflexivity.
    + destruct IH as (f2 & E2 & R2). exists f2. rewrite E2. split; [|assumption]. destruct t; reflexivity.
Qed.
Lemma read_ok content ls t f fuel : splits content ls t -> rest f = content -> fine f -> tok t ->
  Forall (fun l => lok (removelast l)) ls -> (length content + 2 < fuel)%nat ->
  read_all gl fuel f = if bad f then Raise OtherError else Ok content.
Proof.
  intros Sp R Fi T A F. assert (H := iter_ok false content ls t Sp f fuel R Fi T A F). unfold read_all. destruct (bad f).
  - rewrite H. reflexivity.
  - destruct H as (f' & E & _). rewrite E. cbn [bind]. f_equal. cbn [shown]. rewrite map_ext with (g := fun l => l) by reflexivity. rewrite map_id.
    clear -Sp. induction Sp as [t|l r ls t Nl Sr IH]; [destruct t; [reflexivity|]; cbn; now rewrite app_nil_r|].
    replace (all_lines ((l ++ [10]) :: ls) t) with ((l ++ [10]) :: all_lines ls t) by (destruct t; reflexivity). cbn [concat]. rewrite IH, <- app_assoc. reflexivity.
Qed.
End Iter.

(** Instances *)
Definition gz_fine (f : file) : Prop := buf f = [] \/ (sized f /\ sz f <= 2 ^ 30).
Definition bz_fine (f : file) : Prop := buf f = [] \/ sized f.
Lemma start_sized f : buf f = [] \/ sized f -> sized (with_buffer f) /\ rest (with_buffer f) = rest f /\ bad (with_buffer f) = bad f.
Proof.
  intros H. unfold with_buffer. destruct (buf f) as [|c b] eqn:B.
  - split; [|now split]. exists 0. cbn [sz buf]. split; [lia|]. split; [reflexivity|]. apply zlen_alloc. lia.
  - destruct H as [H|H]; [congruence|]. now split.
Qed.
Lemma gz_start f : gz_fine f -> sized (with_buffer f) /\ sz (with_buffer f) <= 2 ^ 30 /\ rest (with_buffer f) = rest f /\ bad (with_buffer f) = bad f.
Proof.
  intros H. assert (H' : buf f = [] \/ sized f) by (destruct H as [H|[H _]]; auto). destruct (start_sized f H') as (A & B & C). split; [assumption|].
  split; [|now split]. unfold with_buffer. destruct H as [H|[_ H]]; [rewrite H; cbn; lia|]. destruct (buf f); [cbn; lia|assumption].
Qed.
Definition gz_lok (l : list Z) : Prop := nonzero l /\ zlen l + 1 < 2 ^ 30.
Definition gz_tok (l : list Z) : Prop := nonzero l /\ zlen l < 2 ^ 30.
Lemma gz_HL fuel f l r : gz_fine f -> rest f = l ++ 10 :: r -> ~ In 10 l -> gz_lok l -> (length l < fuel)%nat ->
  exists f', gz_getline fuel f = Ok (zlen (l ++ [10]), f') /\ rest f' = r /\ bad f' = bad f /\ gz_fine f' /\ exists junk, buf f' = cells (l ++ [10]) ++ junk.
Proof.
  intros H R N (NZ & L) F. destruct (gz_start f H) as (S & S30 & Rw & Bw). pose proof (sized_128 _ S).
  destruct (gz_line 30 l (or_introl eq_refl) fuel (with_buffer f) [] (buf (with_buffer f)) r) as (f' & E & A1 & A2 & A3 & A4 & j & A5 & _); try assumption; try reflexivity.
  - now rewrite Rw.
  - destruct S as (k & _ & _ & Lb). lia.
  - exists f'. split; [exact E|]. split; [assumption|]. split; [congruence|]. split; [now right|now exists j].
Qed.
Lemma gz_HT fuel f t : gz_fine f -> rest f = t -> ~ In 10 t -> gz_tok t -> (S (length t) < fuel)%nat ->
  exists f', gz_getline fuel f = (if bad f then Raise OtherError else if zlen t =? 0 then Ok (-1, f') else Ok (zlen t, f')) /\
    rest f' = [] /\ bad f' = bad f /\ exists junk, buf f' = cells t ++ junk.
Proof.
  intros H R N (NZ & L) F. destruct (gz_start f H) as (S & S30 & Rw & Bw). pose proof (sized_128 _ S).
  destruct (gz_tail t fuel (with_buffer f) [] (buf (with_buffer f))) as (f' & E & A1 & A2 & j & A3 & _); try assumption; try reflexivity.
  - now rewrite Rw.
  - destruct S as (k & _ & _ & Lb). lia.
  - exists f'. rewrite Bw in *. split; [exact E|]. split; [assumption|]. split; [congruence|]. now exists j.
Qed.
Lemma gz_HE fuel f : rest f = [] -> bad f = false -> (0 < fuel)%nat -> exists f', gz_getline fuel f = Ok (-1, f') /\ rest f' = [].
Proof.
  intros R B F. destruct fuel as [|n]; [lia|]. exists (with_buffer f). assert (Rw : rest (with_buffer f) = []) by (unfold with_buffer; destruct (buf f); assumption).
  assert (Bw : bad (with_buffer f) = false) by (unfold with_buffer; destruct (buf f); assumption). split; [|assumption].
  unfold gz_getline. assert (E := gz_end n (with_buffer f) [] (buf (with_buffer f)) Rw eq_refl). rewrite Bw in E. exact E.
Qed.
Lemma bz_HL fuel f l r : bz_fine f -> rest f = l ++ 10 :: r -> ~ In 10 l -> True -> (length l < fuel)%nat ->
  exists f', bz_getline fuel f = Ok (zlen (l ++ [10]), f') /\ rest f' = r /\ bad f' = bad f /\ bz_fine f' /\ exists junk, buf f' = cells (l ++ [10]) ++ junk.
Proof.
  intros H R N _ F. destruct (start_sized f H) as (S & Rw & Bw). pose proof (sized_128 _ S).
  destruct (bz_line l fuel (with_buffer f) [] (buf (with_buffer f)) r) as (f' & E & A1 & A2 & A3 & A5); try assumption; try reflexivity.
  - now rewrite Rw.
  - destruct S as (k & _ & _ & Lb). lia.
  - exists f'. split; [exact E|]. split; [assumption|]. split; [congruence|]. split; [now right|assumption].
Qed.
Lemma bz_HT fuel f t : bz_fine f -> rest f = t -> ~ In 10 t -> True -> (S (length t) < fuel)%nat ->
  exists f', bz_getline fuel f = (if bad f then Raise OtherError else if zlen t =? 0 then Ok (-1, f') else Ok (zlen t, f')) /\
    rest f' = [] /\ bad f' = bad f /\ exists junk, buf f' = cells t ++ junk.
Proof.
  intros H R N _ F. destruct (start_sized f H) as (S & Rw & Bw). pose proof (sized_128 _ S).
  destruct (bz_tail t fuel (with_buffer f) [] (buf (with_buffer f))) as (f' & E & A1 & A2 & j & A3 & _); try assumption; try reflexivity.
  - now rewrite Rw.
  - destruct S as (k & _ & _ & Lb). lia.
  - exists f'. rewrite Bw in *. split; [exact E|]. split; [assumption|]. split; [congruence|]. now exists j.
Qed.
Lemma bz_HE fuel f : rest f = [] -> bad f = false -> (0 < fuel)%nat -> exists f', bz_getline fuel f = Ok (-1, f') /\ rest f' = [].
Proof.
  intros R B F. destruct fuel as [|n]; [lia|]. assert (Rw : rest (with_buffer f) = []) by (unfold with_buffer; destruct (buf f); assumption).
  assert (Bw : bad (with_buffer f) = false) by (unfold with_buffer; destruct (buf f); assumption).
  unfold bz_getline. cbn [bz_loop]. unfold bz_gets. rewrite Rw, Bw. cbn [bz_gets_loop].
  destruct (sz (with_buffer f) - 0 <=? 0); [|destruct (0 <? sz (with_buffer f) - 0 - 1)]; cbn [bind Z.eqb]; eexists; split; reflexivity.
Qed.

(** After a line of 2^30 bytes nothing more is read. *)
Lemma gz_stop fuel f : sz f = 2 ^ 31 -> buf f <> [] -> bad f = false -> gz_getline (S fuel) f = Ok (-1, f).
Proof.
  intros Z0 B D. unfold gz_getline, with_buffer. destruct (buf f) eqn:E; [contradiction|]. cbn [gz_loop]. rewrite Z0, Z.sub_0_r, i32_top.
  unfold gzgets, gz_failed. cbn. now rewrite D.
Qed.
Lemma gz_long l r n : ~ In 10 l -> nonzero l -> zlen l + 1 = 2 ^ 30 -> (length l < n)%nat ->
  exists f', iter gz_getline false (S n) (opened (l ++ 10 :: r) false) = ([l ++ [10]], Ok f') /\ rest f' = r.
Proof.
  intros N NZ L F. set (f := opened (l ++ 10 :: r) false).
  destruct (gz_line 31 l (or_intror eq_refl) (S n) (with_buffer f) [] (buf (with_buffer f)) r) as (f' & E & A1 & A2 & A3 & A4 & j & A5 & A6); try assumption; try reflexivity.
  - apply start_sized. now left.
  - change (128 <= 2 ^ 31). lia.
  - change (buf (with_buffer f)) with (alloc 128). rewrite zlen_alloc; lia.
  - cbn [app]. lia.
  - lia.
  - cbn [app] in *. exists f'. split; [|assumption]. rewrite (iter_yield gz_getline false n f (zlen (l ++ [10])) f' (l ++ [10]) j E eq_refl ltac:(now destruct l) A5).
    destruct n as [|n]; [lia|]. cbn [iter]. rewrite gz_stop; [reflexivity| | |].
    + destruct A3 as (k & Kk & Ek & Lb). rewrite A5, zlen_app, zlen_cells, zlen_snoc in Lb.
      assert (2 ^ 30 < sz f') by lia. rewrite Ek in *. assert (30 < 7 + k) by (apply (Z.pow_lt_mono_r_iff 2); lia).
      assert (7 + k <= 31) by (apply (Z.pow_le_mono_r_iff 2); lia). f_equal. lia.
    + rewrite A5. now destruct l.
    + rewrite A2. reflexivity.
Qed.
Lemma splits_exists c : exists ls t, splits c ls t.
Proof.
  assert (H : forall n c, (length c <= n)%nat -> exists ls t, splits c ls t); [|exact (H (length c) c (le_n _))].
  clear c. induction n as [|n IH]; intros c L.
  - destruct c; [|cbn in L; lia]. exists [], []. constructor. intros [].
  - destruct (in_dec Z.eq_dec 10 c) as [I|I]; [|exists [], c; now constructor].
    assert (W : exists a b, c = a ++ 10 :: b /\ ~ In 10 a).
    { clear -I. induction c as [|x c IH]; [destruct I|]. destruct (Z.eq_dec x 10) as [->|Nx]; [exists [], c; split; [reflexivity|intros []]|].
      destruct I as [I|I]; [contradiction|]. destruct (IH I) as (a & b & -> & Na). exists (x :: a), b. split; [reflexivity|]. intros [C|C]; auto. }
    destruct W as (a & b & -> & Na). rewrite app_length in L. cbn [length] in L. destruct (IH b ltac:(lia)) as (ls & t & S). exists ((a ++ [10]) :: ls), t. now constructor.
Qed.
Lemma split_at a b a' b' : ~ In 10 a -> ~ In 10 a' -> a ++ 10 :: b = a' ++ 10 :: b' -> a = a' /\ b = b'.
Proof.
  revert a'. induction a as [|x a IH]; intros a' N N' E; destruct a' as [|x' a']; cbn in E; inversion E; subst.
  - now split.
  - exfalso. apply N'. now left.
  - exfalso. apply N. now left.
  - destruct (IH a') as (-> & ->); [intros C; apply N; now right|intros C; apply N'; now right|assumption|]. now split.
Qed.
Lemma splits_unique c ls t : splits c ls t -> forall ls' t', splits c ls' t' -> ls = ls' /\ t = t'.
Proof.
  induction 1 as [t Nt|l r ls t Nl Sr IH]; intros ls' t' H.
  - inversion H as [t0 N0|l r ls0 t0 Nl Sr]; subst; [now split|]. exfalso. apply Nt. apply in_app_iff. right. now left.
  - inversion H as [t0 N0|l' r' ls0 t0 Nl' Sr' Ec]; subst.
    + exfalso. apply N0. apply in_app_iff. right. now left.
    + destruct (split_at l' r' l r Nl' Nl Ec) as (-> & ->). destruct (IH ls0 t' Sr') as (-> & ->). now split.
Qed.
