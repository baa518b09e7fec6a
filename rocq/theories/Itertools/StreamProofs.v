(** Proofs about the functions of itertools that consume generators. *)
From Coq Require Import List ZArith Bool Arith Lia Sorting.Sorted.
From Verif.Common Require Import Result Arr Int64.
From Verif.Itertools Require Import CombModel CombProofs StreamModel StreamSpec.
Import ListNotations.

(** ** count, cycle, repeat *)

Lemma count_take_ok k n step :
  in64 n -> count_take k n step = map (fun i => w64 (n + Z.of_nat i * step)) (seq 0 k).
Proof.
  revert n. induction k as [|k IH]; intros n H; [reflexivity|]. simpl. f_equal.
  - rewrite Z.add_0_r. now rewrite w64_id.
  - rewrite IH by apply w64_in. rewrite <- seq_shift, map_map. apply map_ext. intros i.
    rewrite w64_add_l. f_equal. rewrite Nat2Z.inj_succ. ring.
Qed.

Lemma cycle_saved_ok {A} k (s t todo : list A) :
  s <> [] -> t ++ todo = s ->
  forall i, i < k ->
  nth_error (cycle_saved k s todo) i = nth_error s ((length t + i) mod length s).
Proof.
  intros Hs. revert t todo. induction k as [|k IH]; intros t todo E i Hi; [lia|].
  assert (L : 0 < length s) by (destruct s; [congruence|simpl; lia]).
  destruct todo as [|x todo].
  - rewrite app_nil_r in E. subst t. simpl. destruct s as [|x s]; [congruence|].
    destruct i as [|i]; simpl nth_error at 1.
    + rewrite Nat.add_0_r, Nat.mod_same by (simpl; lia). reflexivity.
    + rewrite (IH [x] s eq_refl i) by lia. f_equal.
      replace (length (x :: s) + S i) with (length [x] + i + 1 * length (x :: s)) by (simpl; lia).
      now rewrite Nat.mod_add by (simpl; lia).
  - simpl. destruct i as [|i].
    + simpl. rewrite Nat.add_0_r. subst s. rewrite Nat.mod_small by (rewrite app_length; simpl; lia).
      rewrite nth_error_app2 by lia. now rewrite Nat.sub_diag.
    + simpl. rewrite (IH (t ++ [x]) todo); [|now rewrite <- app_assoc|lia].
      rewrite app_length. simpl. f_equal. f_equal. lia.
Qed.

Lemma cycle_take_ok {A} k (saved rest : list A) :
  saved ++ rest <> [] ->
  forall i, i < k ->
  nth_error (cycle_take k rest saved) i =
  if i <? length rest then nth_error rest i
  else nth_error (saved ++ rest) ((i - length rest) mod length (saved ++ rest)).
Proof.
  revert saved rest. induction k as [|k IH]; intros saved rest Hs i Hi; [lia|].
  destruct rest as [|x rest].
  - simpl cycle_take. rewrite app_nil_r in *.
    change (nth_error (cycle_saved (S k) saved []) i = nth_error saved ((i - 0) mod length saved)).
    rewrite (cycle_saved_ok (S k) saved saved [] Hs) by (rewrite ?app_nil_r; auto).
    f_equal. rewrite Nat.sub_0_r.
    assert (length saved <> 0) by (destruct saved; [congruence|discriminate]).
    replace (length saved + i) with (i + 1 * length saved) by lia. now rewrite Nat.mod_add.
  - simpl cycle_take. destruct i as [|i]; [reflexivity|].
    simpl nth_error at 1. rewrite IH; [|rewrite <- app_assoc; exact Hs|lia].
    rewrite <- app_assoc. simpl.
    change (S i <? S (length rest)) with (i <? length rest).
    destruct (i <? length rest); reflexivity.
Qed.

Lemma cycle_take_length {A} k (saved rest : list A) :
  saved ++ rest <> [] -> length (cycle_take k rest saved) = k.
Proof.
  revert saved rest. induction k as [|k IH]; intros saved rest Hs; [reflexivity|].
  destruct rest as [|x rest]; simpl.
  - rewrite app_nil_r in Hs. destruct saved as [|x s]; [congruence|]. simpl. f_equal.
    assert (G : forall k todo, length (cycle_saved k (x :: s) todo) = k).
    { clear. induction k as [|k IH]; intros todo; [reflexivity|]. destruct todo; simpl; now rewrite IH. }
    apply G.
  - f_equal. apply IH. rewrite <- app_assoc. exact Hs.
Qed.

Lemma repeat_take_ok {A} k (x : A) : repeat_take k x = repeat x k.
Proof. induction k; simpl; congruence. Qed.

(** ** accumulate, chain, compress, dropwhile, filterfalse, takewhile, starmap *)

Lemma accumulate_init_ok {A B} (func : B -> A -> B) initial c l :
  accumulate_init func initial (Sus c l) =
  Ok (map (fun i => fold_left func (firstn i l) initial) (seq 0 (S (length l))), Des).
Proof.
  unfold accumulate_init. simpl for_gen. cbn [bind].
  assert (G : forall l t out,
    for_rest (fun (element : A) (s : B * list B) =>
      let '(total, out0) := s in (func total element, out0 ++ [func total element], false)) l (t, out) =
    (fold_left func l t,
     out ++ map (fun i => fold_left func (firstn i l) t) (seq 1 (length l)), Des)).
  { clear. induction l as [|x l IH]; intros t out; simpl; [now rewrite app_nil_r|].
    rewrite IH. f_equal. f_equal. rewrite <- app_assoc. simpl. do 2 f_equal.
    rewrite <- (seq_shift (length l) 1), map_map. reflexivity. }
  rewrite G. reflexivity.
Qed.

Lemma accumulate_ok {A} (func : A -> A -> A) c x l :
  accumulate func (Sus c (x :: l)) =
  Ok (map (fun i => fold_left func (firstn i l) x) (seq 0 (S (length l))), Des).
Proof.
  unfold accumulate. simpl for_gen. cbn [bind].
  assert (G : forall l t out,
    for_rest (fun (element : A) (s : option A * list A) =>
      let '(total, out0) := s in
      (Some match total with Some t => func t element | None => element end,
       out0 ++ [match total with Some t => func t element | None => element end], false)) l (Some t, out) =
    (Some (fold_left func l t),
     out ++ map (fun i => fold_left func (firstn i l) t) (seq 1 (length l)), Des)).
  { clear. induction l as [|x l IH]; intros t out; simpl; [now rewrite app_nil_r|].
    rewrite IH. f_equal. f_equal. rewrite <- app_assoc. simpl. do 2 f_equal.
    rewrite <- (seq_shift (length l) 1), map_map. reflexivity. }
  rewrite G. reflexivity.
Qed.

Lemma for_app {A B} (f : A -> list B) l out :
  for_rest (fun x out => (out ++ f x, false)) l out = (out ++ flat_map f l, Des).
Proof.
  revert out. induction l as [|x l IH]; intros out; simpl; [now rewrite app_nil_r|].
  rewrite IH. now rewrite <- app_assoc.
Qed.

Lemma flat_map_single {A} (l : list A) : flat_map (fun x => [x]) l = l.
Proof. induction l; simpl; congruence. Qed.

Lemma chain_ok {A} (ls : list (option A * list A)) :
  chain (map (fun cl => Sus (fst cl) (snd cl)) ls) =
  Ok (concat (map snd ls), map (fun _ => Des) ls).
Proof.
  induction ls as [|[c l] ls IH]; [reflexivity|]. simpl.
  rewrite (for_app (fun x => [x])), flat_map_single, IH. reflexivity.
Qed.

Lemma zip2_rest_combine {A B} (la : list A) (lb : list B) : zip2_rest la lb = combine la lb.
Proof. revert lb. induction la as [|x la IH]; intros [|y lb]; simpl; congruence. Qed.

Lemma filterfalse_ok {A} (p : A -> bool) c l :
  filterfalse p (Sus c l) = Ok (filter (fun x => negb (p x)) l, Des).
Proof.
  unfold filterfalse. simpl. f_equal.
  assert (G : forall l out, for_rest (fun x out => (if negb (p x) then out ++ [x] else out, false)) l out =
    (out ++ filter (fun x => negb (p x)) l, Des)).
  { clear. induction l as [|x l IH]; intros out; simpl; [now rewrite app_nil_r|].
    rewrite IH. destruct (negb (p x)); [now rewrite <- app_assoc|reflexivity]. }
  apply (G l []).
Qed.

Lemma starmap_ok {A B} (f : A -> B) c l : starmap f (Sus c l) = Ok (map f l, Des).
Proof.
  unfold starmap. simpl. rewrite (for_app (fun x => [f x])).
  assert (E : flat_map (fun x => [f x]) l = map f l) by (induction l; simpl; congruence).
  simpl. now rewrite E.
Qed.

Lemma takewhile_ok {A} (p : A -> bool) c a b :
  Forall (fun x => p x = true) a ->
  match b with [] => True | x :: _ => p x = false end ->
  takewhile p (Sus c (a ++ b)) =
  Ok (a, match b with [] => Des | x :: r => Sus (Some x) r end).
Proof.
  intros Ha Hb. unfold takewhile. simpl. f_equal.
  assert (G : forall out,
    for_rest (fun x out => if p x then (out ++ [x], false) else (out, true)) (a ++ b) out =
    (out ++ a, match b with [] => Des | x :: r => Sus (Some x) r end)).
  { induction Ha as [|x a Hx Ha IH]; intros out; simpl.
    - rewrite app_nil_r. destruct b as [|y b]; [reflexivity|]. simpl. now rewrite Hb.
    - rewrite Hx. rewrite IH. now rewrite <- app_assoc. }
  apply (G []).
Qed.

Lemma dropwhile_ok {A} (p : A -> bool) c a b :
  Forall (fun x => p x = true) a ->
  match b with [] => True | x :: _ => p x = false end ->
  dropwhile p (Sus c (a ++ b)) = Ok (b, Des).
Proof.
  intros Ha Hb. unfold dropwhile. simpl for_gen. cbn [bind].
  set (body := fun (x : A) (s : bool * list A) =>
    let '(b0, out) := s in
    (if negb b0 && negb (p x) then true else b0,
     if if negb b0 && negb (p x) then true else b0 then out ++ [x] else out, false)).
  assert (G1 : forall l out, for_rest body l (true, out) = (true, out ++ l, Des)).
  { clear. induction l as [|x l IH]; intros out; simpl; [now rewrite app_nil_r|].
    rewrite IH. now rewrite <- app_assoc. }
  assert (G : for_rest body (a ++ b) (false, []) =
              (match b with [] => false | _ => true end, b, Des)).
  { induction Ha as [|x a Hx Ha IH]; simpl.
    - destruct b as [|y b]; [reflexivity|]. simpl. rewrite Hb. simpl. now rewrite G1.
    - rewrite Hx. simpl. exact IH. }
  rewrite G. reflexivity.
Qed.

(** ** groupby *)

Lemma groupby_ok {A K} (ne : K -> K -> bool) (key : A -> K) c l :
  (forall k, ne k k = false) ->
  exists gs, groupby ne key (Sus c l) = Ok (gs, Des) /\ runs ne key None gs l.
Proof.
  intros Hr. unfold groupby. simpl for_gen. cbn [bind].
  set (body := fun (currvalue : A) (s : option K * list A * list (K * list A)) =>
    let '(currkey, group, out) := s in _).
  (* inside a group with key [k] and members [x :: g] *)
  assert (G : forall l k x g out p,
    key x = k -> Forall (fun y => ne (key y) k = false) (x :: g) ->
    match p with None => True | Some k0 => ne k k0 = true end ->
    exists gs k' g', for_rest body l (Some k, x :: g, out) = (Some k', g', out ++ gs, Des) /\
      runs ne key p (gs ++ [(k', g')]) ((x :: g) ++ l)).
  { clear c l. induction l as [|y l IH]; intros k x g out p E F Hp.
    - exists [], k, (x :: g). split; [simpl; now rewrite app_nil_r|].
      simpl. apply runs_cons; auto. constructor.
    - simpl. destruct (ne (key y) k) eqn:N.
      + destruct (IH (key y) y [] (out ++ [(k, x :: g)]) (Some k)) as (gs & k' & g' & E1 & R).
        * reflexivity.
        * constructor; [apply Hr|constructor].
        * exact N.
        * exists ((k, x :: g) :: gs), k', g'. rewrite E1. split; [now rewrite <- app_assoc|].
          simpl. apply runs_cons; auto.
      + destruct (IH k x (g ++ [y]) out p E) as (gs & k' & g' & E1 & R).
        * inversion F; subst. constructor; auto. apply Forall_app. auto.
        * exact Hp.
        * exists gs, k', g'. simpl in E1. rewrite E1. split; [reflexivity|].
          simpl in R. rewrite <- app_assoc in R. exact R. }
  destruct l as [|x l].
  - exists []. split; [reflexivity|constructor].
  - simpl. rewrite Hr.
    destruct (G l (key x) x [] [] None eq_refl) as (gs & k' & g' & E1 & R).
    + constructor; [apply Hr|constructor].
    + exact I.
    + simpl in E1. rewrite E1. exists (gs ++ [(k', g')]). split; [reflexivity|exact R].
Qed.

(** ** islice *)

Fixpoint select {A} (p : Z -> bool) (i : Z) (l : list A) : list A :=
  match l with
  | [] => []
  | x :: l => if p i then x :: select p (i + 1) l else select p (i + 1) l
  end.

Lemma select_at {A} (p : Z -> bool) (l : list A) : at_indices p l = select p 0 l.
Proof.
  unfold at_indices. change 0%Z with (Z.of_nat 0).
  generalize 0 at 1 2. induction l as [|x l IH]; intros k; [reflexivity|]. simpl.
  destruct (p (Z.of_nat k)); simpl; rewrite IH; replace (Z.of_nat k + 1)%Z with (Z.of_nat (S k)) by lia; reflexivity.
Qed.

Lemma select_ext {A} (p q : Z -> bool) (l : list A) i :
  (forall j, (i <= j < i + Z.of_nat (length l))%Z -> p j = q j) -> select p i l = select q i l.
Proof.
  revert i. induction l as [|x l IH]; intros i H; [reflexivity|]. simpl in *.
  rewrite (H i) by lia. rewrite (IH (i + 1)%Z); [reflexivity|]. intros j Hj. apply H. lia.
Qed.

Lemma select_none {A} (p : Z -> bool) (l : list A) i :
  (forall j, (i <= j)%Z -> p j = false) -> select p i l = [].
Proof.
  revert i. induction l as [|x l IH]; intros i H; [reflexivity|]. simpl.
  rewrite H by lia. apply IH. intros; apply H; lia.
Qed.

Lemma islice_stop_ok {A} c (l : list A) stop :
  (0 <= stop)%Z ->
  islice_stop (Sus c l) (Some stop) =
  Ok (firstn (Z.to_nat stop) l,
      match skipn (Z.to_nat stop) l with [] => Des | x :: r => Sus (Some x) r end).
Proof.
  intros Hs. unfold islice_stop. destruct (Z.ltb_spec stop 0); [lia|]. simpl for_gen. cbn [bind].
  set (body := fun (x : A) (s : Z * list A) => _).
  assert (G : forall l i out, (0 <= i)%Z ->
    exists i', for_rest body l (i, out) =
      (i', out ++ firstn (Z.to_nat (stop - i)) l,
       match skipn (Z.to_nat (stop - i)) l with [] => Des | x :: r => Sus (Some x) r end)).
  { clear l c. induction l as [|x l IH]; intros i out Hi.
    - exists i. rewrite firstn_nil, skipn_nil, app_nil_r. reflexivity.
    - simpl. destruct (Z.leb_spec stop i).
      + exists i. replace (Z.to_nat (stop - i)) with 0 by lia. simpl. now rewrite app_nil_r.
      + destruct (IH (i + 1)%Z (out ++ [x]) ltac:(lia)) as (i' & E). exists i'. rewrite E.
        replace (Z.to_nat (stop - i)) with (S (Z.to_nat (stop - (i + 1)))) by lia.
        simpl. now rewrite <- app_assoc. }
  destruct (G l 0%Z [] ltac:(lia)) as (i' & E). rewrite E. rewrite Z.sub_0_r. reflexivity.
Qed.

Lemma islice_stop_none {A} c (l : list A) : islice_stop (Sus c l) None = Ok (l, Des).
Proof.
  unfold islice_stop. simpl for_gen. cbn [bind].
  assert (G : forall l i out, exists i', for_rest (fun (x : A) (s : Z * list A) =>
      let '(i, out) := s in ((i + 1)%Z, out ++ [x], false)) l (i, out) = (i', out ++ l, Des)).
  { clear. induction l as [|x l IH]; intros i out; simpl; [exists i; now rewrite app_nil_r|].
    destruct (IH (i + 1)%Z (out ++ [x])) as (i' & E). exists i'. rewrite E. now rewrite <- app_assoc. }
  destruct (G l 0%Z []) as (i' & E). rewrite E. reflexivity.
Qed.

Lemma skip_zip_ok {A} k c (l : list A) : skip_zip k (Sus c l) = Ok Des.
Proof. reflexivity. Qed.

Section Islice.
Context {A : Type} (start stop step : Z).
Context (Hstart : (0 <= start)%Z) (Hlt : (start < stop)%Z) (Hstep : (0 < step)%Z).
Local Notation N := (range_len start stop step).
Local Notation p := (in_slice start (Some stop) step).

Lemma N_eq : N = (1 + (stop - 1 - start) / step)%Z.
Proof.
  unfold range_len. destruct (Z.ltb_spec 0 step); [|lia]. destruct (Z.ltb_spec start stop); [|lia].
  reflexivity.
Qed.

Lemma N_last : (start + (N - 1) * step < stop)%Z.
Proof.
  rewrite N_eq. pose proof (Z.div_mod (stop - 1 - start) step ltac:(lia)) as D.
  pose proof (Z.mod_pos_bound (stop - 1 - start) step Hstep). nia.
Qed.

Lemma N_beyond : (stop <= start + N * step)%Z.
Proof.
  rewrite N_eq. pose proof (Z.div_mod (stop - 1 - start) step ltac:(lia)) as D.
  pose proof (Z.mod_pos_bound (stop - 1 - start) step Hstep). nia.
Qed.

Lemma p_at idx : (0 <= idx < N)%Z -> p (start + idx * step) = true.
Proof.
  intros H. unfold in_slice. pose proof N_last.
  destruct (Z.leb_spec start (start + idx * step)); [|nia].
  destruct (Z.ltb_spec (start + idx * step) stop); [|nia].
  replace (start + idx * step - start)%Z with (idx * step)%Z by lia.
  rewrite Z.mod_mul by lia. reflexivity.
Qed.

Lemma p_between idx i :
  (i < start + idx * step)%Z -> (0 <= idx)%Z ->
  (start + (idx - 1) * step < i)%Z \/ (idx = 0)%Z -> p i = false.
Proof.
  intros H1 H0 H2. unfold in_slice.
  destruct (Z.leb_spec start i) as [L|]; [|reflexivity]. simpl.
  destruct (i <? stop)%Z; [simpl|reflexivity].
  apply Z.eqb_neq. intros E.
  apply Z.mod_divide in E; [|lia]. destruct E as (q & E).
  destruct H2 as [H2|H2]; [|nia].
  assert (q < idx)%Z by nia. assert (idx - 1 < q)%Z by nia. lia.
Qed.

Lemma p_beyond i : (start + (N - 1) * step < i)%Z -> p i = false.
Proof.
  intros H. unfold in_slice.
  destruct (Z.leb_spec start i) as [L|]; [|reflexivity]. simpl.
  destruct (Z.ltb_spec i stop) as [L2|]; [|reflexivity]. simpl.
  apply Z.eqb_neq. intros E. pose proof N_beyond.
  apply Z.mod_divide in E; [|lia]. destruct E as (q & E).
  assert (q < N)%Z by nia. assert (N - 1 < q)%Z by nia. lia.
Qed.

Lemma islice_loop (l : list A) i idx out :
  (0 <= i)%Z -> (0 <= idx < N)%Z -> (i <= start + idx * step)%Z ->
  (start + (idx - 1) * step < i)%Z \/ (idx = 0)%Z ->
  exists i' n' x' b' g,
    for_rest (islice_body start step N) l (i, (start + idx * step)%Z, idx, out, (-1)%Z) =
      (i', n', x', out ++ select p i l, b', g) /\
    ((b' = -1)%Z /\ g = Des \/ (0 <= b')%Z /\ exists c r, g = Sus c r).
Proof.
  revert i idx out. induction l as [|x l IH]; intros i idx out Hi Hx Hle Hlo.
  - do 5 eexists. split; [simpl; rewrite app_nil_r; reflexivity|]. now left.
  - simpl. destruct (Z.eqb_spec i (start + idx * step)) as [E|E].
    + assert (P : p i = true) by (rewrite E; apply p_at; assumption). rewrite P.
      destruct (Z.leb_spec N (idx + 1)) as [L|L].
      * do 5 eexists. split.
        -- rewrite select_none; [reflexivity|]. intros j Hj. apply p_beyond.
           assert (idx = N - 1)%Z by lia. subst idx. lia.
        -- right. split; [lia|]. eauto.
      * destruct (IH (i + 1)%Z (idx + 1)%Z (out ++ [x])) as (i' & n' & x' & b' & g & E1 & E2).
        -- lia.
        -- lia.
        -- nia.
        -- left. replace (idx + 1 - 1)%Z with idx by lia. lia.
        -- unfold range_get. exists i', n', x', b', g. rewrite E1. split; [|exact E2].
           now rewrite <- app_assoc.
    + rewrite (p_between idx i) by (auto; lia).
      destruct (IH (i + 1)%Z idx out) as (i' & n' & x' & b' & g & E1 & E2); try lia.
      exists i', n', x', b', g. rewrite E1. auto.
Qed.
End Islice.

Lemma islice_ok {A} c (l : list A) start stop step :
  (0 <= start)%Z -> (0 <= stop)%Z -> (0 < step)%Z ->
  islice (Sus c l) (Some start) (Some stop) (Some step) =
  Ok (at_indices (in_slice start (Some stop) step) l, Des).
Proof.
  intros H1 H2 H3. unfold islice.
  destruct (Z.ltb_spec start 0); [lia|]. destruct (Z.ltb_spec stop 0); [lia|]. simpl orb. cbv iota.
  destruct (Z.ltb_spec step 0); [lia|]. destruct (Z.eqb_spec step 0); [lia|].
  rewrite select_at.
  destruct (Z.ltb_spec start stop) as [L|L].
  - pose proof (N_eq start stop step L H3) as EN.
    assert (Hd : (0 <= (stop - 1 - start) / step)%Z) by (apply Z.div_pos; lia).
    destruct (Z.eqb_spec (range_len start stop step) 0); [lia|].
    unfold for_gen. cbn [bind].
    destruct (islice_loop (A := A) start stop step L H3 l 0 0 []) as (i' & n' & x' & b' & g & E1 & E2);
      try lia.
    change (range_get start step 0) with (start + 0 * step)%Z. rewrite E1.
    destruct E2 as [[-> ->]|[Hb (cc & r & ->)]].
    + reflexivity.
    + destruct (Z.leb_spec 0 b'); [|lia]. rewrite skip_zip_ok. reflexivity.
  - unfold range_len. destruct (Z.ltb_spec start stop); [lia|]. rewrite andb_false_r. simpl.
    rewrite select_none; [reflexivity|]. intros j _. unfold in_slice.
    destruct (Z.leb_spec start j); [|reflexivity]. destruct (Z.ltb_spec j stop); [lia|reflexivity].
Qed.
