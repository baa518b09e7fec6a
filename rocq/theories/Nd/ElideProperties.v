(** C68: removing the bounds check of an array access in a loop does not change
    which element is accessed, nor whether IndexError is raised. *)
From Coq Require Import ZArith List Bool Lia.
From Verif Require Import Common.Result Common.Int64 Nd.ElideModel Nd.ElideSpec Nd.Elide.
Import ListNotations.
Open Scope Z_scope.
Open Scope bool_scope.

(** The counting loop runs its body for the values of the exact range, provided
    the last value plus the step is a 64-bit integer. *)
Theorem C68_loop_values start stop step i :
  int64 start -> int64 stop -> int64 step -> step <> 0 ->
  (0 < step -> stop + step - 1 < 2 ^ 63) -> (step < 0 -> - 2 ^ 63 <= stop + step + 1) ->
  visits start stop step i <-> in_range start stop step i.
Proof.
  intros A B C N H1 H2. split.
  - intros V. now apply (visits_range start stop step i).
  - intros R. now apply (range_visits start stop step i).
Qed.

(** The check that is removed implements the meaning of an index. *)
Theorem C68_checked_access n i : int64 i -> 0 <= n < 2 ^ 63 ->
  normalize_index i n = denotes n i.
Proof. apply normalize_denotes. Qed.

(** Partial: accesses for which the pass removes the check and whose index moves
    up with the loop variable, whose lengths never count negatively in the two
    comparisons, in loops whose bounds and counter do not overflow, are in bounds
    in every iteration.  Without these conditions, which the code does not test,
    the claim is false: see the refutations below. *)
Theorem C68_elision_partial alias p e e' i data stride :
  can_elide alias p = true ->
  0 < slope alias p ->
  (if 0 <? step p
   then forall w, 0 <= lens_at alias p (start p) w /\
          lens_at alias p (stop p) w <= if Nat.eqb w (arr p) then 1 else 0
   else forall w, lens_at alias p (start p) w <= (if Nat.eqb w (arr p) then 1 else 0) /\
          0 <= lens_at alias p (stop p) w) ->
  sane e -> sane e' -> consts_fit (start p) -> consts_fit (stop p) -> consts_fit (idx p) ->
  int64 (exact e (start p)) -> int64 (exact e (stop p)) -> int64 (step p) ->
  (0 < step p -> exact e (stop p) + step p - 1 < 2 ^ 63) ->
  (step p < 0 -> - 2 ^ 63 <= exact e (stop p) + step p + 1) ->
  visits (eval e (start p)) (eval e (stop p)) (step p) i ->
  at_iteration alias p e e' i ->
  let n := len_of (shapes e' (arr p)) in
  let k := eval e' (idx p) in
  denotes n k = Ok k /\
  checked_address n data stride k = Ok (unchecked_address data stride k).
Proof.
  intros C Sl L S1 S2 F1 F2 F3 X1 X2 X3 O1 O2 V It n k.
  assert (St : step p <> 0).
  { intros Z0. unfold can_elide in C. rewrite Z0 in C. discriminate. }
  assert (W : forall z, int64 z -> w64 z = z).
  { intros z Hz. apply w64_id. unfold int64, in64, min64, max64 in *. lia. }
  rewrite (eval_exact e _ S1 F1), (eval_exact e _ S1 F2), (W _ X1), (W _ X2) in V.
  apply visits_range in V; try assumption. destruct V as [R _].
  pose proof (in_bounds alias p e S1 e' i C Sl L R S2 It) as B.
  pose proof It as [_ A2]. rewrite <- (A2 (arr p)) in B.
  destruct S2 as [S2a S2b]. destruct (S2b (arr p)) as (m & Em & Hm).
  assert (Kx : k = exact e' (idx p)).
  { unfold k. rewrite (eval_exact e' _ (conj S2a S2b) F3). apply W.
    rewrite Em in B. cbn in B. unfold int64. lia. }
  assert (Nn : n = m) by (unfold n, len_of; rewrite Em; reflexivity).
  rewrite Em in B. cbn in B. rewrite <- Kx in B.
  assert (D : denotes n k = Ok k).
  { unfold denotes. rewrite Nn.
    destruct (Z.leb_spec 0 k), (Z.ltb_spec k m); cbn; try lia; reflexivity. }
  split; [exact D|]. unfold checked_address.
  rewrite normalize_denotes; [now rewrite D| |lia]. unfold int64. lia.
Qed.

(** The hypotheses are met: for i in range(1, len(a) - 1): t = i; a[t + 1]. *)
Definition no_alias (v : nat) : bool := false.
Definition ex_env (i : Z) : env :=
  mkEnv (fun v => if Nat.eqb v 0 || Nat.eqb v 5 then i else 0)
        (fun v => if Nat.eqb v 2 then [7] else [4]).
Definition ex_sum : access :=
  mkAccess 0 (EConst 1) (ESub (ELen 1) (EConst 1)) 1 1 (EAdd (EVar 5) (EConst 1)).
Definition ex_alias (v : nat) : bool := Nat.eqb v 5.
Example C68_elision_example :
  can_elide ex_alias ex_sum = true /\ 0 < slope ex_alias ex_sum /\
  (forall w, 0 <= lens_at ex_alias ex_sum (start ex_sum) w /\
     lens_at ex_alias ex_sum (stop ex_sum) w
     <= if Nat.eqb w (arr ex_sum) then 1 else 0) /\
  sane (ex_env 2) /\
  visits (eval (ex_env 0) (start ex_sum)) (eval (ex_env 0) (stop ex_sum)) 1 2 /\
  at_iteration ex_alias ex_sum (ex_env 0) (ex_env 2) 2 /\
  eval (ex_env 2) (idx ex_sum) = 3.
Proof.
  do 2 (split; [reflexivity|]). split.
  { intros w. unfold lens_at, slope. cbn -[Nat.eqb Z.mul].
    rewrite (Nat.eqb_sym 1 w). destruct (Nat.eqb w 1); cbn; lia. }
  split.
  { split; intros v; cbn.
    - destruct (_ || _); unfold int64; lia.
    - destruct (Nat.eqb v 2); eexists; (split; [reflexivity|lia]). }
  split; [|split; [|reflexivity]].
  - change 2 with (w64 (1 + 1)). apply visits_next; [|reflexivity].
    apply visits_first. reflexivity.
  - split; [|reflexivity]. intros v. unfold ex_alias. cbn.
    destruct (Nat.eqb v 0), (Nat.eqb v 5); reflexivity.
Qed.
(** A descending loop: for i in range(len(a) - 1, -1, -1): a[i]. *)
Definition ex_down : access :=
  mkAccess 0 (ESub (ELen 1) (EConst 1)) (EConst (-1)) (-1) 1 (EVar 0).
Example C68_descending_example :
  can_elide no_alias ex_down = true /\ 0 < slope no_alias ex_down /\
  (forall w, lens_at no_alias ex_down (start ex_down) w
             <= (if Nat.eqb w (arr ex_down) then 1 else 0) /\
     0 <= lens_at no_alias ex_down (stop ex_down) w).
Proof.
  do 2 (split; [reflexivity|]). intros w. unfold lens_at, slope.
  cbn -[Nat.eqb Z.mul]. rewrite (Nat.eqb_sym 1 w). destruct (Nat.eqb w 1); cbn; lia.
Qed.
(** An access the pass rightly leaves alone: for i in range(len(a)): a[i + 1]. *)
Example C68_kept_example :
  can_elide no_alias
    (mkAccess 0 (EConst 0) (ELen 1) 1 1 (EAdd (EVar 0) (EConst 1))) = false.
Proof. reflexivity. Qed.

(** An access on which the removal of the check is observable: the check is
    removed, and in some iteration the checked access raises IndexError or
    reaches another address. *)
Definition unsound (p : access) : Prop :=
  can_elide no_alias p = true /\
  exists e e' i,
    (forall v, 0 <= ints e v < 2 ^ 63) /\ shapes e (arr p) = [hd 0 (shapes e (arr p))] /\
    at_iteration no_alias p e e' i /\
    visits (eval e (start p)) (eval e (stop p)) (step p) i /\
    forall data,
      checked_address (len_of (shapes e' (arr p))) data 8 (eval e' (idx p))
      <> Ok (unchecked_address data 8 (eval e' (idx p))).

Lemma raises_unsound n k data : denotes n k = Raise IndexError ->
  int64 k -> 0 <= n < 2 ^ 63 ->
  checked_address n data 8 k <> Ok (unchecked_address data 8 k).
Proof.
  intros D K N. unfold checked_address. rewrite normalize_denotes, D by assumption.
  discriminate.
Qed.

Ltac ex_it := split; intros v; cbn; [now destruct v|reflexivity].

(** for i in range(len(b)): a[i] -- lengths of other arrays are taken to be
    harmless whatever their sign, so no check is left when b is longer than a. *)
Theorem C68_other_length_refuted :
  unsound (mkAccess 0 (EConst 0) (ELen 2) 1 1 (EVar 0)).
Proof.
  split; [reflexivity|].
  exists (mkEnv (fun _ => 0) (fun v => if Nat.eqb v 2 then [2] else [1])),
    (set_int (mkEnv (fun _ => 0) (fun v => if Nat.eqb v 2 then [2] else [1])) 0 1), 1.
  split; [cbn; lia|]. split; [reflexivity|]. split; [ex_it|]. split.
  - exact (visits_next 0 2 1 0 (visits_first 0 2 1 eq_refl) eq_refl).
  - intros data. apply raises_unsound; [reflexivity|unfold int64; cbn; lia|cbn; lia].
Qed.

(** for i in range(0, 3): a[len(a) - i] -- the index is largest at the start. *)
Theorem C68_descending_index_refuted :
  unsound (mkAccess 0 (EConst 0) (EConst 3) 1 1 (ESub (ELen 1) (EVar 0))).
Proof.
  split; [reflexivity|].
  exists (mkEnv (fun _ => 0) (fun _ => [5])), (set_int (mkEnv (fun _ => 0) (fun _ => [5])) 0 0), 0.
  split; [cbn; lia|]. split; [reflexivity|]. split; [ex_it|].
  split; [apply visits_first; reflexivity|].
  intros data. apply raises_unsound; [reflexivity|unfold int64; cbn; lia|cbn; lia].
Qed.

(** for i in range(0, 3): a[len(a)] -- the index does not move at all. *)
Theorem C68_constant_index_refuted :
  unsound (mkAccess 0 (EConst 0) (EConst 3) 1 1 (ELen 1)).
Proof.
  split; [reflexivity|].
  exists (mkEnv (fun _ => 0) (fun _ => [5])), (set_int (mkEnv (fun _ => 0) (fun _ => [5])) 0 0), 0.
  split; [cbn; lia|]. split; [reflexivity|]. split; [ex_it|].
  split; [apply visits_first; reflexivity|].
  intros data. apply raises_unsound; [reflexivity|unfold int64; cbn; lia|cbn; lia].
Qed.

Lemma moved_unsound n k data : - n <= k < 0 -> 0 < n < 2 ^ 32 ->
  checked_address n data 8 k <> Ok (unchecked_address data 8 k).
Proof.
  intros K N. unfold checked_address, unchecked_address.
  rewrite normalize_denotes by (unfold int64; lia). unfold denotes.
  destruct (Z.leb_spec 0 k); [lia|]. destruct (Z.leb_spec (- n) k); [|lia].
  destruct (Z.ltb_spec k 0); [|lia]. cbn [andb]. intros X.
  assert (Y : w64 (data + w64 (8 * (n + k))) = w64 (data + w64 (8 * k))) by congruence.
  rewrite !w64_add_r in Y.
  destruct (w64_eqm (data + 8 * (n + k))) as [u Hu].
  destruct (w64_eqm (data + 8 * k)) as [v Hv]. lia.
Qed.

(** for i in range(len(a)): a[i - len(a)] -- a correct program that reads every
    element through negative indices; without the check it reads the memory
    before the array. *)
Theorem C68_negative_index_refuted :
  unsound (mkAccess 0 (EConst 0) (ELen 1) 1 1 (ESub (EVar 0) (ELen 1))).
Proof.
  split; [reflexivity|].
  exists (mkEnv (fun _ => 0) (fun _ => [5])), (set_int (mkEnv (fun _ => 0) (fun _ => [5])) 0 0), 0.
  split; [cbn; lia|]. split; [reflexivity|]. split; [ex_it|].
  split; [apply visits_first; reflexivity|].
  intros data. apply moved_unsound; cbn; lia.
Qed.

(** for i in range(3, 0, -1): a[-1] -- in a descending loop the constant index -1
    passes the test. *)
Theorem C68_last_element_refuted :
  unsound (mkAccess 0 (EConst 3) (EConst 0) (-1) 1 (EConst (-1))).
Proof.
  split; [reflexivity|].
  exists (mkEnv (fun _ => 0) (fun _ => [5])), (set_int (mkEnv (fun _ => 0) (fun _ => [5])) 0 3), 3.
  split; [cbn; lia|]. split; [reflexivity|]. split; [ex_it|].
  split; [apply visits_first; reflexivity|].
  intros data. apply moved_unsound; cbn; lia.
Qed.

(** for i in range(len(a)): a[i + b.size - len(b)] with a two-dimensional b --
    size and len of an array are taken to be the same number. *)
Theorem C68_size_len_refuted :
  unsound (mkAccess 0 (EConst 0) (ELen 1) 1 1
             (ESub (EAdd (EVar 0) (ESize 2)) (ELen 2))).
Proof.
  split; [reflexivity|].
  exists (mkEnv (fun _ => 0) (fun v => if Nat.eqb v 2 then [3; 4] else [5])),
    (set_int (mkEnv (fun _ => 0) (fun v => if Nat.eqb v 2 then [3; 4] else [5])) 0 0), 0.
  split; [cbn; lia|]. split; [reflexivity|]. split; [ex_it|].
  split; [apply visits_first; reflexivity|].
  intros data. apply raises_unsound; [reflexivity|unfold int64; cbn; lia|cbn; lia].
Qed.

(** for i in range(1, len(a), 9223372036854775807): a[i] -- the counter wraps
    around to the least integer, which is again below the bound. *)
Theorem C68_wrapping_counter_refuted :
  unsound (mkAccess 0 (EConst 1) (ELen 1) (2 ^ 63 - 1) 1 (EVar 0)).
Proof.
  split; [reflexivity|].
  exists (mkEnv (fun _ => 0) (fun _ => [5])),
    (set_int (mkEnv (fun _ => 0) (fun _ => [5])) 0 (- 2 ^ 63)), (- 2 ^ 63).
  split; [cbn; lia|]. split; [reflexivity|]. split; [ex_it|].
  split.
  - exact (visits_next 1 5 (2 ^ 63 - 1) 1 (visits_first 1 5 (2 ^ 63 - 1) eq_refl) eq_refl).
  - intros data. apply raises_unsound; [reflexivity|unfold int64; cbn; lia|cbn; lia].
Qed.

Print Assumptions C68_loop_values.
Print Assumptions C68_checked_access.
Print Assumptions C68_elision_partial.
Print Assumptions C68_other_length_refuted.
Print Assumptions C68_descending_index_refuted.
Print Assumptions C68_constant_index_refuted.
Print Assumptions C68_negative_index_refuted.
Print Assumptions C68_last_element_refuted.
Print Assumptions C68_size_len_refuted.
Print Assumptions C68_wrapping_counter_refuted.
