(** C75: integer functions, [min] and [max]. *)
From Coq Require Import List ZArith Lia Bool.
From Verif.Common Require Import Result Int64.
From Verif.Ir Require Import Num NumProofs.
From Verif.Num Require Import ArithModel ArithSpec ArithProofs.
Import ListNotations.
Local Open Scope Z_scope.
Local Open Scope res_scope.

(** [x ** n] and [pow(x, n)] are the power modulo 2^64; a negative exponent gives 0 or is refused. *)
Theorem C75_power : forall py x n, in64 x -> in64 n ->
  (0 <= n -> ipow x n = Ok (w64 (x ^ n)) /\ pow py x n None = Ok (w64 (x ^ n))) /\
  (n < 0 -> ipow x n = Ok 0 /\ forall m, pow py x n m = Raise ValueError).
Proof.
  intros py x n Hx Hn. rewrite ipow_ok by assumption. split; intros C.
  - replace (n <? 0) with false by lia. split; [reflexivity|now apply pow_ok].
  - replace (n <? 0) with true by lia. split; [reflexivity|]. intros m. unfold pow. now replace (n <? 0) with true by lia.
Qed.

(** [pow(x, n, m)] for [|m|] up to 3037000500 (the products of remainders fit in an [int]): the
    remainder of the power, with the sign of the dividend, or of [m] with [-numerics=py].
    Missing (false, below): larger [m]. *)
Theorem C75_power_modulo_partial : forall x n m, in64 x -> in64 n -> 0 <= n -> 0 < Z.abs m <= 3037000500 -> ~ (x = - 2^63 /\ m = -1) ->
  pow true x n (Some m) = Ok (x ^ n mod m) /\ pow false x n (Some m) = Ok (Z.rem (x ^ n) m).
Proof. intros x n m Hx Hn Pn Hm Nm. split; [apply (pow_mod_ok true m Hm)|apply (pow_mod_ok false m Hm)]; auto. Qed.
Theorem C75_power_modulo_zero : forall py x n, 0 <= n -> pow py x n (Some 0) = Raise ValueError.
Proof. intros py x n Hn. unfold pow. now replace (n <? 0) with false by lia. Qed.
Theorem C75_power_modulo_refuted : exists x n m, in64 x /\ in64 m /\ 0 < m /\ 0 <= n /\ forall py, pow py x n (Some m) <> Ok (x ^ n mod m).
Proof. exists (2^32), 2, (2^62 + 1). unfold in64, min64, max64. split; [lia|]. split; [lia|]. split; [lia|]. split; [lia|]. intros []; vm_compute; discriminate. Qed.

(** [gcd] of any number of arguments other than the smallest [int].
    Missing (false, below): the smallest [int]. *)
Theorem C75_gcd_partial : forall py l, (forall x, In x l -> - 2^63 < x < 2^63) -> exists g, gcd py l = Ok g /\ is_gcd g l.
Proof.
  intros py l H. exists (gcd_all l). split; [|apply gcd_all_is]. apply gcd_ok. intros x Hx. specialize (H x Hx). unfold in64, min64, max64. lia.
Qed.
(** With the smallest [int], the result can be negative, and with [-numerics=py] undefined. *)
Theorem C75_gcd_refuted : gcd false [- 2^63; 6] = Ok (-2) /\ gcd true [- 2^63; 2^63 - 1] = Undef.
Proof. split; vm_compute; reflexivity. Qed.

(** [lcm] of any number of arguments, when that of the arguments other than 0 fits in an [int]. *)
Theorem C75_lcm_partial : forall py l, (forall x, In x l -> - 2^63 < x < 2^63) ->
  (exists m, is_lcm m (filter (fun x => negb (x =? 0)) l) /\ m < 2^63) -> exists m, lcm py l = Ok m /\ is_lcm m l.
Proof.
  intros py l H (m & (Hm & D & M) & B). exists (lcm_all l). split; [|apply lcm_all_is]. apply lcm_ok.
  - intros x Hx. specialize (H x Hx). unfold in64, min64, max64. lia.
  - destruct (lcm_all_is (filter (fun x => negb (x =? 0)) l)) as (P & D' & M'). assert (m = lcm_all (filter (fun x => negb (x =? 0)) l)) as <-; [|unfold max64; lia].
    apply Z.divide_antisym_nonneg; auto.
Qed.
Theorem C75_lcm_refuted : forall py, lcm py [2^62; 3] = Ok (2^62).
Proof. intros []; vm_compute; reflexivity. Qed.

Theorem C75_factorial : forall x, (0 <= x <= 20 -> factorial x = Ok (fact (Z.to_nat x)) /\ fact (Z.to_nat x) < 2^63) /\ (x < 0 \/ 20 < x -> factorial x = Raise ValueError).
Proof.
  intros x. split; intros H.
  - assert (C : In x (map Z.of_nat (seq 0 21))) by (apply in_map_iff; exists (Z.to_nat x); split; [lia|apply in_seq; lia]).
    cbn [seq map] in C. repeat (destruct C as [<-|C]; [vm_compute; auto|]). destruct C.
  - unfold factorial. now replace ((0 <=? x) && (x <=? 20)) with false by lia.
Qed.

(** [sum] and [prod] are exact modulo 2^64. *)
Theorem C75_sum_prod : forall l start, in64 start -> sum l start = w64 (fold_left Z.add l start) /\ prod l start = w64 (fold_left Z.mul l start).
Proof. intros l s Hs. split; [now apply sum_ok|now apply prod_ok]. Qed.

(** [min] and [max] of an iterable or of arguments: the first item whose key is the least or the
    greatest, for a total preorder of the keys and the comparisons that come from it. *)
Theorem C75_min_max : forall A K (le lt gt ge : K -> K -> bool) (key : A -> K),
  (forall a b c, le a b = true -> le b c = true -> le a c = true) -> (forall a b, le a b = true \/ le b a = true) ->
  (forall a b, lt a b = negb (le b a)) -> (forall a b, gt a b = lt b a) -> (forall a b, ge a b = le b a) ->
  (forall l d, l <> [] -> exists x y, min_of lt key l d = Ok x /\ first_least (fun a b => le a b = true) key l x /\
                                     max_of gt key l d = Ok y /\ first_least (fun a b => le b a = true) key l y) /\
  (forall d, min_of lt key [] (Some d) = Ok d /\ max_of gt key [] (Some d) = Ok d) /\
  (min_of lt key [] None = Raise ValueError /\ max_of gt key [] None = Raise ValueError) /\
  (forall a b l, first_least (fun x y => le x y = true) key (a :: b :: l) (min_args lt le key a b l) /\
                 first_least (fun x y => le y x = true) key (a :: b :: l) (max_args gt ge key a b l)).
Proof.
  intros A K le lt gt ge key T To Hlt Hgt Hge.
  assert (Mn : forall s l, first_least (fun a b => le a b = true) key (s :: l) (keep_less lt key s l)).
  { intros s l. apply (keep_first le key T To lt Hlt l [] s []); intros y []. }
  assert (Mx : forall s l, first_least (fun a b => le b a = true) key (s :: l) (keep_greater gt key s l)).
  { intros s l. apply (keep_first (fun a b => le b a) key) with (l0 := []) (rest := []); [|intros a b; destruct (To a b); auto| |intros y []|intros y []].
    - intros a b c H1 H2. now apply (T c b a).
    - intros a b. now rewrite Hgt, Hlt. }
  split; [|split; [|split]].
  - intros [|s l] d N0; [contradiction|]. exists (keep_less lt key s l), (keep_greater gt key s l). repeat split; auto.
  - intros d. split; reflexivity.
  - split; reflexivity.
  - intros a b [|c l]; [|split; [apply Mn|apply Mx]]. cbn [min_args max_args]. rewrite Hge. split.
    + destruct (le (key a) (key b)) eqn:E.
      * exists [], [b]. split; [reflexivity|]. split; [intros y []|]. intros y [<-|[]]. exact E.
      * exists [a], []. split; [reflexivity|]. split; [|intros y []]. intros y [<-|[]]. congruence.
    + destruct (le (key b) (key a)) eqn:E.
      * exists [], [b]. split; [reflexivity|]. split; [intros y []|]. intros y [<-|[]]. exact E.
      * exists [a], []. split; [reflexivity|]. split; [|intros y []]. intros y [<-|[]]. congruence.
Qed.

Example C75_ex_power : pow false 3 41 None = Ok (w64 (3 ^ 41)) /\ pow true (-7) 5 (Some 13) = Ok 2 /\ pow false (-7) 5 (Some 13) = Ok (-11).
Proof. vm_compute. auto. Qed.
Example C75_ex_gcd : gcd false [-12; 18; 0; 27] = Ok 3 /\ lcm true [-4; 6; 9] = Ok 36 /\ lcm false [4; 0; 6] = Ok 0 /\ gcd true [] = Ok 0 /\ lcm true [-5] = Ok 5.
Proof. vm_compute. auto. Qed.
Example C75_ex_lcm_hyp : is_lcm 36 (filter (fun x => negb (x =? 0)) [-4; 0; 6; 9]).
Proof. exact (lcm_all_is [-4; 6; 9]). Qed.
Example C75_ex_min : min_of Z.ltb (fun p : Z * Z => fst p) [(2, 1); (1, 2); (3, 3); (1, 4)] None = Ok (1, 2) /\
  max_args Z.gtb Z.geb (fun p : Z * Z => fst p) (3, 1) (3, 2) [] = (3, 1).
Proof. vm_compute. auto. Qed.

Print Assumptions C75_power.
Print Assumptions C75_power_modulo_partial.
Print Assumptions C75_power_modulo_zero.
Print Assumptions C75_power_modulo_refuted.
Print Assumptions C75_gcd_partial.
Print Assumptions C75_gcd_refuted.
Print Assumptions C75_lcm_partial.
Print Assumptions C75_lcm_refuted.
Print Assumptions C75_factorial.
Print Assumptions C75_sum_prod.
Print Assumptions C75_min_max.
