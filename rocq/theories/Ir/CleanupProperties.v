(** C22 (canonicalisation) and C23 (dead code elimination). *)
From Coq Require Import List ZArith Lia Bool ZifyBool Permutation Floats.SpecFloat.
From Verif.Common Require Import Result Int64.
From Verif.Ir Require Import Num NumProofs Sem SemProofs Fold PassProofs FoldProofs Effects EffectProofs Canon CanonProofs Dce DceProofs.
Import ListNotations.

(** ** Specification *)
(** Variable [x] is read somewhere in [e]. *)
Fixpoint reads (e : node) (x : var) : Prop :=
  match e with
  | Const _ | Break | Continue => False
  | VarV y => y = x
  | Call _ args => fold_right (fun a P => reads a x \/ P) False args
  | Ternary c a b | If c a b => reads c x \/ reads a x \/ reads b x
  | Assign _ e | Return e | Throw e => reads e x
  | Series l => fold_right (fun a P => reads a x \/ P) False l
  | While c b => reads c x \/ reads b x
  | ImpFor _ a _ b body => reads a x \/ reads b x \/ reads body x
  | FlowI f v => reads f x \/ reads v x
  | Try b _ h f => reads b x \/ reads h x \/ reads f x
  end.
(** After function [prog] of a module in which global [i] occurs [oc i] times in other functions, [oa i]
    of these as the target of an assignment, two states look the same: the world is the same, and so
    is every variable that is read anywhere. *)
Definition same {W} (oc oa : nat -> nat) (prog : node) (s1 s2 : state W) : Prop :=
  wld s1 = wld s2 /\
  forall x, reads prog x \/ (vglobal x = true /\ oa (vid x) < oc (vid x)) -> get s1 x = get s2 x.

Lemma rd_reads U e x : rd U e -> reads e x -> U (vglobal x) (vid x) = true.
Proof.
  induction e as [v|y|f args FA|c a b IHc IHa IHb|y e IH|l FA|c a b IHc IHa IHb|c b IHc IHb|y a st b body IHa IHb IHbd| | |e IH|e IH|f v IHf IHv|b y h f IHb IHh IHf]
    using node_ind'; cbn; try tauto; try (intuition; fail).
  - intros H ->. auto.
  - induction FA; cbn; intuition.
  - induction FA; cbn; intuition.
Qed.
Lemma agree_same {W} oc oa prog (s1 s2 : state W) : (forall i, oa i <= oc i) -> agree (used oc oa prog) s1 s2 -> same oc oa prog s1 s2.
Proof.
  intros HO (A1 & A2 & A3). split; auto. intros x Hx.
  assert (HU : used oc oa prog (vglobal x) (vid x) = true).
  { destruct Hx as [Hx|[Hg Hx]]; [eapply rd_reads; [now apply used_rd_prog|exact Hx]|]. unfold used. rewrite Hg. apply negb_true_iff, Nat.eqb_neq.
    pose proof (count_ge true (vid x) prog). lia. }
  unfold get. destruct (vglobal x); auto.
Qed.

(** ** The canonicaliser always has a result *)
Lemma extract_len ret m t e : 1 <= length (extract ret m t e).
Proof.
  induction e as [v|y|f args FA|c a b IHc IHa IHb|y e IH|l FA|c a b IHc IHa IHb|c b IHc IHb|y a st b body IHa IHb IHbd| | |e IH|e IH|f v IHf IHv|b y h f IHb IHh IHf]
    using node_ind'; cbn [extract length]; auto.
  destruct args as [|a [|b [|]]]; cbn [length]; auto. destruct (isCallOf _ _ _ _ _); cbn [length]; auto. rewrite app_length.
  apply Forall_inv in FA. lia.
Qed.
Lemma rules_total ret order gt matches r e : (forall l, Permutation l (order l)) -> In r (canon_rules ret order gt matches) -> exists o, r e = Ok o.
Proof.
  intros HO. cbn. intros [<-|[<-|[<-|[<-|[]]]]].
  - unfold CanonOpChain. destruct e as [| |[m ts|] args| | | | | | | | | | | |]; eauto. cbn zeta. destruct (isCallOf _ _ _ _ _) eqn:E; eauto.
    destruct args as [|a [|b [|]]]; eauto.
    match goal with |- context [match ?l with [] => Undef | _ => _ end] => assert (L : 2 <= length l) end.
    { match goal with |- context [if commutative m ts then order ?x else ?x] => assert (L : 2 <= length x) end.
      - destruct (associative m ts); [|cbn; lia]. cbn [extract]. rewrite E. rewrite app_length.
        pose proof (extract_len ret m (ty_of ret (Call (Magic m ts) [a; b])) a). pose proof (extract_len ret m (ty_of ret (Call (Magic m ts) [a; b])) b). lia.
      - destruct (commutative m ts); auto. now rewrite <- (Permutation_length (HO _)). }
    match goal with |- context [match ?l with [] => Undef | _ => _ end] => destruct l as [|x [|y l']] end; cbn in L; try lia. eauto.
  - unfold CanonInequality, result. destruct e as [| |[m ts|] args| | | | | | | | | | | |]; eauto. destruct args as [|a [|b [|]]]; eauto.
    destruct (flip_op m); eauto. destruct (gt a b); eauto. destruct (mk _ _ _ _); eauto.
  - unfold CanonAddMul, result. destruct (isCallOf2 _ _ _) as [[a b]|]; eauto. destruct (commutative_op e); eauto.
    destruct (factors ret a), (factors ret b). cbn zeta. match goal with |- context [match ?x with Some _ => _ | None => _ end] => destruct x end; eauto. destruct (distributive_op _); eauto.
  - unfold CanonConstSub, result. destruct (isCallOf2 _ _ _) as [[a b]|]; eauto. destruct (ty_eqb _ _); eauto. destruct b as [[]| | | | | | | | | | | | | |]; eauto.
    + destruct (Z.eqb _ _); eauto. destruct (mk _ _ _ _); eauto.
    + destruct (mk _ _ _ _); eauto.
Qed.
Lemma bottom_up_total h : (forall e0 e, exists e', h e0 e = Ok e') -> forall e, exists e', bottom_up h e = Ok e'.
Proof.
  intros HH. assert (L : forall l, Forall (fun e => exists e', bottom_up h e = Ok e') l -> exists l', map_res (bottom_up h) l = Ok l').
  { intros l F. induction F as [|a l [a' Ha] F [l' Hl]]; cbn; eauto. rewrite Ha. cbn. rewrite Hl. cbn. eauto. }
  induction e as [v|y|f args FA|c a b IHc IHa IHb|y e IH|l FA|c a b IHc IHa IHb|c b IHc IHb|y a st b body IHa IHb IHbd| | |e IH|e IH|f v IHf IHv|b y h' f IHb IHh IHf]
    using node_ind'; cbn [bottom_up bind];
    repeat match goal with H : exists e', bottom_up h ?e = Ok e' |- _ => let x := fresh in let E := fresh in destruct H as [x E]; rewrite E; clear E; cbn [bind] end;
    try (destruct (L _ FA) as [l' ->]; cbn [bind]); apply HH.
Qed.
Lemma canon_total ret order gt matches se rules e : (forall l, Permutation l (order l)) -> incl rules (canon_rules ret order gt matches) ->
  exists e', canon_pass se rules e = Ok e'.
Proof.
  intros HO HI. apply bottom_up_total. intros e0 e1. unfold canon_handle. destruct e1; eauto. destruct (se e0); eauto.
  revert f args. assert (K : forall e1, exists e', rewrite rules e1 = Ok e'); [|auto].
  induction rules as [|r rules IH]; intros e1; cbn; eauto. destruct (rules_total ret order gt matches r e1 HO) as [o ->]; [apply HI; now left|]. cbn. apply IH. intros x Hx. apply HI. now right.
Qed.

Section Props.
Context {W : Type}.
Context (fopq : magic -> spec_float -> spec_float -> spec_float) (fpowi : spec_float -> Z -> spec_float).
Context (py : bool) (uc : ufun (W := W)) (ret : nat -> ty) (tenv : bool -> nat -> ty).
(** Functions keep global variables typed. *)
Context (UW : wt_ufun ret tenv uc).
Context (prog : node) (oc oa : nat -> nat) (HOC : forall i, oa i <= oc i).
Notation U := (used oc oa prog).
(** What functions do does not depend on variables nobody reads, and functions marked PURE have no effect. *)
Context (UE : uc_ext uc U) (fstat : nat -> status) (HF : honest uc U fstat).
(** The analysis may say "side effect" more often than the model, not less. *)
Context (gase : bool) (se : node -> bool) (HSE : forall e, se e = false -> hasSideEffect py fstat gase U e = false).
Notation ev := (ev fopq fpowi py uc).

(** C22: any selection of the canonicalisation rules in any order, with any ranking of operands, gives a
    program of the same type that does what the original does: the same result or exception, the
    same effects on the world, the same values in every variable anybody reads.
    Partial: executions of the original with undefined behaviour are unconstrained, and the program has
    no [!=] between an int and a float ([C22_flipping_ne_refuted]). *)
Theorem C22_canonicalisation_preserves_behaviour_partial order gt matches rules :
  (forall l, Permutation l (order l)) -> incl rules (canon_rules ret order gt matches) -> wt ret tenv prog -> nomix prog ->
  exists prog', canon_pass se rules prog = Ok prog' /\ wt ret tenv prog' /\ ty_of ret prog' = ty_of ret prog /\
  forall n s o s', wt_state tenv s -> ev n prog s = Some (o, s') -> o <> UB ->
  exists s'', ev n prog' s = Some (o, s'') /\ same oc oa prog s' s''.
Proof.
  intros HO HI WT NM. destruct (canon_total ret order gt matches se rules prog HO HI) as [p E]. exists p. split; auto.
  destruct (canon_pass_ok fopq fpowi py uc ret tenv UW U UE fstat gase HF order gt matches HO se HSE rules prog p HI WT E) as ([S1 S2] & _ & H).
  split; auto. split; auto. intros n s o s' HS EV N. destruct H as [H _]. { split; auto. split; auto. now apply used_rd_prog. }
  destruct (H n s s HS HS (agree_refl _ s) o s' EV N) as (s2 & E2 & A & _). exists s2. split; auto. now apply agree_same.
Qed.

(** C23: when the original ends without undefined behaviour, the program without dead code ends
    with the same result or exception, effects and values of all variables anybody reads.
    Partial: a loop without effects that never ends may be removed ([C23_endless_loop_removed_refuted]). *)
Theorem C23_dead_code_removal_preserves_behaviour_partial : wt ret tenv prog ->
  let prog' := dce se true prog in
  wt ret tenv prog' /\ ty_of ret prog' = ty_of ret prog /\
  forall n s o s', wt_state tenv s -> ev n prog s = Some (o, s') -> o <> UB ->
  exists s'', ev n prog' s = Some (o, s'') /\ same oc oa prog s' s''.
Proof.
  intros WT. cbv zeta.
  destruct (dce_ok fopq fpowi py uc ret tenv UW U UE fstat gase HF se HSE prog WT (used_rd_prog oc oa prog HOC)) as ((S1 & S2) & _ & H).
  split; auto. split; auto. intros n s o s' HS EV N.
  destruct (H n s s HS HS (agree_refl _ s) o s' EV N) as (s2 & E2 & A & _). exists s2. split; auto. now apply agree_same.
Qed.

(** C23: a node the analysis calls pure, wherever it stands, changes nothing anybody can see. *)
Theorem C23_pure_nodes_have_no_effect e : se e = false -> forall n s o s', ev n e s = Some (o, s') ->
  (o = UB \/ exists v, o = Val v) /\ same oc oa prog s s'.
Proof.
  intros H n s o s' E. apply HSE, has_se in H. pose proof (pure_ev fopq fpowi py uc U fstat gase HF n e H s) as Q. rewrite E in Q. destruct Q as [A O]. split; auto. now apply agree_same.
Qed.
End Props.
Print Assumptions C22_canonicalisation_preserves_behaviour_partial.
Print Assumptions C23_dead_code_removal_preserves_behaviour_partial.
Print Assumptions C23_pure_nodes_have_no_effect.

(** ** Witnesses *)
Section Wit.
Context (fopq : magic -> spec_float -> spec_float -> spec_float) (fpowi : spec_float -> Z -> spec_float).
(** Function 0 prints its argument: the world is what has been printed. *)
Definition uc1 : ufun (W := list val) := fun f vs g w => match f with O => Some (Val VNone, g, vs ++ w) | _ => Some (Val (VInt 7), g, w) end.
Definition ret1 (f : nat) : ty := match f with O => TNone | _ => TInt end.
Definition st1 (f : nat) : status := match f with O => UNKNOWN | _ => PURE end.
Definition ten (g : bool) (i : nat) : ty := match i with 5 => TFloat | _ => TInt end.
Definition xi (i : nat) : var := Var i (ten false i) false.
Definition z0 (i : nat) := 0.
Lemma uc1_ext U : uc_ext uc1 U.
Proof. intros f vs g1 g2 w H. destruct f; cbn; auto. Qed.
Lemma uc1_wt : wt_ufun ret1 ten uc1.
Proof. intros f vs g w o g' w' H. destruct f; injection H as <- <- <-; cbn; split; auto. unfold in64, min64, max64. lia. Qed.
Lemma uc1_honest U : honest uc1 U st1.
Proof. intros [|f] H vs g w o g' w' E; [discriminate|]. injection E as <- <- <-. split; eauto. split; auto. intros i _; auto. Qed.
(** operands in reverse order of their constants *)
Definition rankc (e : node) : bool := match e with Const _ => true | _ => false end.
Definition ord1 (l : list node) : list node := filter (fun e => negb (rankc e)) l ++ filter rankc l.
Lemma ord1_perm l : Permutation l (ord1 l).
Proof.
  unfold ord1. induction l as [|a l IH]; cbn; auto. destruct (rankc a); cbn; [|now constructor]. now apply Permutation_cons_app.
Qed.
Definition gt1 (a b : node) : bool := rankc a && negb (rankc b).
Notation int c := (Const (VInt c%Z)).
Notation bin m a b := (Call (Magic m [TInt; TInt]) [a; b]).

(** 1 != x is flipped to x != 1, which is different when x is NaN. *)
Theorem C22_flipping_ne_refuted py : let x := VarV (xi 5) in
  let e := Call (Magic Ne [TInt; TFloat]) [int 1; x] in
  let e' := Call (Magic Ne [TFloat; TInt]) [x; int 1] in
  let s := St (fun i => match i with 5 => VFloat S754_nan | _ => VInt 0 end) (fun i => match i with 5 => VFloat S754_nan | _ => VInt 0 end) [] in
  wt ret1 ten e /\ wt_state ten s /\
  canon_pass (hasSideEffect py st1 true (used z0 z0 e)) (canon_rules ret1 ord1 gt1 (fun _ _ => false)) e = Ok e' /\
  ev fopq fpowi py uc1 1 e s = Some (Val (VBool false), s) /\ ev fopq fpowi py uc1 1 e' s = Some (Val (VBool true), s).
Proof.
  cbv zeta. split; [|split; [|split; [|split]]].
  - cbn. repeat split; eauto; unfold in64, min64, max64; lia.
  - split; intros i; cbn; do 6 (destruct i as [|i]; cbn; auto; try (unfold in64, min64, max64; lia)).
  - destruct py; vm_compute; reflexivity.
  - destruct py; reflexivity.
  - destruct py; reflexivity.
Qed.

(** x1 = f1(x0) - 5; print((3 + x0*x2) + (4*x0 + x1)); the canonical program is different and prints the same. *)
Definition prog2 : node := Series [
  Series [Assign (xi 1) (bin Sub (Call (User 1) [VarV (xi 0)]) (int 5))];
  Call (User 0) [bin Add (bin Add (int 3) (bin Mul (VarV (xi 0)) (VarV (xi 2)))) (bin Add (bin Mul (int 4) (VarV (xi 0))) (VarV (xi 1)))];
  Call (User 0) [bin Add (bin Mul (int 4) (VarV (xi 0))) (bin Mul (VarV (xi 0)) (VarV (xi 2)))];
  If (bin Gt (int 3) (VarV (xi 0))) (Return (int 1)) (Series [])].
Definition prog2' : node := Series [
  Assign (xi 1) (bin Add (Call (User 1) [VarV (xi 0)]) (int (-5)));
  Call (User 0) [bin Add (bin Add (bin Add (bin Mul (VarV (xi 0)) (VarV (xi 2))) (bin Mul (VarV (xi 0)) (int 4))) (VarV (xi 1))) (int 3)];
  Call (User 0) [bin Mul (bin Add (int 4) (VarV (xi 2))) (VarV (xi 0))];
  If (bin Lt (VarV (xi 0)) (int 3)) (Return (int 1)) (Series [])].
Example C22_applies : wt ret1 ten prog2 /\ nomix prog2 /\
  canon_pass (hasSideEffect false st1 true (used z0 z0 prog2)) (canon_rules ret1 ord1 gt1 (fun _ _ => false)) prog2 = Ok prog2' /\
  forall s, wt_state ten s -> exists o s', ev fopq fpowi false uc1 1 prog2 s = Some (o, s') /\ o <> UB.
Proof.
  split; [|split; [|split]].
  - cbn. repeat split; eauto; unfold in64, min64, max64; lia.
  - cbn. tauto.
  - vm_compute. reflexivity.
  - intros s [HS _]. assert (H0 := HS 0). assert (H2 := HS 2). cbn in H0, H2. destruct (loc s 0) eqn:E0; try contradiction. destruct (loc s 2) eqn:E2; try contradiction.
    assert (K : exists o s', ev fopq fpowi false uc1 1 prog2 s = Some (o, s') /\ o <> UB); [|exact K].
    cbn. unfold get. cbn. do 6 (rewrite ?E0, ?E2; cbn).
    destruct (z <? 3)%Z; cbn; eexists; eexists; (split; [reflexivity|intro Z; inversion Z]).
Qed.

(** while True: pass; return 1 -- never ends, but does once the loop is removed. *)
Theorem C23_endless_loop_removed_refuted py : let e := Series [While (Const (VBool true)) (Series []); Return (int 1)] in
  let e' := Series [Return (int 1)] in
  wt ret1 ten e /\ dce (hasSideEffect py st1 true (used z0 z0 e)) true e = e' /\
  (forall n s, ev fopq fpowi py uc1 n e s = None) /\ (forall n s, ev fopq fpowi py uc1 n e' s = Some (Ret (VInt 1), s)).
Proof.
  cbv zeta. split; [cbn; repeat split; unfold in64, min64, max64; lia|]. split; [destruct py; reflexivity|]. split; [|reflexivity].
  intros n s. cbn. generalize n at 1 as k. intros k. assert (K : forall k s, while_loop k (fun s : state (list val) => Some (Val (VBool true), s)) (fun s => Some (Val VNone, s)) s = None).
  { clear. induction k; intros s; cbn; auto. }
  now rewrite K.
Qed.

(** x1 is assigned but never read; one branch of the if and the second while remain. *)
Definition prog3 : node := Series [
  Assign (xi 1) (Call (User 1) [VarV (xi 0)]);
  If (Const (VBool true)) (Series [Assign (xi 2) (int 4); Assign (xi 1) (int 3)]) (Call (User 0) [int 1]);
  While (Const (VBool false)) (Call (User 0) [int 2]);
  ImpFor (xi 3) (int 9) 1 (int 9) (Call (User 0) [int 3]);
  ImpFor (xi 3) (int 8) 1 (int 9) (Call (User 0) [bin Add (VarV (xi 2)) (VarV (xi 3))]);
  bin Mul (VarV (xi 0)) (VarV (xi 0));
  Return (Ternary (Const (VBool false)) (int 1) (VarV (xi 2)))].
Definition prog3' : node := Series [
  Series [Assign (xi 2) (int 4); Assign (xi 1) (int 3)];
  Series []; Series [];
  ImpFor (xi 3) (int 8) 1 (int 9) (Call (User 0) [bin Add (VarV (xi 2)) (VarV (xi 3))]);
  Return (VarV (xi 2))].
Example C23_applies : wt ret1 ten prog3 /\ dce (hasSideEffect true st1 true (used z0 z0 prog3)) true prog3 = prog3' /\
  forall s, wt_state ten s -> exists s', ev fopq fpowi true uc1 2 prog3 s = Some (Ret (VInt 4), s') /\ wld s' = VInt 12 :: wld s.
Proof.
  split; [cbn; repeat split; eauto; unfold in64, min64, max64; lia|]. split; [vm_compute; reflexivity|].
  intros s [HS _]. assert (H0 := HS 0). cbn in H0. destruct (loc s 0) eqn:E0; try contradiction.
  eexists. split; [|].
  - cbn. unfold get. cbn. rewrite ?E0. cbn. rewrite ?E0. cbn. reflexivity.
  - reflexivity.
Qed.
End Wit.
Print Assumptions C22_flipping_ne_refuted.
Print Assumptions C23_endless_loop_removed_refuted.
