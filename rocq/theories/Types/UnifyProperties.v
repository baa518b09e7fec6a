(** C27 unification, C28 undoing a unification, C29 generalisation and instantiation. *)
From Coq Require Import List Bool Arith ZArith Lia String.
From Verif.Common Require Import Result.
From Verif.Types Require Import Unify UnifySpec UnifyProofs UnifySound UnifyTerm GenProofs.
Import ListNotations.
Open Scope res_scope.
Open Scope nat_scope.
Open Scope list_scope.

Definition noLog := Log [] [] [].

(** * C27 *)
(** After a successful unification, every reading of the variables that respects the links makes the
    two types the same (up to literals for their class, Int[64] for int, surplus hidden generics). *)
Theorem C27_unified_types_agree fuel a b s l n s' l' : unify fuel true a b (s, l) = Ok (Some n, (s', l')) ->
  (forall v t, link (s v) = Some t -> link (s' v) = Some t) /\
  forall r, sat r s' -> compat (den r a) (den r b).
Proof.
  intros H. split.
  - intros v t. pose proof (unify_steps _ _ _ _ _ _ H) as S. apply (steps_ext _ _ _ S).
  - intros r S. exact (unify_sound fuel r a b (s, l) n (s', l') H S).
Qed.

(** When all parameters are known, the two types are compiled to the same type. *)
Theorem C27_unified_types_compile_to_one_type slot fuel a b s l n s' l' r :
  unify fuel true a b (s, l) = Ok (Some n, (s', l')) -> sat r s' ->
  proper slot (den r a) -> proper slot (den r b) ->
  asClass (real slot (den r a)) = asClass (real slot (den r b)).
Proof.
  intros H S Pa Pb. pose proof (unify_sound fuel r a b (s, l) n (s', l') H S) as C.
  apply (proj1 (compat_real slot) _ _ C); auto.
Qed.

(** Unification rules out no reading that makes the two types equal, whether it succeeds or not. *)
Theorem C27_unification_is_most_general fuel a b s l o s' l' r :
  unify fuel true a b (s, l) = Ok (o, (s', l')) -> sat r s -> den r a = den r b -> sat r s'.
Proof. intros H S E. exact (unify_general fuel r a b (s, l) o (s', l') H S E). Qed.

(** For types without literals, generics and hidden generics, failure means that no reading of the
    variables makes the two types equal. *)
Theorem C27_failure_means_no_solution_partial fuel a b s l s' l' :
  unify fuel true a b (s, l) = Ok (None, (s', l')) ->
  simple a -> simple b -> everywhere simple s -> (forall v, link (s v) = None -> sk (s v) = Runtime) ->
  forall r, sat r s -> den r a <> den r b.
Proof.
  intros H Sa Sb E R r S D.
  destruct (unify_complete fuel r a b (s, l) None (s', l') H (conj S (conj E R)) Sa Sb D) as [N _]. congruence.
Qed.

(** Without hidden generics: unification ends, with a defined result, and makes no cyclic type. *)
Theorem C27_unification_ends N d a b s l :
  plain a -> plain b -> everywhere plain s -> acyclic s ->
  below N a -> below N b -> everywhere (below N) s ->
  exists fuel o s' l', unify fuel d a b (s, l) = Ok (o, (s', l')).
Proof.
  intros Pa Pb Ps A Ba Bb Bs.
  destruct (plain_nodes s a A Pa) as [na Na]. destruct (plain_nodes s b A Pb) as [nb Nb].
  destruct (unify_ends N d (S (count N s)) (S (2 * (na + nb) + flip a b)) a b (s, l) na nb) as [fuel [[o [s' l']] E]];
    try split; auto.
  - intros v t H. split; [eapply Ps; eauto | eapply Bs; eauto].
  - exists fuel, o, s', l'. exact E.
Qed.
Theorem C27_no_cyclic_types_partial fuel a b s l o s' l' : unify fuel true a b (s, l) = Ok (o, (s', l')) ->
  plain a -> plain b -> everywhere plain s -> acyclic s -> everywhere plain s' /\ acyclic s'.
Proof.
  intros H Pa Pb Ps A. assert (S : steps plain (s, l) (s', l')) by (eapply unify_plain; eauto). split.
  - apply (steps_everywhere _ _ _ S Ps).
  - apply (steps_acyclic _ _ S Ps A).
Qed.

(** The links of a store without cycles always describe types. *)
Fixpoint out (fuel : nat) (s : store) (t : ty) : ty :=
  match fuel with
  | O => t
  | S f => match t with
           | Var v => match link (s v) with Some t' => out f s t' | None => t end
           | Cls n gs hs => Cls n (map (out f s) gs) (map (out f s) hs)
           | _ => t
           end
  end.
Lemma out_stable s : (forall t n, nodes s t n -> forall f g, n <= f -> n <= g -> out f s t = out g s t) /\
  (forall l n, nodess s l n -> forall f g, n <= f -> n <= g -> map (out f s) l = map (out g s) l).
Proof.
  apply nodes_mut.
  - intros v H [| f] [| g] Hf Hg; try lia. simpl. rewrite H. auto.
  - intros v t n H _ IH [| f] [| g] Hf Hg; try lia. simpl. rewrite H. apply IH; lia.
  - intros g0 k [| f] [| g] Hf Hg; try lia. reflexivity.
  - intros l [| f] [| g] Hf Hg; try lia. reflexivity.
  - intros c gs hs n m _ IH1 _ IH2 [| f] [| g] Hf Hg; try lia. simpl. f_equal; [apply IH1 | apply IH2]; lia.
  - reflexivity.
  - intros t l n m _ IH1 _ IH2 f g Hf Hg. simpl. f_equal; [apply IH1 | apply IH2]; lia.
Qed.
Lemma out_den s F : (forall t n, nodes s t n -> n <= F -> den (fun v => out F s (Var v)) t = out F s t) /\
  (forall l n, nodess s l n -> n <= F -> map (den (fun v => out F s (Var v))) l = map (out F s) l).
Proof.
  apply nodes_mut; try reflexivity.
  - intros. destruct F; reflexivity.
  - intros. destruct F; reflexivity.
  - intros c gs hs n m H1 IH1 H2 IH2 H. destruct F as [| f]; [lia |]. simpl den.
    specialize (IH1 ltac:(lia)). specialize (IH2 ltac:(lia)).
    change (out (S f) s (Cls c gs hs)) with (Cls c (map (out f s) gs) (map (out f s) hs)). f_equal.
    + etransitivity; [exact IH1 |]. eapply (proj2 (out_stable s)); eauto; lia.
    + etransitivity; [exact IH2 |]. eapply (proj2 (out_stable s)); eauto; lia.
  - intros t l n m _ IH1 _ IH2 H. simpl. f_equal; [apply IH1 | apply IH2]; lia.
Qed.
Theorem C27_links_have_a_reading N s : acyclic s -> (forall v, N <= v -> link (s v) = None) ->
  everywhere plain s -> exists r, sat r s.
Proof.
  intros A B P.
  assert (X : exists F, forall v, v < N -> exists n, n <= F /\ nodes s (Var v) n).
  { clear B. induction N as [| M [F IH]]; [exists 0; intros; lia |]. destruct (A M) as [n Hn].
    exists (max F n). intros v Hv. destruct (Nat.eq_dec v M) as [-> |]; [exists n; split; auto; lia |].
    destruct (IH v) as [m [L H]]; [lia |]. exists m. split; auto. lia. }
  destruct X as [F HF]. exists (fun v => out F s (Var v)). intros v t Hv.
  assert (v < N) by (destruct (Nat.lt_ge_cases v N); auto; rewrite B in Hv by auto; discriminate).
  destruct (HF v H) as [n [L Hn]]. inv Hn; [congruence |]. rewrite Hv in H1. injection H1 as <-.
  rewrite (proj1 (out_den s F) t n0) by (auto; lia).
  destruct F as [| f]; [lia |]. change (out (S f) s (Var v)) with (match link (s v) with Some t' => out f s t' | None => Var v end).
  rewrite Hv. apply (proj1 (out_stable s) t n0); auto; lia.
Qed.

(** A variable for a literal is only linked to literals of its kind and variables for them. *)
Theorem C27_static_variables_hold_literals fuel a b s l o s' l' :
  unify fuel true a b (s, l) = Ok (o, (s', l')) -> kinded s -> kinded s'.
Proof. intros H. apply unify_steps in H. apply (steps_kinded _ _ _ H). Qed.

(** ** What does not hold *)
Definition empty : store := fun _ => Cell None 0 Runtime.
Definition cint := Cls nint [] []. Definition cstr := Cls nstr [] [].
Definition pair (a b : ty) := Cls 10 [a; b] [].

(** The full claim "both become the same type" fails for literals: Literal[5] and int unify. *)
Theorem C27_literal_unifies_with_its_class_refuted :
  exists fuel n st, unify fuel true (Lit (LInt 5)) cint (empty, noLog) = Ok (Some n, st) /\
    forall r, den r (Lit (LInt 5)) <> den r cint.
Proof. exists 2, 3. eexists. split; [reflexivity |]. discriminate. Qed.
(** Hidden generics are not searched for the variable: ?0 := C with hidden generic ?0. *)
Theorem C27_cycle_through_hidden_generics_refuted :
  exists fuel a b n s' l', acyclic empty /\ unify fuel true a b (empty, noLog) = Ok (Some n, (s', l')) /\ ~ acyclic s'.
Proof.
  exists 3, (Var 0), (Cls 11 [] [Var 0]). do 3 eexists. split; [| split; [reflexivity |]].
  - intros v. exists 1. constructor. reflexivity.
  - intros A. destruct (A 0) as [n H]. simpl in H.
    revert H. match goal with |- nodes ?s _ _ -> _ => set (s1 := s) end.
    assert (G : forall m, nodes s1 (Var 0) m -> False); [| apply G].
    induction m as [m IH] using (well_founded_induction lt_wf). intros H.
    inversion H as [v Hv | v t n1 Hv H1 | | |]; subst; [discriminate Hv |].
    injection Hv as <-. inversion H1 as [| | | | c gs hs x y Hx Hy]; subst. inv Hx. inversion Hy as [| t l p q Hp Hq]; subst.
    inv Hq. apply (IH p); auto. lia.
Qed.
(** The result depends on the order of the operands: a static variable does not accept a runtime
    variable, but a runtime variable becomes static. *)
Definition oneStatic : store := fun v => Cell None 0 (if v =? 0 then KInt else Runtime).
Theorem C27_order_matters_refuted :
  exists fuel n st st', unify fuel true (Var 1) (Var 0) (oneStatic, noLog) = Ok (Some n, st) /\
    unify fuel true (Var 0) (Var 1) (oneStatic, noLog) = Ok (None, st').
Proof. exists 3, 0. do 2 eexists. split; reflexivity. Qed.
(** A dry run, used to choose overloads, can accept what unification rejects and the reverse. *)
Theorem C27_dry_run_differs_refuted :
  (exists fuel a b n st', unify fuel false a b (empty, noLog) = Ok (Some n, (empty, noLog)) /\
     unify fuel true a b (empty, noLog) = Ok (None, st')) /\
  (exists fuel a b n st', unify fuel false a b (oneStatic, noLog) = Ok (None, (oneStatic, noLog)) /\
     unify fuel true a b (oneStatic, noLog) = Ok (Some n, st')).
Proof.
  split.
  - exists 5, (pair (Var 1) (Var 1)), (pair cint cstr). do 2 eexists. split; vm_compute; reflexivity.
  - exists 9, (pair (Var 2) (Var 0)), (pair (Lit (LInt 5)) (Var 2)).
    do 2 eexists. split; vm_compute; reflexivity.
Qed.

(** * C28 *)
(** One log may record several attempts. *)
Inductive attempts : state -> state -> Prop :=
  | at_nil st : attempts st st
  | at_cons fuel a b st o st1 st2 : unify fuel true a b st = Ok (o, st1) -> attempts st1 st2 -> attempts st st2.
Theorem C28_undo_restores_everything s s' l' : attempts (s, noLog) (s', l') ->
  exists s0, undo (s', l') = Ok s0 /\ forall v, s0 v = s v.
Proof.
  intros H. apply undo_ok.
  assert (G : forall x y, attempts x y -> undoable s (fst x) (snd x) -> undoable s (fst y) (snd y)).
  { intros x y A. induction A; auto. intros U. apply IHA. apply unify_steps in H0.
    eapply undoable_steps; eauto. }
  apply (G _ _ H). apply undoable_refl.
Qed.
Theorem C28_failed_unification_changes_nothing fuel a b s s' :
  unifyOrUndo fuel a b s = Ok (false, s') -> forall v, s' v = s v.
Proof.
  unfold unifyOrUndo. intros H v. unbind H. destruct x as [[n |] st]; [discriminate |].
  unbind H. injection H as <-. destruct st as [s1 l1].
  destruct (unify_undo _ _ _ _ _ _ H0) as [s2 [E1 E2]]. rewrite E1 in H1. injection H1 as <-. auto.
Qed.
Theorem C28_failed_unification_never_aborts fuel a b s o st :
  unify fuel true a b (s, noLog) = Ok (o, st) -> exists ok s', unifyOrUndo fuel a b s = Ok (ok, s').
Proof.
  intros H. unfold unifyOrUndo. fold noLog. rewrite H. simpl. destruct o; [eauto |].
  destruct (unify_undo _ _ _ _ _ _ H) as [s2 [E1 E2]]. rewrite E1. simpl. eauto.
Qed.
Theorem C28_dry_run_changes_nothing fuel a b st o st' : unify fuel false a b st = Ok (o, st') -> st' = st.
Proof. apply unify_dry. Qed.

Definition deep (k : nat) : store := fun v => Cell None (k + v) Runtime.
(** Something is linked, lowered and made static before the failure, and everything comes back. *)
Definition triple (a b c : ty) := Cls 12 [a; b; c] [].
Example C28_case : exists o s1 l1,
  unify 6 true (triple (Var 0) (Var 3) cint) (triple (pair (Var 1) (Var 2)) (Lit (LInt 5)) cstr) (deep 0, noLog) = Ok (o, (s1, l1))
  /\ o = None /\ linked l1 = [3; 0] /\ leveled l1 = [(2, 2); (1, 1)] /\ statics l1 = [3].
Proof. do 3 eexists. split; [reflexivity |]. repeat split. Qed.

(** * C29 *)
Section C29.
Context (slot hslot : nat -> nat -> kind).

(** [g] generalises [t] at level L, and [t'] instantiates [g] at level L'. Written out, [t'] is [t] with
    the variables of levels below L kept and every other variable (and generic) h replaced by a new
    variable [f h]: unbound, at level L' and of the same kind as h. Nothing old changes. *)
Theorem C29_generalize_then_instantiate fuel fuel' s N K L L' t g t' x' :
  generalize slot hslot fuel s L t = Ok g ->
  instantiate slot hslot fuel' L' g (Inst s N []) = Ok (t', x') ->
  uses N K t -> everywhere (uses N K) s -> (forall v, L <= level (s v) -> sk (s v) = K v) ->
  exists t0 f, resolves slot hslot s t t0 /\ (forall h h', f h = f h' -> h = h') /\ (forall h, N <= f h) /\
    t' = gsub (fun h => Var (f h)) (den (fun v => if L <=? level (s v) then Gen v (sk (s v)) else Var v) t0) /\
    (forall v, v < N -> ist x' v = s v) /\
    (forall h, mentions t' (f h) -> ist x' (f h) = Cell None L' (K h)).
Proof. apply copy_ok. Qed.

(** The copy shares only variables of outer levels with the original. *)
Theorem C29_copy_shares_no_generalised_variable fuel fuel' s N K L L' t g t' x' v :
  generalize slot hslot fuel s L t = Ok g ->
  instantiate slot hslot fuel' L' g (Inst s N []) = Ok (t', x') ->
  uses N K t -> everywhere (uses N K) s -> (forall v, L <= level (s v) -> sk (s v) = K v) ->
  mentions t' v -> v < N -> level (s v) < L.
Proof.
  intros H1 H2 U E HK M Hv. destruct (copy_ok _ _ _ _ _ _ _ _ _ _ _ _ _ H1 H2 U E HK) as [t0 [f [R [_ [F [-> _]]]]]].
  apply gsub_mentions in M. destruct M as [M | [h [_ ->]]]; [| specialize (F h); lia].
  clear - M. induction t0 using ty_ind2; simpl in M.
  - unfold gen in M. destruct (Nat.leb_spec L (level (s v0))); inv M. auto.
  - inv M.
  - inv M.
  - rewrite Forall_forall in *. inv M. destruct H5 as [Hin | Hin]; apply in_map_iff in Hin; destruct Hin as [t1 [<- Hin]]; eauto.
Qed.

(** Both functions end when there are no cycles. *)
Theorem C29_generalize_and_instantiate_end s N K L L' t n : nodes s t n -> uses N K t ->
  everywhere (uses N K) s ->
  (exists fuel g, generalize slot hslot fuel s L t = Ok g) /\
  (exists fuel r, instantiate slot hslot fuel L' t (Inst s N []) = Ok r).
Proof.
  intros H U E. split.
  - exists n. apply (proj1 (generalize_ends slot hslot s L) t n H). lia.
  - exists n. apply (proj1 (instantiate_ends slot hslot K N L' s) t n H); auto.
    split; [simpl; lia |]. simpl. intros v u _ Hl. eapply E; eauto.
Qed.

(** Variables of outer scopes: in a scoped store, what is known about a variable of a level below L is
    never generalised at level L. *)
Theorem C29_outer_variables_are_not_generalised fuel s L v g : scoped s -> everywhere plain s ->
  level (s v) < L -> generalize slot hslot fuel s L (Var v) = Ok g ->
  exists t0, resolves slot hslot s (Var v) t0 /\ g = t0.
Proof.
  intros S P Hv H. destruct (generalize_ok _ _ _ _ _ _ _ H) as [t0 [R ->]]. exists t0. split; auto.
  assert (A : (forall t t0, resolves slot hslot s t t0 -> plain t -> (forall u, reach s t u -> level (s u) < L) ->
                 den (gen s L) t0 = t0) /\
    (forall k i l l0, resolvess slot hslot s k i l l0 -> Forall plain l ->
       (forall t u, In t l -> reach s t u -> level (s u) < L) -> map (den (gen s L)) l0 = l0)).
  { apply resolves_mut; auto.
    - intros w Hw _ Hr. simpl. unfold gen. specialize (Hr w ltac:(constructor; auto)).
      destruct (Nat.leb_spec L (level (s w))); [lia | auto].
    - intros w t t1 Hw _ IH _ Hr. apply IH; [eapply P; eauto |]. intros u Hu. apply Hr. eapply r_link; eauto.
    - intros n gs hs gs0 hs0 _ I1 _ I2 Hp Hr. inv Hp. simpl. f_equal; [apply I1; auto |].
      + intros t u Hin Hu. apply Hr. eapply r_cls; eauto.
      + apply I2; auto. intros t u [].
    - intros k i t t1 l l0 _ I1 _ I2 Hp Hr. inv Hp. simpl. f_equal; [| apply I2; auto; intros; eapply Hr; eauto; right; auto].
      specialize (I1 H2 (fun u Hu => Hr t u (or_introl eq_refl) Hu)). unfold inKind. destruct (k i); auto.
      destruct t1; auto. }
  apply (proj1 A (Var v) t0 R); [constructor |]. intros u Hu. apply S in Hu. lia.
Qed.
(** Unification keeps stores scoped, and never raises the level of a variable. *)
Theorem C29_unification_keeps_scopes fuel a b s l o s' l' :
  unify fuel true a b (s, l) = Ok (o, (s', l')) -> scoped s -> scoped s' /\ forall v, level (s' v) <= level (s v).
Proof.
  intros H S. apply unify_steps in H. split; [apply (steps_scoped _ _ _ H S) |].
  intros v. apply (steps_level _ _ _ v H).
Qed.
End C29.

(** The same is false with hidden generics: their levels are not lowered, so a variable that an outer
    variable depends on is generalised. *)
Definition allRuntime (_ _ : nat) := Runtime.
Theorem C29_hidden_generics_escape_refuted : exists fuel s a b n s' l' g,
  scoped s /\ unify fuel true a b (s, noLog) = Ok (Some n, (s', l')) /\ a = Var 0 /\ level (s' 0) < 1 /\
  generalize allRuntime allRuntime fuel s' 1 (Var 0) = Ok g /\ generic g 1.
Proof.
  exists 5, (deep 0), (Var 0), (Cls 11 [] [Var 1]). do 4 eexists. repeat split.
  - intros v u H. inv H; [auto | discriminate].
  - simpl. lia.
  - simpl. eapply g_cls; [right; left; reflexivity | constructor].
Qed.

(** * The theorems apply *)
(** pair[?0, ?0] with pair[?1, list[?2]] *)
Definition lst (t : ty) := Cls 13 [t] [].
Example C27_case : exists n s' l',
  unify 9 true (pair (Var 0) (Var 0)) (pair (Var 1) (lst (Var 2))) (empty, noLog) = Ok (Some n, (s', l')) /\
  link (s' 1) = Some (Var 0) /\ link (s' 0) = Some (lst (Var 2)) /\ link (s' 2) = None.
Proof. do 3 eexists. split; [reflexivity |]. repeat split. Qed.
Example C27_case_hypotheses : plain (pair (Var 0) (Var 0)) /\ plain (pair (Var 1) (lst (Var 2))) /\
  everywhere plain empty /\ acyclic empty /\ kinded empty /\ scoped empty /\
  below 3 (pair (Var 0) (Var 0)) /\ simple (pair (Var 1) (lst (Var 2))).
Proof.
  unfold pair, lst. split; [| split; [| split; [| split; [| split; [| split; [| split]]]]]].
  - repeat constructor; discriminate.
  - repeat constructor; discriminate.
  - intros v t H. discriminate H.
  - intros v. exists 1. constructor. reflexivity.
  - intros v t H. discriminate H.
  - intros v u H. inv H; [auto | discriminate].
  - repeat constructor.
  - repeat constructor.
Qed.
(** failure: pair[?0, ?0] with pair[int, list[?2]] *)
Example C27_failure_case : exists s' l',
  unify 9 true (pair (Var 0) (Var 0)) (pair cint (lst (Var 2))) (empty, noLog) = Ok (None, (s', l')).
Proof. do 2 eexists. reflexivity. Qed.
(** an occurs check: ?0 with list[?0] *)
Example C27_occurs_case : exists st', unify 9 true (Var 0) (lst (Var 0)) (empty, noLog) = Ok (None, st').
Proof. eexists. reflexivity. Qed.
(** list[N=5] in a static slot, list of a literal in a runtime slot *)
Example C27_proper_case : proper (fun n i => if n =? 14 then KInt else Runtime) (Cls 14 [Lit (LInt 5)] []) /\
  proper (fun n i => if n =? 14 then KInt else Runtime) (pair (Lit (LInt 5)) cint).
Proof.
  split; constructor; try discriminate; try (intros [H | [H | H]]; discriminate).
  - intros [| [| i]] g H; try discriminate. injection H as <-. split; [constructor | eauto].
  - intros [| [| [| i]]] g H; try discriminate; injection H as <-; simpl; split; try constructor; try congruence; try discriminate.
    intros [| i] g H; discriminate.
Qed.
(** Generalising pair[?5, ?1] (level of ?n is n) at level 3 and instantiating it: ?5 becomes ?6, ?1 stays. *)
Example C29_case : exists g x',
  generalize allRuntime allRuntime 9 (deep 0) 3 (pair (Var 5) (pair (Var 1) (Var 5))) = Ok g /\
  g = pair (Gen 5 Runtime) (pair (Var 1) (Gen 5 Runtime)) /\
  instantiate allRuntime allRuntime 9 4 g (Inst (deep 0) 6 []) = Ok (pair (Var 6) (pair (Var 1) (Var 6)), x') /\
  level (ist x' 6) = 4 /\ next x' = 7.
Proof. do 2 eexists. repeat split. Qed.

Print Assumptions C27_unified_types_agree.
Print Assumptions C27_unified_types_compile_to_one_type.
Print Assumptions C27_unification_is_most_general.
Print Assumptions C27_failure_means_no_solution_partial.
Print Assumptions C27_unification_ends.
Print Assumptions C27_no_cyclic_types_partial.
Print Assumptions C27_links_have_a_reading.
Print Assumptions C27_static_variables_hold_literals.
Print Assumptions C28_undo_restores_everything.
Print Assumptions C28_failed_unification_changes_nothing.
Print Assumptions C29_generalize_then_instantiate.
Print Assumptions C29_copy_shares_no_generalised_variable.
Print Assumptions C29_outer_variables_are_not_generalised.
Print Assumptions C29_unification_keeps_scopes.
