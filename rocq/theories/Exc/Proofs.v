(** C54: the generated code simulates the source, for the covered statements. *)
From Coq Require Import List Bool Arith Lia.
From Verif Require Import Exc.Spec Exc.Model.
Import ListNotations.

Section Sim.
  Context {S V X : Type}.
  Context (isinst : X -> nat -> bool).
  Context (P : nat -> option (@instr S V X)).

  Local Notation stmt := (stmt S V X).
  Local Notation handlers := (handlers S V X).
  Local Notation outcome := (outcome S V X).
  Local Notation mstate := (@mstate S V X).
  Local Notation mem := (@mem V X).
  Local Notation cell := (@cell V X).
  Local Notation code := (@code S V X).
  Local Notation step := (step isinst P).
  Local Notation exec := (exec isinst).
  Local Notation exec_protected := (exec_protected isinst).
  Local Notation catches := (catches isinst).

  Inductive star : mstate -> mstate -> Prop :=
  | star_refl st : star st st
  | star_step st st1 st2 : step st = Some st1 -> star st1 st2 -> star st st2.

  Lemma star_trans a b c : star a b -> star b c -> star a c.
  Proof. induction 1; eauto using star_step. Qed.

  Lemma star_run a b : star a b -> exists n, run isinst P n a = b.
  Proof.
    induction 1 as [st|st st1 st2 E _ [n IH]].
    - exists 0. reflexivity.
    - exists (Datatypes.S n). simpl. rewrite E. exact IH.
  Qed.

  Definition installed (c : code) : Prop := forall l i, In (l, i) c -> P l = Some i.

  Lemma installed_app a b : installed (a ++ b) <-> installed a /\ installed b.
  Proof.
    unfold installed. split.
    - intro H. split; intros l i I; apply H, in_or_app; auto.
    - intros [H1 H2] l i I. apply in_app_or in I. destruct I; auto.
  Qed.

  Lemma installed_cons l i c : installed ((l, i) :: c) <-> P l = Some i /\ installed c.
  Proof.
    unfold installed. split.
    - intro H. split; [apply H; left; reflexivity | intros; apply H; right; auto].
    - intros [H1 H2] l' i' [E|I]; [injection E as <- <-; exact H1 | auto].
  Qed.

  (** *** Where a statement stands *)

  Inductive frame : Type :=
  | FrLoop (l : loopd)
  | FrTry (t : tryd) (fq : option nat)
  | FrFin (t : tryd).

  Definition retag (t : tryd) (q : nat) : tryd :=
    mkTry q (t_exc t) (t_route t) (t_fin t) (t_finexc t) (t_types t) (t_cell t).

  Fixpoint ctx_of (fr : list frame) : ctx :=
    match fr with
    | [] => ctx0
    | FrLoop l :: r =>
        let g := ctx_of r in mkCtx (l :: loops g) (tries g) (finallys g)
    | FrTry t fq :: r =>
        let g := ctx_of r in
        mkCtx (loops g) (t :: tries g)
              (match fq with Some q => retag t q :: finallys g | None => finallys g end)
    | FrFin t :: r =>
        let g := ctx_of r in mkCtx (loops g) (tries g) (t :: finallys g)
    end.

  Fixpoint cell_of (fr : list frame) : option nat :=
    match fr with
    | [] => None
    | FrTry t _ :: _ => Some (t_cell t)
    | _ :: r => cell_of r
    end.

  Fixpoint loop_seq (fr : list frame) : option nat :=
    match fr with
    | [] => None
    | FrLoop l :: _ => Some (l_seq l)
    | _ :: r => loop_seq r
    end.

  Fixpoint nofin (fr : list frame) : Prop :=
    match fr with [] => True | FrFin _ :: _ => False | _ :: r => nofin r end.

  Fixpoint wf (n : nat) (fr : list frame) : Prop :=
    match fr with
    | [] => True
    | FrLoop l :: r => l_seq l < n /\ wf (l_seq l) r
    | FrTry t fq :: r =>
        t_seq t < n /\ t_cell t < t_seq t /\
        (forall c, cell_of r = Some c -> t_cell t = c) /\
        match fq with
        | Some q => q < t_seq t /\ wf q r
        | None => wf (t_seq t) r
        end
    | FrFin t :: r => t_seq t < n /\ wf (t_seq t) r
    end.

  Lemma wf_mono fr : forall n n', n <= n' -> wf n fr -> wf n' fr.
  Proof. destruct fr as [|[l|t fq|t] r]; simpl; intros; intuition lia. Qed.

  (** every sequence number of the stacks is below the supply *)
  Lemma wf_loops fr : forall n l, wf n fr -> In l (loops (ctx_of fr)) -> l_seq l < n.
  Proof.
    induction fr as [|[l0|t fq|t] r IH]; simpl; intros n l W I; [contradiction| | |].
    - destruct W as [W1 W2]. destruct I as [<-|I]; [exact W1|].
      specialize (IH _ _ W2 I). lia.
    - destruct W as (W1 & _ & _ & W2). destruct fq as [q|].
      + destruct W2 as [W2 W3]. specialize (IH _ _ W3 I). lia.
      + specialize (IH _ _ W2 I). lia.
    - destruct W as [W1 W2]. specialize (IH _ _ W2 I). lia.
  Qed.

  Lemma wf_tries fr : forall n t, wf n fr -> In t (tries (ctx_of fr)) -> t_seq t < n.
  Proof.
    induction fr as [|[l0|t0 fq|t0] r IH]; simpl; intros n t W I; [contradiction| | |].
    - destruct W as [W1 W2]. specialize (IH _ _ W2 I). lia.
    - destruct W as (W1 & _ & _ & W2). destruct I as [<-|I]; [exact W1|]. destruct fq as [q|].
      + destruct W2 as [W2 W3]. specialize (IH _ _ W3 I). lia.
      + specialize (IH _ _ W2 I). lia.
    - destruct W as [W1 W2]. specialize (IH _ _ W2 I). lia.
  Qed.

  Lemma wf_finallys fr : forall n t, wf n fr -> In t (finallys (ctx_of fr)) -> t_seq t < n.
  Proof.
    induction fr as [|[l0|t0 fq|t0] r IH]; simpl; intros n t W I; [contradiction| | |].
    - destruct W as [W1 W2]. specialize (IH _ _ W2 I). lia.
    - destruct W as (W1 & _ & _ & W2). destruct fq as [q|].
      + destruct W2 as [W2 W3]. destruct I as [<-|I]; simpl; [lia|].
        specialize (IH _ _ W3 I). lia.
      + specialize (IH _ _ W2 I). lia.
    - destruct W as [W1 W2]. destruct I as [<-|I]; [exact W1|].
      specialize (IH _ _ W2 I). lia.
  Qed.

  Lemma cell_of_tries fr :
    cell_of fr = match tries (ctx_of fr) with [] => None | t :: _ => Some (t_cell t) end.
  Proof. induction fr as [|[l0|t0 fq|t0] r IH]; simpl; auto. Qed.

  Lemma wf_cells fr : forall n t c,
    wf n fr -> cell_of fr = Some c -> In t (tries (ctx_of fr)) -> t_cell t = c.
  Proof.
    induction fr as [|[l0|t0 fq|t0] r IH]; simpl; intros n t c W C I; [discriminate| | |].
    - destruct W as [_ W]. eauto.
    - destruct W as (_ & _ & Wc & W). injection C as <-. destruct I as [<-|I]; [reflexivity|].
      assert (E : exists c', cell_of r = Some c').
      { rewrite cell_of_tries. destruct (tries (ctx_of r)); [contradiction|eauto]. }
      destruct E as [c' E]. rewrite (Wc _ E).
      destruct fq as [q|]; [destruct W as [_ W]|]; eapply IH; eauto.
    - destruct W as [_ W]. eauto.
  Qed.

  Lemma last_in {A} (l : list A) (d : A) : In (last l d) (d :: l).
  Proof.
    revert d. induction l as [|a l IH]; intro d; [left; reflexivity|].
    simpl. destruct l as [|b l']; [right; left; reflexivity|].
    destruct (IH d) as [E|I].
    - left. exact E.
    - right. right. exact I.
  Qed.

  Lemma root_cell_eq n fr f :
    wf n fr ->
    root_cell (tries (ctx_of fr)) f =
    match cell_of fr with Some c => c | None => f end.
  Proof.
    intro W. pose proof (cell_of_tries fr) as C.
    destruct (tries (ctx_of fr)) as [|t ts] eqn:E; rewrite C; [reflexivity|].
    simpl. eapply wf_cells; [exact W|exact C|]. rewrite E. apply last_in.
  Qed.

  (** *** The memory *)

  Definition calm (f : flag) : Prop := f = NotThrown \/ f = Caught.

  (** cells whose try resets its flag when entered *)
  Definition resets (c : nat) : Prop :=
    exists l, P (c - 27) = Some (ISetFlag c NotThrown l).

  (** [K] gives the contents of cells that must not change now *)
  Definition cell_ok (K : nat -> option cell) (act : option nat) (m : mem) (c : nat) : Prop :=
    match K c with
    | Some v => m c = v
    | None => c_depth (m c) = 0 /\
              (calm (c_flag (m c)) \/ (resets c /\ act <> Some c))
    end.

  Definition inv (K : nat -> option cell) (act : option nat) (m : mem) : Prop :=
    forall c, cell_ok K act m c.

  Definition others (K : nat -> option cell) (c : nat) (m : mem) : Prop :=
    forall c', c' <> c -> cell_ok K None m c'.

  Lemma upd_same (m : mem) c v : upd m c v c = v.
  Proof. unfold upd. rewrite Nat.eqb_refl. reflexivity. Qed.

  Lemma upd_other (m : mem) c v c' : c' <> c -> upd m c v c' = m c'.
  Proof. intro H. unfold upd. apply Nat.eqb_neq in H. rewrite H. reflexivity. Qed.

  Lemma cell_ok_weak K act m c : cell_ok K act m c -> cell_ok K None m c.
  Proof.
    unfold cell_ok. destruct (K c); [auto|]. intros [H1 [H2|[H2 _]]]; split; auto.
    right. split; [exact H2|discriminate].
  Qed.

  Lemma inv_weak K act m : inv K act m -> inv K None m.
  Proof. intros H c. eapply cell_ok_weak, H. Qed.

  Lemma inv_others K act m c : inv K act m -> others K c m.
  Proof. intros H c' _. eapply cell_ok_weak, H. Qed.

  Lemma others_upd K c m v : others K c m -> others K c (upd m c v).
  Proof.
    intros H c' N. specialize (H c' N). unfold cell_ok in *.
    rewrite (upd_other _ _ _ _ N). exact H.
  Qed.

  Lemma others_inv K c m :
    others K c m -> K c = None -> c_depth (m c) = 0 -> calm (c_flag (m c)) ->
    inv K (Some c) m.
  Proof.
    intros H N D F c'. destruct (Nat.eq_dec c' c) as [->|Nc].
    - unfold cell_ok. rewrite N. auto.
    - specialize (H c' Nc). unfold cell_ok in *. destruct (K c'); [exact H|].
      destruct H as [H1 [H2|[H2 _]]]; split; auto. right. split; [exact H2|congruence].
  Qed.

  Lemma inv_act K m act act' :
    inv K act m -> (act' = None \/ act' = act) -> inv K act' m.
  Proof. intros H [->| ->]; [eapply inv_weak; eauto|exact H]. Qed.

  (** pinning one more cell *)
  Definition pin (K : nat -> option cell) (c : nat) (v : cell) : nat -> option cell :=
    fun c' => if Nat.eqb c' c then Some v else K c'.

  Lemma pin_same K c v : pin K c v c = Some v.
  Proof. unfold pin. rewrite Nat.eqb_refl. reflexivity. Qed.

  Lemma pin_other K c v c' : c' <> c -> pin K c v c' = K c'.
  Proof. intro H. unfold pin. apply Nat.eqb_neq in H. rewrite H. reflexivity. Qed.

  Lemma pin_inv K c m act :
    others K c m -> (act = None \/ act = Some c) -> inv (pin K c (m c)) act m.
  Proof.
    intros H A c'. unfold cell_ok. destruct (Nat.eq_dec c' c) as [->|N].
    - rewrite pin_same. reflexivity.
    - rewrite (pin_other _ _ _ _ N). specialize (H c' N). unfold cell_ok in H.
      destruct (K c'); [exact H|]. destruct H as [H1 [H2|[H2 H3]]]; split; auto.
      right. split; [exact H2|]. destruct A; congruence.
  Qed.

  Lemma unpin_others K c v m act : inv (pin K c v) act m -> others K c m /\ m c = v.
  Proof.
    intro H. split.
    - intros c' N. specialize (H c'). apply cell_ok_weak in H.
      unfold cell_ok in *. rewrite (pin_other _ _ _ _ N) in H. exact H.
    - specialize (H c). unfold cell_ok in H. rewrite pin_same in H. exact H.
  Qed.

  Lemma others_pin K c v m : others (pin K c v) c m -> others K c m.
  Proof.
    intros H c' N. specialize (H c' N). unfold cell_ok in *.
    rewrite (pin_other _ _ _ _ N) in H. exact H.
  Qed.

  (** *** Which clause *)

  Definition first (ts : list (option nat)) (e : X) : option (option nat) :=
    find (catches e) ts.

  Fixpoint route (ts : list tryd) (e : X) : option (nat * option nat) :=
    match ts with
    | [] => None
    | t :: r => match first (t_types t) e with
                | Some ty => Some (0, ty)
                | None => match route r e with
                          | Some (k, ty) => Some (Datatypes.S k, ty)
                          | None => None
                          end
                end
    end.

  (** an exception waiting in a cell for tries [ts] above the current one *)
  Definition waits (ts : list tryd) (e : X) (sel : option nat) (d : nat) : Prop :=
    (exists k, d = Datatypes.S k /\ route ts e = Some (k, sel)) \/
    (route ts e = None /\ sel = None /\ d = length ts).

  (** *** Where an outcome leaves the machine *)

  Section Arrive.
    Context (K : nat -> option cell).

    Fixpoint arr_jump (fr : list frame) (tgt : loopd -> nat) (f : flag) (s : S)
        (st : mstate) : Prop :=
      match fr with
      | [] => False
      | FrLoop l :: r => exists m, st = At (tgt l) s m /\ inv K (cell_of r) m
      | FrTry t fq :: r =>
          (exists m, st = At (t_fin t) s m /\ others K (t_cell t) m /\
             c_flag (m (t_cell t)) = f /\ c_depth (m (t_cell t)) = 0 /\
             loop_seq r <> None /\ c_loop (m (t_cell t)) = loop_seq r) \/
          (fq = None /\ arr_jump r tgt f s st)
      | FrFin t :: r =>
          exists m, st = At (t_fin t) s m /\ others K (t_cell t) m /\
             c_flag (m (t_cell t)) = f /\ c_depth (m (t_cell t)) = 0 /\
             loop_seq r <> None /\ c_loop (m (t_cell t)) = loop_seq r
      end.

    Fixpoint arr_ret (fr : list frame) (v : V) (s : S) (st : mstate) : Prop :=
      match fr with
      | [] => st = Returned v s
      | FrLoop _ :: r => arr_ret r v s st
      | FrTry t _ :: r =>
          exists m, st = At (t_fin t) s m /\ others K (t_cell t) m /\
            c_flag (m (t_cell t)) = FReturn /\ c_depth (m (t_cell t)) = 0 /\
            c_ret (m (t_cell t)) = Some v
      | FrFin t :: r => False
      end.

    Fixpoint arr_exn (fr : list frame) (e : X) (s : S) (st : mstate) : Prop :=
      match fr with
      | [] => st = Unwound e s
      | FrLoop _ :: r => arr_exn r e s st
      | FrTry t _ :: r =>
          exists m, others K (t_cell t) m /\
            (st = Land (t_exc t) e s m \/
             (st = At (t_route t) s m /\ c_flag (m (t_cell t)) = Thrown /\
              c_depth (m (t_cell t)) = 0 /\
              exists sel, c_catch (m (t_cell t)) = Some (e, sel) /\
                (first (t_types t) e = Some sel \/
                 (first (t_types t) e = None /\ tries (ctx_of r) = [] /\ sel = None))) \/
             (st = At (t_fin t) s m /\ c_flag (m (t_cell t)) = Thrown /\
              first (t_types t) e = None /\
              exists sel d, c_catch (m (t_cell t)) = Some (e, sel) /\
                c_depth (m (t_cell t)) = Datatypes.S d /\
                waits (tries (ctx_of r)) e sel (Datatypes.S d)))
      | FrFin t :: r =>
          exists m, st = Land (t_finexc t) e s m /\ others K (t_cell t) m /\
            tries (ctx_of r) = []
      end.

    Definition arrive (fr : list frame) (exit : nat) (o : outcome) (st : mstate) : Prop :=
      match o with
      | ONorm s => exists m, st = At exit s m /\ inv K (cell_of fr) m
      | OBrk s => arr_jump fr l_brk FBreak s st
      | OCont s => arr_jump fr l_cont FContinue s st
      | ORet v s => arr_ret fr v s st
      | OExn e s => arr_exn fr e s st
      end.
  End Arrive.

  Definition region_ok (k : region) (fr : list frame) (K : nat -> option cell) : Prop :=
    match k with
    | InBody => nofin fr /\ (forall c, cell_of fr = Some c -> K c = None)
    | InGuard b =>
        exists ls t r v, fr = map FrLoop ls ++ FrFin t :: r /\
          K (t_cell t) = Some v /\ c_depth v = 0 /\
          (b = true -> tries (ctx_of r) = [])
    | InFinally => nofin fr
    end.

  Definition loops_ok (k : region) (fr : list frame) (lp : bool) : Prop :=
    lp = true ->
    match k with
    | InFinally => exists l r, fr = FrLoop l :: r
    | _ => loops (ctx_of fr) <> []
    end.

  (** *** Simple statements *)

  Ltac ev := eapply star_step; [cbn [Model.step]; match goal with
      | H : P ?l = Some _ |- context [P ?l] => rewrite H end; reflexivity |].

  Lemma unwind_nofin fr : forall n,
    nofin fr -> wf n fr ->
    unwind_of (ctx_of fr) =
    match tries (ctx_of fr) with [] => None | t :: _ => Some (t_exc t) end.
  Proof.
    induction fr as [|[l|t fq|t] r IH]; intros n N W; [reflexivity| | |contradiction].
    - destruct W as [_ W]. specialize (IH _ N W). unfold unwind_of in *. simpl. exact IH.
    - destruct W as (W1 & _ & _ & W2). unfold unwind_of. cbn [ctx_of tries finallys].
      destruct fq as [q|].
      + destruct W2 as [W2 _]. cbn [retag t_seq].
        apply Nat.ltb_lt in W2. rewrite W2. reflexivity.
      + destruct (finallys (ctx_of r)) as [|f fs] eqn:E; [reflexivity|].
        assert (L : t_seq f < t_seq t).
        { eapply wf_finallys; [exact W2|]. rewrite E. left. reflexivity. }
        apply Nat.ltb_lt in L. rewrite L. reflexivity.
  Qed.

  Lemma loops_cat ls fr :
    ctx_of (map FrLoop ls ++ fr) =
    mkCtx (ls ++ loops (ctx_of fr)) (tries (ctx_of fr)) (finallys (ctx_of fr)).
  Proof.
    induction ls as [|l ls IH]; simpl.
    - destruct (ctx_of fr); reflexivity.
    - rewrite IH. reflexivity.
  Qed.

  Lemma cell_of_cat ls fr : cell_of (map FrLoop ls ++ fr) = cell_of fr.
  Proof. induction ls; simpl; auto. Qed.

  Lemma act_exn k fr K n e s m :
    region_ok k fr K -> wf n fr -> inv K (cell_of fr) m -> k <> InGuard false ->
    arr_exn K fr e s (throw_to (unwind_of (ctx_of fr)) e s m).
  Proof.
    intros R W I Nk.
    assert (B : nofin fr -> arr_exn K fr e s (throw_to (unwind_of (ctx_of fr)) e s m)).
    { intro N. rewrite (unwind_nofin _ _ N W).
      assert (I' : forall c, others K c m) by (intro; eapply inv_others; eauto).
      clear - N I'. induction fr as [|[l|t fq|t] r IH]; simpl in *; auto; [|contradiction].
      exists m. split; [apply I'|]. left. reflexivity. }
    destruct k as [|b|]; [apply B; destruct R; assumption| |exact (B R)].
    destruct b; [|congruence].
    destruct R as (ls & t & r & v & -> & Kv & D & T). specialize (T eq_refl).
    rewrite loops_cat. cbn [ctx_of tries finallys]. unfold unwind_of.
    cbn [tries finallys]. rewrite T. cbn [throw_to].
    assert (I' : others K (t_cell t) m) by (eapply inv_others; eauto).
    clear - T I'. induction ls as [|l ls IH]; simpl; auto. exists m. auto.
  Qed.

  Lemma loop_seq_hd fr :
    loop_seq fr = match loops (ctx_of fr) with [] => None | l :: _ => Some (l_seq l) end.
  Proof. induction fr as [|[l|t fq|t] r IH]; simpl; auto. Qed.

  Definition jump_gen (tgt : loopd -> nat) (f : flag) (n : nat) (g : ctx) (entry : nat)
    : code * nat :=
    match loops g with
    | [] => ([(entry, IUnreachable)], n)
    | l :: _ =>
        match finallys g with
        | t :: _ =>
            if t_seq t <? l_seq l then ([(entry, IBr (tgt l))], n)
            else ([(entry, ISetFlag (t_cell t) f n);
                   (n, ISetLoop (t_cell t) (l_seq l) (t_fin t))], n + 1)
        | [] => ([(entry, IBr (tgt l))], n)
        end
    end.

  (** the innermost loop, and either straight there or into a finally block *)
  Definition jump_spec (fr : list frame) K tgt f s : Prop :=
    exists l ls, loops (ctx_of fr) = l :: ls /\
     ((match finallys (ctx_of fr) with [] => True | t :: _ => t_seq t < l_seq l end /\
       forall m, inv K (cell_of fr) m -> arr_jump K fr tgt f s (At (tgt l) s m)) \/
      (exists t ts, finallys (ctx_of fr) = t :: ts /\ l_seq l < t_seq t /\
        (forall m, inv K (cell_of fr) m -> c_depth (m (t_cell t)) = 0) /\
        forall m, others K (t_cell t) m -> c_flag (m (t_cell t)) = f ->
          c_depth (m (t_cell t)) = 0 -> c_loop (m (t_cell t)) = Some (l_seq l) ->
          arr_jump K fr tgt f s (At (t_fin t) s m))).

  Lemma jump_loop l r K tgt f s n : wf n (FrLoop l :: r) -> jump_spec (FrLoop l :: r) K tgt f s.
  Proof.
    intros [W1 W2]. exists l, (loops (ctx_of r)). split; [reflexivity|]. left. split.
    - cbn [ctx_of finallys]. destruct (finallys (ctx_of r)) as [|t ts] eqn:E; [exact I|].
      eapply wf_finallys; [exact W2|]. rewrite E. left. reflexivity.
    - intros m Im. exists m. split; [reflexivity|exact Im].
  Qed.

  Lemma jump_body K tgt f s fr : forall n,
    nofin fr -> (forall c, cell_of fr = Some c -> K c = None) -> wf n fr ->
    loops (ctx_of fr) <> [] -> jump_spec fr K tgt f s.
  Proof.
    induction fr as [|[l|t fq|t] r IH]; intros n N Kc W L; [| | |contradiction].
    - exfalso. apply L. reflexivity.
    - eapply jump_loop; eauto.
    - destruct W as (W1 & _ & Wc & W2). cbn [ctx_of loops] in L. destruct fq as [q|].
      + destruct W2 as [W2 W3]. unfold jump_spec. cbn [ctx_of loops finallys].
        destruct (loops (ctx_of r)) as [|l ls] eqn:E; [congruence|].
        exists l, ls. split; [reflexivity|]. right. exists (retag t q), (finallys (ctx_of r)).
        split; [reflexivity|]. cbn [retag t_seq t_cell t_fin]. split; [|split].
        * eapply wf_loops; [exact W3|]. rewrite E. left. reflexivity.
        * intros m Im. specialize (Im (t_cell t)). unfold cell_ok in Im.
          rewrite (Kc (t_cell t) eq_refl) in Im. apply Im.
        * intros m H1 H2 H3 H4. cbn [arr_jump]. left. exists m.
          assert (E' : loop_seq r = Some (l_seq l)) by (rewrite loop_seq_hd, E; reflexivity).
          rewrite E'. repeat split; auto. discriminate.
      + assert (Kc' : forall c, cell_of r = Some c -> K c = None).
        { intros c Hc. apply Kc. cbn [cell_of]. f_equal. apply Wc. exact Hc. }
        assert (Cr : cell_of r = None \/ cell_of r = Some (t_cell t)).
        { destruct (cell_of r) eqn:E; [right; f_equal; symmetry; apply Wc; reflexivity|auto]. }
        assert (Aw : forall m, inv K (Some (t_cell t)) m -> inv K (cell_of r) m).
        { intros m Im. eapply inv_act; [exact Im|]. exact Cr. }
        destruct (IH _ N Kc' W2 L) as (l & ls & E & H). unfold jump_spec.
        cbn [ctx_of loops finallys]. exists l, ls. split; [exact E|].
        destruct H as [[H1 H2]|(t' & ts & H1 & H2 & H3 & H4)].
        * left. split; [exact H1|]. intros m Im. cbn [arr_jump]. right.
          split; [reflexivity|]. apply H2, Aw, Im.
        * right. exists t', ts. split; [exact H1|]. split; [exact H2|]. split.
          -- intros m Im. apply H3, Aw, Im.
          -- intros m I1 I2 I3 I4. cbn [arr_jump]. right. split; [reflexivity|].
             apply H4; assumption.
  Qed.

  Lemma jump_any k fr K tgt f s n :
    region_ok k fr K -> loops_ok k fr true -> wf n fr -> jump_spec fr K tgt f s.
  Proof.
    intros R L W. specialize (L eq_refl). destruct k as [|b|].
    - destruct R as [R1 R2]. eapply jump_body; eauto.
    - destruct R as (ls & t & r & v & -> & Kv & D & _).
      destruct ls as [|l ls]; [|eapply jump_loop; exact W].
      simpl app in *. destruct W as [W1 W2]. unfold jump_spec. cbn [ctx_of loops finallys] in *.
      destruct (loops (ctx_of r)) as [|l ls] eqn:E; [congruence|].
      exists l, ls. split; [reflexivity|]. right. exists t, (finallys (ctx_of r)).
      split; [reflexivity|]. split; [|split].
      + eapply wf_loops; [exact W2|]. rewrite E. left. reflexivity.
      + intros m Im. specialize (Im (t_cell t)). unfold cell_ok in Im.
        rewrite Kv in Im. rewrite Im. exact D.
      + intros m H1 H2 H3 H4. cbn [arr_jump]. exists m.
        assert (E' : loop_seq r = Some (l_seq l)) by (rewrite loop_seq_hd, E; reflexivity).
        rewrite E'. repeat split; auto. discriminate.
    - destruct L as (l & r & ->). eapply jump_loop; exact W.
  Qed.

  Lemma jump_sim k fr K tgt f s n entry m :
    region_ok k fr K -> loops_ok k fr true -> wf n fr ->
    installed (fst (jump_gen tgt f n (ctx_of fr) entry)) ->
    inv K (cell_of fr) m ->
    exists st, star (At entry s m) st /\ arr_jump K fr tgt f s st.
  Proof.
    intros R L W C Im.
    destruct (jump_any _ _ _ tgt f s _ R L W) as (l & ls & E & H).
    unfold jump_gen in C. rewrite E in C.
    destruct H as [[H1 H2]|(t & ts & H1 & H2 & H3 & H4)].
    - assert (C' : P entry = Some (IBr (tgt l))).
      { destruct (finallys (ctx_of fr)) as [|t ts]; [|apply Nat.ltb_lt in H1; rewrite H1 in C];
          apply C; left; reflexivity. }
      exists (At (tgt l) s m). split; [|apply H2, Im]. ev. apply star_refl.
    - rewrite H1 in C. assert (L' : (t_seq t <? l_seq l) = false) by (apply Nat.ltb_ge; lia).
      rewrite L' in C. cbn [fst] in C. rewrite !installed_cons in C.
      destruct C as (C1 & C2 & _).
      eexists. split; [ev; ev; apply star_refl|].
      apply H4.
      + apply others_upd, others_upd. eapply inv_others; eauto.
      + rewrite !upd_same. reflexivity.
      + rewrite !upd_same. cbn. apply H3, Im.
      + rewrite !upd_same. reflexivity.
  Qed.

  Lemma arr_ret_intro K fr v s st :
    nofin fr ->
    match tries (ctx_of fr) with
    | [] => st = Returned v s
    | t :: _ => exists m, st = At (t_fin t) s m /\ others K (t_cell t) m /\
        c_flag (m (t_cell t)) = FReturn /\ c_depth (m (t_cell t)) = 0 /\
        c_ret (m (t_cell t)) = Some v
    end -> arr_ret K fr v s st.
  Proof. induction fr as [|[l|t fq|t] r IH]; simpl; auto. Qed.

  Lemma ret_sim fr K v s n entry exit m :
    region_ok InBody fr K ->
    installed (fst (gen n (ctx_of fr) (Return v) entry exit)) ->
    inv K (cell_of fr) m ->
    exists st, star (At entry s m) st /\ arr_ret K fr (v s) s st.
  Proof.
    intros [R1 R2] C Im. cbn [gen] in C. rewrite cell_of_tries in Im, R2.
    destruct (tries (ctx_of fr)) as [|t ts] eqn:E.
    - cbn [fst] in C. apply installed_cons in C. destruct C as [C _].
      eexists. split; [ev; apply star_refl|]. apply arr_ret_intro; [exact R1|].
      rewrite E. reflexivity.
    - cbn [fst] in C. rewrite !installed_cons in C. destruct C as (C1 & C2 & _).
      eexists. split; [ev; ev; apply star_refl|]. apply arr_ret_intro; [exact R1|].
      rewrite E. eexists. split; [reflexivity|]. rewrite !upd_same. cbn.
      split; [apply others_upd, others_upd; eapply inv_others; eauto|].
      split; [reflexivity|]. split; [|reflexivity].
      specialize (Im (t_cell t)). unfold cell_ok in Im. rewrite (R2 _ eq_refl) in Im.
      apply Im.
  Qed.

  (** *** After a finally block *)

  Definition pcell (fr : list frame) (hf : bool) (o : outcome) (v : cell) : Prop :=
    match o with
    | ONorm _ => calm (c_flag v) /\ c_depth v = 0
    | OBrk _ => c_flag v = FBreak /\ c_depth v = 0 /\ loop_seq fr <> None /\
                c_loop v = loop_seq fr
    | OCont _ => c_flag v = FContinue /\ c_depth v = 0 /\ loop_seq fr <> None /\
                 c_loop v = loop_seq fr
    | ORet r _ => c_flag v = FReturn /\ c_depth v = 0 /\ c_ret v = Some r
    | OExn e _ =>
        exists sel, c_catch v = Some (e, sel) /\
          ((c_flag v = Thrown /\ waits (tries (ctx_of fr)) e sel (c_depth v)) \/
           (c_flag v = Rethrow /\ c_depth v = 0 /\ tries (ctx_of fr) = [] /\ hf = true))
    end.

  Lemma arr_exn_intro K fr e s st :
    nofin fr ->
    match tries (ctx_of fr) with
    | [] => st = Unwound e s
    | t :: ts =>
        exists m, others K (t_cell t) m /\
          (st = Land (t_exc t) e s m \/
           (st = At (t_route t) s m /\ c_flag (m (t_cell t)) = Thrown /\
            c_depth (m (t_cell t)) = 0 /\
            exists sel, c_catch (m (t_cell t)) = Some (e, sel) /\
              (first (t_types t) e = Some sel \/
               (first (t_types t) e = None /\ ts = [] /\ sel = None))) \/
           (st = At (t_fin t) s m /\ c_flag (m (t_cell t)) = Thrown /\
            first (t_types t) e = None /\
            exists sel d, c_catch (m (t_cell t)) = Some (e, sel) /\
              c_depth (m (t_cell t)) = Datatypes.S d /\
              waits ts e sel (Datatypes.S d)))
    end -> arr_exn K fr e s st.
  Proof. induction fr as [|[l|t fq|t] r IH]; simpl; auto. contradiction. Qed.

  (** a pending break or continue reaches the next place *)
  Lemma finish_jump K fr tgt f s n0 c m sw done dn dn2 exit :
    wf n0 fr -> nofin fr ->
    (cell_of fr = None \/ cell_of fr = Some c) ->
    K c = None -> others K c m ->
    c_flag (m c) = f -> c_depth (m c) = 0 -> loop_seq fr <> None ->
    c_loop (m c) = loop_seq fr ->
    P sw = Some (ISwitchLoop c (brk_cases (ctx_of fr) done) exit) ->
    P done = Some (ISetFlag c NotThrown dn) ->
    P dn = Some (ISwitchLoop c (done_cases (ctx_of fr) tgt) dn2) ->
    exists st, star (At sw s m) st /\ arr_jump K fr tgt f s st.
  Proof.
    intros W N Cf Kc O F D Ls Lc C1 C2 C3. rewrite loop_seq_hd in Ls, Lc.
    destruct (loops (ctx_of fr)) as [|l ls] eqn:E; [congruence|]. clear Ls.
    assert (A : forall st, star (At (match to_parent (ctx_of fr) l with
                                     | Some p => p | None => done end) s m) st ->
                           star (At sw s m) st).
    { intros st H. eapply star_step; [|exact H]. cbn [Model.step]. rewrite C1, Lc.
      unfold brk_cases. rewrite E. cbn [map switch assoc]. rewrite Nat.eqb_refl. reflexivity. }
    destruct (to_parent (ctx_of fr) l) as [p|] eqn:T.
    - exists (At p s m). split; [apply A, star_refl|].
      unfold to_parent in T. destruct (tries (ctx_of fr)) as [|t ts] eqn:Et; [discriminate|].
      destruct (l_seq l <? t_seq t) eqn:Lt; [|discriminate]. injection T as <-.
      apply Nat.ltb_lt in Lt.
      destruct fr as [|[l'|t' fq|t'] r]; [discriminate| | |contradiction].
      + cbn [ctx_of loops tries] in E, Et. injection E as <- _. exfalso.
        destruct W as [_ W]. assert (t_seq t < l_seq l'); [|lia].
        eapply wf_tries; [exact W|]. rewrite Et. left. reflexivity.
      + cbn [ctx_of loops tries] in E, Et. injection Et as <- _.
        cbn [cell_of] in Cf. destruct Cf as [Cf|Cf]; [discriminate|]. injection Cf as Cf.
        cbn [arr_jump]. left. exists m. rewrite Cf.
        assert (E' : loop_seq r = Some (l_seq l)) by (rewrite loop_seq_hd, E; reflexivity).
        rewrite E'. repeat split; auto. discriminate.
    - assert (Fr : exists r, fr = FrLoop l :: r).
      { destruct fr as [|[l'|t' fq|t'] r]; [discriminate| | |contradiction].
        - cbn [ctx_of loops] in E. injection E as <- _. eauto.
        - exfalso. unfold to_parent in T. cbn [ctx_of loops tries] in E, T.
          destruct (l_seq l <? t_seq t') eqn:Lt; [discriminate|]. apply Nat.ltb_ge in Lt.
          destruct W as (W1 & _ & _ & W2).
          assert (In l (loops (ctx_of r))) by (rewrite E; left; reflexivity).
          destruct fq as [q|].
          + destruct W2 as [W2 W3]. pose proof (wf_loops _ _ _ W3 H). lia.
          + pose proof (wf_loops _ _ _ W2 H). lia. }
      destruct Fr as [r ->].
      eexists. split.
      + apply A. ev. eapply star_step.
        * cbn [Model.step]. rewrite C3, upd_same. cbn [set_flag c_loop]. rewrite Lc.
          unfold done_cases. rewrite E. cbn [filter]. rewrite T. cbn [map switch assoc].
          rewrite Nat.eqb_refl. reflexivity.
        * apply star_refl.
      + cbn [arr_jump]. eexists. split; [reflexivity|]. cbn [cell_of] in Cf.
        eapply inv_act; [|exact Cf]. apply others_inv.
        * apply others_upd. exact O.
        * exact Kc.
        * rewrite upd_same. exact D.
        * rewrite upd_same. left. reflexivity.
  Qed.

  Lemma finish K fr hf o s n0 n c m exit :
    wf n0 fr -> nofin fr ->
    (cell_of fr = None \/ cell_of fr = Some c) ->
    K c = None -> others K c m -> pcell fr hf o (m c) ->
    installed (fin_code (ctx_of fr) n c exit) ->
    P (n + 6) = Some (if hf then IThrow c (unwind_of (ctx_of fr)) else IUnreachable) ->
    exists st, star (At (n + 8) s m) st /\ arrive K fr exit (with_data o s) st.
  Proof.
    intros W N Cf Kc O Pc C CR. unfold fin_code in C.
    rewrite !installed_cons in C.
    destruct C as (C8 & C9 & C10 & _ & _ & _ & C11 & C12 & C13 & C14 & C15 & C16 & C17 & C18 & C5 & _).
    assert (Z : c_depth (m c) = 0 -> forall st, star (At (n + 11) s m) st -> star (At (n + 8) s m) st).
    { intros D st H. eapply star_step; [|exact H]. cbn [Model.step]. rewrite C8.
      destruct (tries (ctx_of fr)); [reflexivity|]. rewrite D. reflexivity. }
    destruct o as [d|d|d|v d|e d]; cbn [with_data arrive pcell] in *.
    - destruct Pc as [F D]. exists (At exit s m). split.
      + apply Z; [exact D|]. eapply star_step; [|apply star_refl]. cbn [Model.step]. rewrite C11.
        destruct F as [F|F]; rewrite F; [|reflexivity].
        cbn [assoc_flag flag_eqb]. destruct (is_nil (loops (ctx_of fr))); reflexivity.
      + exists m. split; [reflexivity|]. eapply inv_act; [|exact Cf].
        apply others_inv; assumption.
    - destruct Pc as (F & D & Ls & Lc).
      destruct (finish_jump K fr l_brk FBreak s n0 c m (n+13) (n+14) (n+15) exit exit)
        as (st & H1 & H2); auto.
      exists st. split; [|exact H2]. apply Z; [exact D|].
      eapply star_step; [|exact H1]. cbn [Model.step]. rewrite C11, F.
      cbn [assoc_flag flag_eqb].
      rewrite loop_seq_hd in Ls. destruct (loops (ctx_of fr)); [congruence|]. reflexivity.
    - destruct Pc as (F & D & Ls & Lc).
      destruct (finish_jump K fr l_cont FContinue s n0 c m (n+16) (n+17) (n+18) exit exit)
        as (st & H1 & H2); auto.
      exists st. split; [|exact H2]. apply Z; [exact D|].
      eapply star_step; [|exact H1]. cbn [Model.step]. rewrite C11, F.
      cbn [assoc_flag flag_eqb].
      rewrite loop_seq_hd in Ls. destruct (loops (ctx_of fr)); [congruence|]. reflexivity.
    - destruct Pc as (F & D & R). rewrite cell_of_tries in Cf.
      destruct (tries (ctx_of fr)) as [|p ps] eqn:E.
      + exists (Returned v s). split.
        * apply Z; [exact D|]. eapply star_step; [cbn [Model.step]; rewrite C11, F; reflexivity|].
          cbn [assoc_flag flag_eqb].
          eapply star_step; [cbn [Model.step]; rewrite C12, R; reflexivity|]. apply star_refl.
        * apply arr_ret_intro; [exact N|]. rewrite E. reflexivity.
      + exists (At (t_fin p) s m). split.
        * apply Z; [exact D|]. eapply star_step; [cbn [Model.step]; rewrite C11, F; reflexivity|].
          cbn [assoc_flag flag_eqb]. apply star_refl.
        * apply arr_ret_intro; [exact N|]. rewrite E. exists m.
          destruct Cf as [Cf|Cf]; [discriminate|]. injection Cf as ->. auto.
    - destruct Pc as (sel & Ct & [[F Wt]|(F & D & T & ->)]).
      + rewrite cell_of_tries in Cf. destruct (tries (ctx_of fr)) as [|p ps] eqn:E.
        * assert (D : c_depth (m c) = 0).
          { destruct Wt as [(k & _ & H)|(_ & _ & H)]; [discriminate|exact H]. }
          exists (Unwound e s). split.
          -- apply Z; [exact D|].
             eapply star_step; [cbn [Model.step]; rewrite C11, F; reflexivity|].
             cbn [assoc_flag flag_eqb].
             eapply star_step; [cbn [Model.step]; rewrite C5, Ct; reflexivity|]. apply star_refl.
          -- apply arr_exn_intro; [exact N|]. rewrite E. reflexivity.
        * destruct Cf as [Cf|Cf]; [discriminate|]. injection Cf as Cf.
          assert (D : exists d, c_depth (m c) = Datatypes.S d).
          { destruct Wt as [(k & H & _)|(_ & _ & H)]; eauto. }
          destruct D as [dd D].
          set (m' := upd m c (set_depth (c_depth (m c) - 1) (m c))).
          assert (Dm : c_depth (m' c) = dd).
          { unfold m'. rewrite upd_same. cbn [set_depth c_depth]. rewrite D. lia. }
          exists (At (if 0 <? dd then t_fin p else t_route p) s m'). split.
          -- eapply star_step; [cbn [Model.step]; rewrite C8, D; reflexivity|]. cbn [Nat.ltb Nat.leb].
             eapply star_step; [cbn [Model.step]; rewrite C9; reflexivity|]. fold m'.
             eapply star_step; [cbn [Model.step]; rewrite C10, Dm; reflexivity|]. apply star_refl.
          -- apply arr_exn_intro; [exact N|]. rewrite E. exists m'. rewrite Cf.
             assert (O' : others K c m') by (apply others_upd; exact O).
             assert (F' : c_flag (m' c) = Thrown) by (unfold m'; rewrite upd_same; exact F).
             assert (Ct' : c_catch (m' c) = Some (e, sel))
               by (unfold m'; rewrite upd_same; exact Ct).
             split; [exact O'|]. right. rewrite D in Wt.
             destruct dd as [|dd]; cbn [Nat.ltb Nat.leb].
             ++ left. split; [reflexivity|]. split; [exact F'|]. split; [exact Dm|].
                exists sel. split; [exact Ct'|].
                destruct Wt as [(k & H1 & H2)|(H1 & H2 & H3)].
                ** left. injection H1 as <-. cbn [route] in H2.
                   destruct (first (t_types p) e) as [ty|]; [congruence|].
                   destruct (route ps e) as [[k ty]|]; discriminate.
                ** right. cbn [route] in H1.
                   destruct (first (t_types p) e) as [ty|]; [discriminate|].
                   split; [reflexivity|]. split; [|exact H2]. destruct ps; [reflexivity|discriminate].
             ++ right. split; [reflexivity|]. split; [exact F'|].
                assert (Fp : first (t_types p) e = None).
                { destruct Wt as [(k & H1 & H2)|(H1 & H2 & H3)].
                  - injection H1 as <-. cbn [route] in H2.
                    destruct (first (t_types p) e) as [ty|]; [discriminate|reflexivity].
                  - cbn [route] in H1. destruct (first (t_types p) e); [discriminate|reflexivity]. }
                split; [exact Fp|]. exists sel, dd. split; [exact Ct'|]. split; [exact Dm|].
                destruct Wt as [(k & H1 & H2)|(H1 & H2 & H3)].
                ** left. exists dd. split; [reflexivity|]. injection H1 as <-.
                   cbn [route] in H2. rewrite Fp in H2.
                   destruct (route ps e) as [[k ty]|]; [|discriminate]. congruence.
                ** right. cbn [route] in H1. rewrite Fp in H1.
                   destruct (route ps e) as [[k ty]|]; [discriminate|].
                   split; [reflexivity|]. split; [exact H2|]. simpl in H3. lia.
      + exists (Unwound e s). split.
        * apply Z; [exact D|].
          eapply star_step; [cbn [Model.step]; rewrite C11, F; reflexivity|].
          cbn [assoc_flag flag_eqb].
          eapply star_step; [cbn [Model.step]; rewrite CR, Ct, (unwind_nofin _ _ N W), T; reflexivity|].
          apply star_refl.
        * apply arr_exn_intro; [exact N|]. rewrite T. reflexivity.
  Qed.

  (** *** Which handler *)

  Lemma select_first ts e : select isinst ts e =
    match first ts e with Some ty => ty | None => None end.
  Proof.
    unfold first. induction ts as [|t ts IH]; [reflexivity|]. cbn [select find].
    destruct (catches e t); auto.
  Qed.

  Lemma first_app a b e :
    first (a ++ b) e = match first a e with Some ty => Some ty | None => first b e end.
  Proof.
    unfold first. induction a as [|t a IH]; [reflexivity|]. cbn [app find].
    destruct (catches e t); auto.
  Qed.

  Lemma first_none ts e : first ts e = None -> forall t, In t ts -> catches e t = false.
  Proof. unfold first. intros H t I. apply (find_none _ _ H _ I). Qed.

  Lemma first_some ts e ty : first ts e = Some ty -> In ty ts /\ catches e ty = true.
  Proof. unfold first. apply find_some. Qed.

  Lemma opt_eqb_eq a b : opt_eqb a b = true <-> a = b.
  Proof.
    destruct a, b; simpl; rewrite ?Nat.eqb_eq; split; intro H; congruence.
  Qed.

  Lemma new_types_first ts e : forall acc,
    (forall t, In t acc -> catches e t = false) ->
    first (new_types ts acc) e = first ts e.
  Proof.
    unfold first. induction ts as [|t ts IH]; intros acc H; [reflexivity|].
    cbn [new_types find]. destruct (existsb (opt_eqb t) acc) eqn:E.
    - apply existsb_exists in E. destruct E as (t' & I & E). apply opt_eqb_eq in E. subst t'.
      rewrite (H _ I). apply IH. exact H.
    - cbn [find]. destruct (catches e t) eqn:C; [reflexivity|]. apply IH.
      intros t' I. apply in_app_or in I. destruct I as [I|[<-|[]]]; auto.
  Qed.

  Lemma find_depth ty d nw rest :
    find (fun p : option nat * nat => opt_eqb (fst p) ty) (map (fun t => (t, d)) nw ++ rest) =
    if existsb (opt_eqb ty) nw then Some (ty, d)
    else find (fun p => opt_eqb (fst p) ty) rest.
  Proof.
    induction nw as [|t nw IH]; [reflexivity|]. cbn [map app find existsb fst].
    destruct (opt_eqb t ty) eqn:E.
    - apply opt_eqb_eq in E. subst t.
      assert (opt_eqb ty ty = true) as -> by (apply opt_eqb_eq; reflexivity). reflexivity.
    - assert (opt_eqb ty t = false) as ->.
      { destruct (opt_eqb ty t) eqn:E'; [|reflexivity]. apply opt_eqb_eq in E'. subst t.
        assert (opt_eqb ty ty = true) by (apply opt_eqb_eq; reflexivity). congruence. }
      exact IH.
  Qed.

  Lemma parent_spec e ps : forall d acc,
    (forall t, In t acc -> catches e t = false) ->
    match route ps e with
    | Some (k, ty) =>
        first (map fst (parent_types ps d acc)) e = Some ty /\
        find (fun p => opt_eqb (fst p) ty) (parent_types ps d acc) = Some (ty, d + k)
    | None => first (map fst (parent_types ps d acc)) e = None
    end.
  Proof.
    induction ps as [|p ps IH]; intros d acc H.
    - cbn [route parent_types]. destruct (existsb (opt_eqb None) acc); reflexivity.
    - cbn [route parent_types].
      assert (existsb (opt_eqb None) acc = false) as ->.
      { destruct (existsb (opt_eqb None) acc) eqn:E; [|reflexivity].
        apply existsb_exists in E. destruct E as (t & I & E). apply opt_eqb_eq in E. subst t.
        specialize (H _ I). discriminate. }
      pose proof (new_types_first (t_types p) e acc H) as Fn.
      set (nw := new_types (t_types p) acc) in *.
      rewrite map_app, map_map. cbn [fst]. rewrite map_id, first_app, Fn.
      destruct (first (t_types p) e) as [ty|] eqn:F.
      + split; [reflexivity|]. rewrite find_depth.
        destruct (first_some _ _ _ Fn) as [I _].
        assert (existsb (opt_eqb ty) nw = true) as ->.
        { apply existsb_exists. exists ty. split; [exact I|]. apply opt_eqb_eq. reflexivity. }
        rewrite Nat.add_0_r. reflexivity.
      + pose proof (first_none _ _ Fn) as Nn.
        assert (H' : forall t, In t (acc ++ nw) -> catches e t = false).
        { intros t I. apply in_app_or in I. destruct I; auto. }
        specialize (IH (d + 1) (acc ++ nw) H').
        destruct (route ps e) as [[k ty]|]; [|exact IH].
        destruct IH as [IH1 IH2]. split; [exact IH1|]. rewrite find_depth.
        assert (existsb (opt_eqb ty) nw = false) as ->.
        { destruct (existsb (opt_eqb ty) nw) eqn:E; [|reflexivity].
          apply existsb_exists in E. destruct E as (t & I & E). apply opt_eqb_eq in E. subst t.
          apply first_some in IH1. destruct IH1 as [_ IH1]. rewrite (Nn _ I) in IH1. discriminate. }
        rewrite IH2. f_equal. f_equal. lia.
  Qed.

  Lemma parent_case y dd pts dflt : forall np c f,
    find (fun p => opt_eqb (fst p) (Some y)) pts = Some (Some y, dd) ->
    In (assoc y (parent_cases pts np) dflt, @ISetDepth S V X c dd f)
       (parent_blocks pts np c f).
  Proof.
    induction pts as [|[t d] pts IH]; intros np c f H; [discriminate|].
    cbn [find fst] in H. destruct t as [t|]; cbn [parent_cases parent_blocks assoc opt_eqb] in *.
    - rewrite (Nat.eqb_sym y t). destruct (Nat.eqb t y) eqn:E.
      + injection H as _ <-. left. reflexivity.
      + right. apply IH. exact H.
    - right. apply IH. exact H.
  Qed.

  Lemma parent_all_some dd pts :
    find (fun p => opt_eqb (fst p) None) pts = Some (None, dd) -> parent_all pts = Some dd.
  Proof.
    induction pts as [|[t d] pts IH]; intros H; [discriminate|].
    cbn [find fst] in H. destruct t as [t|]; cbn [opt_eqb parent_all] in *; [auto|].
    injection H as <-. reflexivity.
  Qed.

  Lemma parent_all_none e pts : first (map fst pts) e = None -> parent_all pts = None.
  Proof.
    unfold first. induction pts as [|[t d] pts IH]; intros H; [reflexivity|].
    cbn [map fst find] in H. destruct t as [t|]; cbn [parent_all].
    - destruct (catches e (Some t)); [discriminate|]. auto.
    - discriminate.
  Qed.


  Lemma gen_try_eq n g body hs els fin entry exit :
    gen n g (Try body hs els fin) entry exit =
    let c := root_cell (tries g) (n + 27) in
    let hf := has_finally fin in
    let (cf, n1) := gen (n + try_labels) g fin (n + 3) (n + 8) in
    let td q := mkTry q (n + 1) (n + 2) (n + 3) (n + 4) (handler_types hs) c in
    let g1 := mkCtx (loops g) (tries g)
                    (if hf then td n1 :: finallys g else finallys g) in
    let g2 := mkCtx (loops g) (td (n1 + 1) :: tries g) (finallys g1) in
    let (cb, n2) := gen (n1 + 2) g2 body (n + 23) (n + 24) in
    let (ce, n3) := gen n2 g1 els (n + 25) (n + 26) in
    let '(ch, n4, es) := gen_handlers n3 g1 c (n + 3) hs in
    let pts := parent_types (tries g) 1 (handler_types hs) in
    ((entry, IBr n) ::
     (n, if is_nil (loops g) then IBr (n + 23) else ISetFlag c NotThrown (n + 23)) ::
     (n + 24, IBr (n + 25)) ::
     (n + 26, IBr (n + 3)) ::
     fin_code g n c exit ++
     exc_code g n c hf (handler_types hs) pts es n4 ++
     parent_blocks pts n4 c (n + 3) ++
     cf ++ cb ++ ce ++ ch,
     n4 + length pts : nat) :> code * nat.
  Proof. reflexivity. Qed.

  Lemma gen_handlers_eq n g c f t b h rest :
    gen_handlers n g c f (HCons t b h rest) =
    let (ch, n1) := gen (n + 5) g h (n + 3) (n + 4) in
    let '(cr, n2, es) := gen_handlers n1 g c f rest in
    ((n, ISetDepth c 0 (n + 1)) :: (n + 1, IBind b c (n + 2)) ::
     (n + 2, ISetFlag c Caught (n + 3)) :: (n + 4, IBr f) :: ch ++ cr,
     n2, (t, n, n + 1) :: es) :> code * nat * list (option nat * nat * nat).
  Proof. reflexivity. Qed.

  Definition entry_type (x : option nat * nat * nat) : option nat := fst (fst x).

  Lemma gen_handlers_types (hs : handlers) : forall n g c f ch n' es,
    gen_handlers n g c f hs = (ch, n', es) -> map entry_type es = handler_types hs.
  Proof.
    induction hs as [|t b h rest IH]; intros n g c f ch n' es H;
      [|rewrite gen_handlers_eq in H].
    - inversion H; subst. reflexivity.
    - destruct (gen (n + 5) g h (n + 3) (n + 4)) as [c1 n1].
      destruct (gen_handlers n1 g c f rest) as [[cr n2] es'] eqn:E.
      injection H as _ _ <-. cbn [map entry_type fst handler_types]. f_equal. eauto.
  Qed.

  Lemma own_cases_skip y es rest d :
    ~ In (Some y) (map entry_type es) ->
    assoc y (own_cases es ++ rest) d = assoc y rest d.
  Proof.
    induction es as [|[[t ds] h] es IH]; intro H; [reflexivity|].
    cbn [map entry_type fst] in H. destruct t as [t|]; cbn [own_cases app assoc].
    - destruct (Nat.eqb_spec y t) as [->|Ne]; [exfalso; apply H; left; reflexivity|].
      apply IH. intro I. apply H. right. exact I.
    - apply IH. intro I. apply H. right. exact I.
  Qed.

  Lemma own_all_none es : ~ In None (map entry_type es) -> own_all es = None.
  Proof.
    induction es as [|[[t ds] h] es IH]; intro H; [reflexivity|].
    cbn [map entry_type fst] in H. destruct t as [t|]; cbn [own_all].
    - apply IH. intro I. apply H. right. exact I.
    - exfalso. apply H. left. reflexivity.
  Qed.

  Lemma find_handler_none (hs : handlers) e : find_handler isinst hs e = None <-> first (handler_types hs) e = None.
  Proof.
    unfold first. induction hs as [|t b h rest IH]; [split; reflexivity|].
    cbn [find_handler handler_types find]. destruct (catches e t); [split; discriminate|exact IH].
  Qed.

  Definition handler_at (g : ctx) (c f k : nat) (b : X -> S -> S) (h : stmt) : Prop :=
    P k = Some (ISetDepth c 0 (k + 1)) /\ P (k + 1) = Some (IBind b c (k + 2)) /\
    P (k + 2) = Some (ISetFlag c Caught (k + 3)) /\ P (k + 4) = Some (IBr f) /\
    installed (fst (gen (k + 5) g h (k + 3) (k + 4))).

  Scheme stmt_mut := Induction for Spec.stmt Sort Prop
    with handlers_mut := Induction for Spec.handlers Sort Prop.
  Combined Scheme stmt_handlers_ind from stmt_mut, handlers_mut.

  Lemma gen_mono :
    (forall (s : stmt) n g entry exit, n <= snd (gen n g s entry exit)) /\
    (forall (hs : handlers) n g c f, n <= snd (fst (gen_handlers n g c f hs))).
  Proof.
    apply stmt_handlers_ind.
    - intros; simpl; lia.
    - intros; simpl; lia.
    - intros s1 H1 s2 H2 n g entry exit. cbn [gen].
      specialize (H1 (n + 1) g entry n). destruct (gen (n + 1) g s1 entry n) as [ca n1].
      specialize (H2 n1 g n exit). destruct (gen n1 g s2 n exit) as [cb n2].
      cbn [snd] in *. lia.
    - intros c s1 H1 s2 H2 n g entry exit. cbn [gen].
      specialize (H1 (n + 2) g n exit). destruct (gen (n + 2) g s1 n exit) as [ca n1].
      specialize (H2 n1 g (n + 1) exit). destruct (gen n1 g s2 (n + 1) exit) as [cb n2].
      cbn [snd] in *. lia.
    - intros c s H n g entry exit. cbn [gen].
      specialize (H (n + 4) (mkCtx (mkLoop (n + 3) exit n :: loops g) (tries g) (finallys g))
                    (n + 1) (n + 2)).
      destruct (gen (n + 4) _ s (n + 1) (n + 2)) as [ca n1]. cbn [snd] in *. lia.
    - intros n g entry exit. cbn [gen]. destruct (loops g); [simpl; lia|].
      destruct (finallys g); [simpl; lia|]. destruct (_ <? _); simpl; lia.
    - intros n g entry exit. cbn [gen]. destruct (loops g); [simpl; lia|].
      destruct (finallys g); [simpl; lia|]. destruct (_ <? _); simpl; lia.
    - intros v n g entry exit. cbn [gen]. destruct (tries g); simpl; lia.
    - intros body Hb hs Hh els He fin Hf n g entry exit. rewrite gen_try_eq. cbn zeta.
      specialize (Hf (n + try_labels) g (n + 3) (n + 8)).
      destruct (gen (n + try_labels) g fin (n + 3) (n + 8)) as [cf n1].
      set (g1 := mkCtx (loops g) (tries g) _). set (g2 := mkCtx (loops g) _ _).
      specialize (Hb (n1 + 2) g2 (n + 23) (n + 24)).
      destruct (gen (n1 + 2) g2 body (n + 23) (n + 24)) as [cb n2].
      specialize (He n2 g1 (n + 25) (n + 26)).
      destruct (gen n2 g1 els (n + 25) (n + 26)) as [ce n3].
      specialize (Hh n3 g1 (root_cell (tries g) (n + 27)) (n + 3)).
      destruct (gen_handlers n3 g1 _ (n + 3) hs) as [[ch n4] es].
      cbn [fst snd] in *. unfold try_labels in *. lia.
    - intros; simpl; lia.
    - intros t b h Hh rest Hr n g c f. rewrite gen_handlers_eq.
      specialize (Hh (n + 5) g (n + 3) (n + 4)).
      destruct (gen (n + 5) g h (n + 3) (n + 4)) as [c1 n1].
      specialize (Hr n1 g c f). destruct (gen_handlers n1 g c f rest) as [[cr n2] es].
      cbn [fst snd] in *. lia.
  Qed.

  Lemma own_handler e ty (hs : handlers) : forall n g c f ch n' es,
    gen_handlers n g c f hs = (ch, n', es) -> installed ch ->
    first (handler_types hs) e = Some ty ->
    exists b h k, find_handler isinst hs e = Some (b, h) /\ n <= k /\
      handler_at g c f k b h /\
      match ty with
      | Some y => forall rest d, assoc y (own_cases es ++ rest) d = k
      | None => own_all es = Some (k + 1)
      end.
  Proof.
    unfold first. induction hs as [|t b h rest IH]; intros n g c f ch n' es H C F.
    - discriminate.
    - rewrite gen_handlers_eq in H.
      pose proof (proj1 gen_mono h (n + 5) g (n + 3) (n + 4)) as Mo.
      destruct (gen (n + 5) g h (n + 3) (n + 4)) as [c1 n1] eqn:E1. cbn [snd] in Mo.
      destruct (gen_handlers n1 g c f rest) as [[cr n2] es'] eqn:E2.
      injection H as <- <- <-.
      rewrite !installed_cons, installed_app in C. destruct C as (C1 & C2 & C3 & C4 & C5 & C6).
      cbn [handler_types find find_handler] in *. destruct (catches e t) eqn:Ct.
      + injection F as <-. exists b, h, n. split; [reflexivity|]. split; [lia|].
        split.
        * unfold handler_at. rewrite E1. auto.
        * destruct t as [y|]; [|reflexivity]. intros rest' d. cbn [own_cases app assoc].
          rewrite Nat.eqb_refl. reflexivity.
      + destruct (IH _ _ _ _ _ _ _ E2 C6 F) as (b' & h' & k & H1 & H2 & H3 & H4).
        exists b', h', k. split; [exact H1|]. split; [lia|]. split; [exact H3|].
        destruct ty as [y|].
        * intros rest' d. destruct t as [t|]; cbn [own_cases app assoc]; [|apply H4].
          destruct (Nat.eqb_spec y t) as [->|Ne]; [|apply H4].
          apply find_some in F. destruct F as [_ F]. congruence.
        * destruct t as [t|]; cbn [own_all]; [exact H4|].
          apply find_some in F. destruct F as [_ F]. congruence.
  Qed.

  (** *** An exception arriving at a try *)

  Definition td_of (n : nat) (hs : handlers) (c q : nat) : tryd :=
    mkTry q (n + 1) (n + 2) (n + 3) (n + 4) (handler_types hs) c.

  Section Catch.
    Context (n c : nat) (fr : list frame) (K : nat -> option cell) (hf : bool)
            (hs : handlers) (g1 : ctx) (n3 n4 : nat) (ch : code)
            (es : list (option nat * nat * nat)).
    Local Notation pts := (parent_types (tries (ctx_of fr)) 1 (handler_types hs)).
    Context (Hg : gen_handlers n3 g1 c (n + 3) hs = (ch, n4, es)).
    Context (Ch : installed ch).
    Context (Ce : installed (exc_code (ctx_of fr) n c hf (handler_types hs) pts es n4)).
    Context (Cp : installed (parent_blocks pts n4 c (n + 3))).

    Definition caught (e : X) (s : S) (st : mstate) : Prop :=
      match find_handler isinst hs e with
      | Some (b, h) =>
          exists k m, n3 <= k /\ handler_at g1 c (n + 3) k b h /\
            star st (At (k + 3) (b e s) m) /\ others K c m /\
            c_flag (m c) = Caught /\ c_depth (m c) = 0
      | None =>
          exists m sel, star st (At (n + 3) s m) /\ others K c m /\
            c_flag (m c) = Thrown /\ c_catch (m c) = Some (e, sel) /\
            waits (tries (ctx_of fr)) e sel (c_depth (m c))
      end.

    Lemma caught_back e s st st' : star st st' -> caught e s st' -> caught e s st.
    Proof.
      unfold caught. intro H. destruct (find_handler isinst hs e) as [[b h]|].
      - intros (k & m & H0 & H1 & H2 & H3). exists k, m. split; [exact H0|]. split; [exact H1|].
        split; [eapply star_trans; eauto|exact H3].
      - intros (m & sel & H1 & H2). exists m, sel. split; [eapply star_trans; eauto|exact H2].
    Qed.

    Lemma at_route e s m sel :
      others K c m -> c_flag (m c) = Thrown -> c_catch (m c) = Some (e, sel) ->
      (first (handler_types hs) e = Some sel \/
       (first (handler_types hs) e = None /\
        ((exists k, route (tries (ctx_of fr)) e = Some (k, sel)) \/
         (route (tries (ctx_of fr)) e = None /\ sel = None /\
          c_depth (m c) = length (tries (ctx_of fr)))))) ->
      caught e s (At (n + 2) s m).
    Proof.
      intros O F Ct H. pose proof Ce as Ce'. unfold exc_code in Ce'. rewrite !installed_cons in Ce'.
      destruct Ce' as (_ & _ & _ & C2 & C7 & _).
      pose proof (gen_handlers_types _ _ _ _ _ _ _ _ Hg) as Ty.
      destruct H as [H|[H1 H2]].
      - destruct (own_handler e sel hs _ _ _ _ _ _ _ Hg Ch H) as (b & h & k & Fh & Lk & Hk & As).
        unfold caught. rewrite Fh. exists k. destruct Hk as (K1 & K2 & K3 & K4 & K5).
        eexists. split; [exact Lk|]. split; [repeat split; assumption|].
        split.
        + eapply star_trans with (b := At (k + 1) s (upd m c (set_depth 0 (m c)))).
          * destruct sel as [y|].
            -- eapply star_step; [cbn [Model.step]; rewrite C2, Ct; cbn [switch]; rewrite As; reflexivity|].
               eapply star_step; [cbn [Model.step]; rewrite K1; reflexivity|]. apply star_refl.
            -- eapply star_step; [cbn [Model.step]; rewrite C2, Ct; cbn [switch]; reflexivity|].
               eapply star_step; [cbn [Model.step]; rewrite C7, As; reflexivity|]. apply star_refl.
          * eapply star_step; [cbn [Model.step]; rewrite K2, ?upd_same; cbn [set_depth c_catch];
                               rewrite Ct; reflexivity|].
            eapply star_step; [cbn [Model.step]; rewrite K3; reflexivity|]. apply star_refl.
        + split; [apply others_upd, others_upd, O|]. rewrite !upd_same. split; reflexivity.
      - unfold caught. rewrite (proj2 (find_handler_none hs e) H1).
        pose proof (first_none _ _ H1) as Nn.
        pose proof (parent_spec e (tries (ctx_of fr)) 1 (handler_types hs) Nn) as Ps.
        assert (On : own_all es = None).
        { apply own_all_none. rewrite Ty. intro I. specialize (Nn _ I). discriminate. }
        destruct H2 as [[k R]|(R & -> & D)]; rewrite R in Ps.
        + destruct Ps as [P1 P2].
          assert (Cs : catches e sel = true) by (apply first_some in P1; apply P1).
          set (m' := upd m c (set_depth (Datatypes.S k) (m c))).
          exists m', sel. split; [|split; [apply others_upd, O|]].
          * destruct sel as [y|].
            -- eapply star_step; [cbn [Model.step]; rewrite C2, Ct; cbn [switch]; reflexivity|].
               rewrite own_cases_skip
                 by (rewrite Ty; intro I; rewrite (Nn _ I) in Cs; discriminate).
               pose proof (Cp _ _ (parent_case y _ _ (n + 7) n4 c (n + 3) P2)) as Cb.
               eapply star_step; [cbn [Model.step]; rewrite Cb; reflexivity|]. apply star_refl.
            -- eapply star_step; [cbn [Model.step]; rewrite C2, Ct; cbn [switch]; reflexivity|].
               rewrite On, (parent_all_some _ _ P2) in C7.
               eapply star_step; [cbn [Model.step]; rewrite C7; reflexivity|]. apply star_refl.
          * unfold m'. rewrite !upd_same. cbn. split; [exact F|]. split; [exact Ct|].
            left. exists k. split; [reflexivity|exact R].
        + exists m, None. split; [|split; [exact O|]].
          * eapply star_step; [cbn [Model.step]; rewrite C2, Ct; cbn [switch]; reflexivity|].
            rewrite On, (parent_all_none _ _ Ps) in C7.
            eapply star_step; [cbn [Model.step]; rewrite C7; reflexivity|]. apply star_refl.
          * split; [exact F|]. split; [exact Ct|]. right. auto.
    Qed.

    Lemma catch_exn e s st q fq :
      arr_exn K (FrTry (td_of n hs c q) fq :: fr) e s st -> caught e s st.
    Proof.
      cbn [arr_exn td_of t_cell t_exc t_route t_fin t_types].
      intros (m & O & [->|[(-> & F & D & sel & Ct & H)|(-> & F & Fi & sel & d & Ct & D & Wt)]]).
      - pose proof Ce as Ce'. unfold exc_code in Ce'. rewrite !installed_cons in Ce'.
        destruct Ce' as (C1 & C19 & C20 & _).
        eapply caught_back.
        + eapply star_step; [cbn [Model.step]; rewrite C1; reflexivity|].
          eapply star_step; [cbn [Model.step]; rewrite C19; reflexivity|].
          eapply star_step; [cbn [Model.step]; rewrite C20; reflexivity|]. apply star_refl.
        + rewrite select_first, first_app.
          eapply at_route.
          * repeat apply others_upd. exact O.
          * rewrite !upd_same. reflexivity.
          * rewrite !upd_same. reflexivity.
          * destruct (first (handler_types hs) e) as [ty|] eqn:F1; [left; reflexivity|].
            right. split; [reflexivity|].
            pose proof (parent_spec e (tries (ctx_of fr)) 1 (handler_types hs) (first_none _ _ F1)) as Ps.
            destruct (route (tries (ctx_of fr)) e) as [[k ty]|].
            -- left. exists k. destruct Ps as [-> _]. reflexivity.
            -- right. split; [reflexivity|]. rewrite Ps. split; [reflexivity|].
               rewrite !upd_same. reflexivity.
      - apply (at_route e s m sel O F Ct). destruct H as [H|(H1 & H2 & H3)]; [left; exact H|].
        right. split; [exact H1|]. right. rewrite H2. split; [reflexivity|].
        split; [exact H3|]. exact D.
      - unfold caught. rewrite (proj2 (find_handler_none hs e) Fi).
        exists m, sel. rewrite D. split; [apply star_refl|]. auto.
    Qed.
  End Catch.

  Lemma wf_cell_lt fr : forall n c, wf n fr -> cell_of fr = Some c -> c < n.
  Proof.
    induction fr as [|[l|t fq|t] r IH]; simpl; intros n c W C; [discriminate| | |].
    - destruct W as [W1 W2]. specialize (IH _ _ W2 C). lia.
    - injection C as <-. lia.
    - destruct W as [W1 W2]. specialize (IH _ _ W2 C). lia.
  Qed.

  (** *** Giving up a pin *)

  Lemma arr_exn_pin K c v fr e s st :
    nofin fr -> (cell_of fr = None \/ cell_of fr = Some c) ->
    arr_exn (pin K c v) fr e s st -> arr_exn K fr e s st.
  Proof.
    induction fr as [|[l|t fq|t] r IH]; cbn [nofin cell_of arr_exn]; auto; [|contradiction].
    intros _ C (m & O & H). exists m. split; [|exact H].
    destruct C as [C|C]; [discriminate|]. injection C as C. rewrite C in *.
    eapply others_pin; eauto.
  Qed.

  Lemma arr_ret_pin K c v fr w s st :
    nofin fr -> cell_of fr = None ->
    arr_ret (pin K c v) fr w s st -> arr_ret K fr w s st.
  Proof.
    induction fr as [|[l|t fq|t] r IH]; cbn [nofin cell_of arr_ret]; auto. discriminate.
  Qed.

  Lemma inv_unpin K c v m :
    inv (pin K c v) None m -> K c = None -> c_depth v = 0 ->
    (calm (c_flag v) \/ resets c) -> inv K None m.
  Proof.
    intros H Kc D F c'. destruct (unpin_others _ _ _ _ _ H) as [O E].
    destruct (Nat.eq_dec c' c) as [->|N]; [|apply O; exact N].
    unfold cell_ok. rewrite Kc, E. split; [exact D|].
    destruct F as [F|F]; [left; exact F|right; split; [exact F|discriminate]].
  Qed.

  Lemma arr_jump_pin K c v fr tgt f s st :
    nofin fr -> cell_of fr = None -> K c = None -> c_depth v = 0 ->
    (loops (ctx_of fr) <> [] -> calm (c_flag v) \/ resets c) ->
    arr_jump (pin K c v) fr tgt f s st -> arr_jump K fr tgt f s st.
  Proof.
    destruct fr as [|[l|t fq|t] r]; cbn [nofin cell_of arr_jump]; auto; [|discriminate|contradiction].
    intros _ C Kc D L (m & -> & Im). exists m. split; [reflexivity|].
    rewrite C in *. eapply inv_unpin; eauto. apply L. discriminate.
  Qed.

  Lemma arrive_unpin_root K c v fr x y o st :
    nofin fr -> cell_of fr = None -> K c = None -> c_depth v = 0 ->
    (loops (ctx_of fr) <> [] -> calm (c_flag v) \/ resets c) -> is_norm o = false ->
    arrive (pin K c v) fr x o st -> arrive K fr y o st.
  Proof.
    intros N C Kc D L No. destruct o; cbn [is_norm arrive] in *; [discriminate| | | |].
    - apply arr_jump_pin; assumption.
    - apply arr_jump_pin; assumption.
    - apply arr_ret_pin; assumption.
    - apply arr_exn_pin; auto.
  Qed.

  Lemma arrive_exit K fr x y o st :
    is_norm o = false -> arrive K fr x o st -> arrive K fr y o st.
  Proof. destruct o; cbn; auto. discriminate. Qed.

  Scheme exec_mut := Minimality for Spec.exec Sort Prop
    with exec_protected_mut := Minimality for Spec.exec_protected Sort Prop.
  Combined Scheme exec_both_ind from exec_mut, exec_protected_mut.

  (** a covered inner [finally] block only ends normally or raises *)
  Lemma fin_outcomes (s : stmt) d o :
    exec s d o -> forall outer lp, covered InFinally outer lp s ->
    match o with
    | OBrk _ | OCont _ => lp = true
    | ORet _ _ => False
    | _ => True
    end.
  Proof.
    intro H.
    induction H using exec_mut with (P0 := fun _ _ _ _ _ => True); auto; intros outer lp C;
      cbn [covered] in C; try (destruct C; discriminate); try discriminate; eauto.
    - destruct C as [_ C]. exact (IHexec2 _ _ C).
    - destruct C as [C _]. exact (IHexec _ _ C).
    - destruct C as [C1 C2]. apply (IHexec outer lp). destruct (c s); assumption.
  Qed.

  Lemma covered_find (hs : handlers) e b h k outer lp :
    covered_handlers k outer lp hs -> find_handler isinst hs e = Some (b, h) ->
    covered k outer lp h.
  Proof.
    induction hs as [|t b' h' rest IH]; intros C F; [discriminate|].
    destruct C as [C1 C2]. cbn [find_handler] in F.
    destruct (catches e t); [injection F as <- <-; exact C1|auto].
  Qed.

  (** *** The simulation *)

  Definition starts (s : stmt) (n entry l : nat) : Prop :=
    l = entry \/ (exists c a, s = While c a /\ l = n).

  Definition sim_stmt (s : stmt) (d : S) (o : outcome) : Prop :=
    forall k lp n fr K entry exit l m,
    covered k (is_nil (tries (ctx_of fr))) lp s ->
    region_ok k fr K -> loops_ok k fr lp -> wf n fr ->
    (forall c, n <= c -> K c = None) ->
    installed (fst (gen n (ctx_of fr) s entry exit)) ->
    starts s n entry l -> inv K (cell_of fr) m ->
    exists st, star (At l d m) st /\ arrive K fr exit o st.

  Definition guard_fr (n : nat) (hs : handlers) (c n1 : nat) (hf : bool) (fr : list frame) :=
    if hf then FrFin (td_of n hs c n1) :: fr else fr.
  Definition body_fr (n : nat) (hs : handlers) (c n1 : nat) (hf : bool) (fr : list frame) :=
    FrTry (td_of n hs c (n1 + 1)) (if hf then Some n1 else None) :: fr.

  (** ended in the finally block, or past an absent one *)
  Definition protected_end n fr K hf c exit (o : outcome) (st : mstate) : Prop :=
    (exists m, st = At (n + 3) (data_of o) m /\ others K c m /\ pcell fr hf o (m c)) \/
    (hf = false /\ is_norm o = false /\ arrive K fr exit o st).

  Lemma guard_sim (x : stmt) d o n n1 k fr K hf hs c lp b0 be exit m :
    sim_stmt x d o ->
    wf n fr -> nofin fr ->
    ((cell_of fr = None /\ c = n + 27) \/ cell_of fr = Some c) ->
    K c = None -> (forall c', n <= c' -> c' <> c -> K c' = None) ->
    n + 28 <= n1 -> n1 + 2 <= k ->
    installed (fst (gen k (ctx_of (guard_fr n hs c n1 hf fr)) x b0 be)) ->
    P be = Some (IBr (n + 3)) ->
    installed (fin_code (ctx_of fr) n c exit) ->
    covered (if hf then InGuard (is_nil (tries (ctx_of fr))) else InBody)
      (is_nil (tries (ctx_of fr))) lp x ->
    loops_ok InBody fr lp ->
    others K c m -> calm (c_flag (m c)) -> c_depth (m c) = 0 ->
    exists st, star (At b0 d m) st /\ protected_end n fr K hf c exit o st.
  Proof.
    intros IH W N Cf Kc Fr L1 L2 C Cbe Cfin Cov Lo O F D.
    assert (Cf' : cell_of fr = None \/ cell_of fr = Some c) by tauto.
    assert (Ck : c < k).
    { destruct Cf as [[_ ->]|Cf]; [lia|]. pose proof (wf_cell_lt _ _ _ W Cf). lia. }
    assert (Frp : forall v c', k <= c' -> pin K c v c' = None).
    { intros v c' Lc. rewrite pin_other by lia. apply Fr; lia. }
    destruct hf.
    - destruct (IH (InGuard (is_nil (tries (ctx_of fr)))) lp k (guard_fr n hs c n1 true fr)
                  (pin K c (m c)) b0 be b0 m) as (st & St & Ar).
      + exact Cov.
      + exists [], (td_of n hs c n1), fr, (m c). split; [reflexivity|].
        split; [apply pin_same|]. split; [exact D|].
        intro T. destruct (tries (ctx_of fr)); [reflexivity|discriminate].
      + exact Lo.
      + cbn [guard_fr wf td_of t_seq]. split; [lia|]. eapply wf_mono; [|exact W]. lia.
      + apply Frp.
      + exact C.
      + left. reflexivity.
      + cbn [guard_fr cell_of]. apply pin_inv; assumption.
      + cbn [guard_fr] in Ar. destruct o as [s'|s'|s'|v s'|e s'];
          cbn [arrive arr_jump arr_ret arr_exn cell_of td_of t_cell t_fin t_finexc] in Ar.
        * destruct Ar as (m' & -> & Im). destruct (unpin_others _ _ _ _ _ Im) as [O' E].
          exists (At (n + 3) s' m'). split.
          -- eapply star_trans; [exact St|]. ev. apply star_refl.
          -- left. exists m'. split; [reflexivity|]. split; [exact O'|].
             cbn [pcell]. rewrite E. auto.
        * destruct Ar as (m' & -> & O' & H). exists (At (n + 3) s' m').
          split; [exact St|]. left. exists m'. split; [reflexivity|].
          split; [eapply others_pin; eauto|exact H].
        * destruct Ar as (m' & -> & O' & H). exists (At (n + 3) s' m').
          split; [exact St|]. left. exists m'. split; [reflexivity|].
          split; [eapply others_pin; eauto|exact H].
        * contradiction.
        * destruct Ar as (m' & -> & O' & T).
          unfold fin_code in Cfin. rewrite !installed_cons in Cfin.
          destruct Cfin as (_ & _ & _ & C4 & C21 & C22 & _).
          eexists. split.
          -- eapply star_trans; [exact St|].
             eapply star_step; [cbn [Model.step]; rewrite C4; reflexivity|].
             eapply star_step; [cbn [Model.step]; rewrite C21; reflexivity|].
             eapply star_step; [cbn [Model.step]; rewrite C22; reflexivity|]. apply star_refl.
          -- left. eexists. split; [reflexivity|]. rewrite !upd_same.
             split; [repeat apply others_upd; eapply others_pin; eauto|].
             cbn [pcell set_depth set_flag set_catch c_flag c_catch c_depth c_ret c_loop].
             eexists. split; [reflexivity|]. right. rewrite T. auto.
    - cbn [guard_fr] in C. destruct Cf as [[Cn Ec]|Cs].
      + destruct (IH InBody lp k fr (pin K c (m c)) b0 be b0 m) as (st & St & Ar).
        * exact Cov.
        * split; [exact N|]. rewrite Cn. discriminate.
        * exact Lo.
        * eapply wf_mono; [|exact W]. lia.
        * apply Frp.
        * exact C.
        * left. reflexivity.
        * apply pin_inv; auto.
        * destruct (is_norm o) eqn:No.
          -- destruct o as [s'|s'|s'|v s'|e s']; try discriminate.
             destruct Ar as (m' & -> & Im). destruct (unpin_others _ _ _ _ _ Im) as [O' E].
             exists (At (n + 3) s' m'). split.
             ++ eapply star_trans; [exact St|]. ev. apply star_refl.
             ++ left. exists m'. split; [reflexivity|]. split; [exact O'|].
                cbn [pcell]. rewrite E. auto.
          -- exists st. split; [exact St|]. right. split; [reflexivity|]. split; [exact No|].
             eapply arrive_unpin_root; eauto.
      + destruct (IH InBody lp k fr K b0 be b0 m) as (st & St & Ar).
        * exact Cov.
        * split; [exact N|]. rewrite Cs. congruence.
        * exact Lo.
        * eapply wf_mono; [|exact W]. lia.
        * intros c' Lc. apply Fr; lia.
        * exact C.
        * left. reflexivity.
        * rewrite Cs. apply others_inv; assumption.
        * destruct (is_norm o) eqn:No.
          -- destruct o as [s'|s'|s'|v s'|e s']; try discriminate.
             destruct Ar as (m' & -> & Im).
             exists (At (n + 3) s' m'). split.
             ++ eapply star_trans; [exact St|]. ev. apply star_refl.
             ++ left. exists m'. split; [reflexivity|]. split; [eapply inv_others; eauto|].
                specialize (Im c). unfold cell_ok in Im. rewrite Kc, Cs in Im.
                cbn [pcell]. destruct Im as [I1 [I2|[_ I2]]]; [auto|congruence].
          -- exists st. split; [exact St|]. right. split; [reflexivity|]. split; [exact No|].
             eapply arrive_exit; eauto.
  Qed.

  (** [R] holds of the state in which the protected part is entered *)
  Definition prot_gen (R : nat -> list frame -> (nat -> option cell) -> bool -> nat -> nat ->
                           mstate -> Prop)
      (body : stmt) (hs : handlers) (els : stmt) (d : S) : Prop :=
    forall lp n fr K n1 n2 n3 n4 hf ch es c m exit,
    wf n fr -> nofin fr ->
    ((cell_of fr = None /\ c = n + 27) \/ cell_of fr = Some c) ->
    K c = None -> (forall c', n <= c' -> K c' = None) ->
    n + 28 <= n1 ->
    n2 = snd (gen (n1 + 2) (ctx_of (body_fr n hs c n1 hf fr)) body (n + 23) (n + 24)) ->
    installed (fst (gen (n1 + 2) (ctx_of (body_fr n hs c n1 hf fr)) body (n + 23) (n + 24))) ->
    P (n + 24) = Some (IBr (n + 25)) ->
    n3 = snd (gen n2 (ctx_of (guard_fr n hs c n1 hf fr)) els (n + 25) (n + 26)) ->
    installed (fst (gen n2 (ctx_of (guard_fr n hs c n1 hf fr)) els (n + 25) (n + 26))) ->
    P (n + 26) = Some (IBr (n + 3)) ->
    gen_handlers n3 (ctx_of (guard_fr n hs c n1 hf fr)) c (n + 3) hs = (ch, n4, es) ->
    installed ch ->
    installed (exc_code (ctx_of fr) n c hf (handler_types hs)
                 (parent_types (tries (ctx_of fr)) 1 (handler_types hs)) es n4) ->
    installed (parent_blocks (parent_types (tries (ctx_of fr)) 1 (handler_types hs)) n4 c (n + 3)) ->
    installed (fin_code (ctx_of fr) n c exit) ->
    covered InBody false lp body ->
    covered_handlers (if hf then InGuard (is_nil (tries (ctx_of fr))) else InBody)
      (is_nil (tries (ctx_of fr))) lp hs ->
    covered (if hf then InGuard (is_nil (tries (ctx_of fr))) else InBody)
      (is_nil (tries (ctx_of fr))) lp els ->
    loops_ok InBody fr lp -> inv K (Some c) m ->
    R n fr K hf c exit (At (n + 23) d m).

  Definition sim_prot (body : stmt) (hs : handlers) (els : stmt) (d : S) (o : outcome) : Prop :=
    prot_gen (fun n fr K hf c exit st0 =>
                exists st, star st0 st /\ protected_end n fr K hf c exit o st) body hs els d.

  (** how the body of a try ends *)
  Lemma body_sim (body : stmt) d o hs lp n fr K n1 hf c m :
    sim_stmt body d o ->
    wf n fr -> nofin fr ->
    ((cell_of fr = None /\ c = n + 27) \/ cell_of fr = Some c) ->
    K c = None -> (forall c', n <= c' -> K c' = None) ->
    n + 28 <= n1 ->
    installed (fst (gen (n1 + 2) (ctx_of (body_fr n hs c n1 hf fr)) body (n + 23) (n + 24))) ->
    covered InBody false lp body -> loops_ok InBody fr lp -> inv K (Some c) m ->
    exists st, star (At (n + 23) d m) st /\
               arrive K (body_fr n hs c n1 hf fr) (n + 24) o st.
  Proof.
    intros IH W N Cf Kc Fr L1 C Cov Lo Im.
    apply (IH InBody lp (n1 + 2) (body_fr n hs c n1 hf fr) K (n + 23) (n + 24) (n + 23) m).
    - exact Cov.
    - split; [exact N|]. cbn [body_fr cell_of td_of t_cell]. congruence.
    - exact Lo.
    - cbn [body_fr wf td_of t_seq t_cell]. split; [lia|].
      split; [destruct Cf as [[_ ->]|Cf]; [lia|]; pose proof (wf_cell_lt _ _ _ W Cf); lia|].
      split; [intros c' E; destruct Cf as [[Cf _]|Cf]; congruence|].
      destruct hf; [split; [lia|]|]; (eapply wf_mono; [|exact W]; lia).
    - intros c' Lc. apply Fr. lia.
    - exact C.
    - left. reflexivity.
    - exact Im.
  Qed.

  Lemma prot_jump n fr K hs c n1 hf tgt f d st :
    arr_jump K (body_fr n hs c n1 hf fr) tgt f d st ->
    (exists m, st = At (n + 3) d m /\ others K c m /\ c_flag (m c) = f /\
       c_depth (m c) = 0 /\ loop_seq fr <> None /\ c_loop (m c) = loop_seq fr) \/
    (hf = false /\ arr_jump K fr tgt f d st).
  Proof.
    cbn [body_fr arr_jump td_of t_cell t_fin]. intros [H|[H1 H2]]; [left; exact H|].
    right. destruct hf; [discriminate|auto].
  Qed.


  Lemma while_body (c : S -> bool) (a : stmt) s o k lp n fr K entry exit m :
    sim_stmt a s o ->
    covered k (is_nil (tries (ctx_of fr))) lp (While c a) ->
    region_ok k fr K -> wf n fr -> (forall c, n <= c -> K c = None) ->
    installed (fst (gen n (ctx_of fr) (While c a) entry exit)) ->
    inv K (cell_of fr) m ->
    exists st, star (At (n + 1) s m) st /\
               arrive K (FrLoop (mkLoop (n + 3) exit n) :: fr) (n + 2) o st.
  Proof.
    intros IH Cov R W Fr C Im. cbn [gen] in C.
    destruct (gen (n + 4) _ a (n + 1) (n + 2)) as [ca n1] eqn:E.
    cbn [fst] in C. rewrite !installed_cons in C. destruct C as (_ & _ & _ & C).
    apply (IH k true (n + 4) (FrLoop (mkLoop (n + 3) exit n) :: fr) K (n + 1) (n + 2) (n + 1) m).
    - exact Cov.
    - destruct k as [|b|].
      + exact R.
      + destruct R as (ls & t & r & v & -> & H). exists (mkLoop (n + 3) exit n :: ls), t, r, v.
        split; [reflexivity|exact H].
      + exact R.
    - intros _. destruct k; [discriminate|discriminate|eauto].
    - cbn [wf l_seq]. split; [lia|]. eapply wf_mono; [|exact W]. lia.
    - intros c' Lc. apply Fr. lia.
    - cbn [ctx_of]. rewrite E. exact C.
    - left. reflexivity.
    - exact Im.
  Qed.

  Lemma while_code (c : S -> bool) (a : stmt) n g entry exit l s m :
    installed (fst (gen n g (While c a) entry exit)) ->
    starts (While c a) n entry l ->
    P n = Some (ICond c (n + 1) exit) /\ P (n + 2) = Some (IBr n) /\
    star (At l s m) (At n s m).
  Proof.
    intros C Sl. cbn [gen] in C.
    destruct (gen (n + 4) _ a (n + 1) (n + 2)) as [ca n1].
    cbn [fst] in C. rewrite !installed_cons in C. destruct C as (C1 & C2 & C3 & _).
    split; [exact C2|]. split; [exact C3|].
    destruct Sl as [->|(c' & a' & _ & ->)]; [ev|]; apply star_refl.
  Qed.


  (** a try statement up to its finally block *)
  Lemma try_enter R (body : stmt) hs els fin s k lp n fr K entry exit m :
    prot_gen R body hs els s ->
    covered k (is_nil (tries (ctx_of fr))) lp (Try body hs els fin) ->
    region_ok k fr K -> loops_ok k fr lp -> wf n fr ->
    (forall c, n <= c -> K c = None) ->
    installed (fst (gen n (ctx_of fr) (Try body hs els fin) entry exit)) ->
    inv K (cell_of fr) m ->
    exists c m1,
      nofin fr /\
      ((cell_of fr = None /\ c = n + 27) \/ cell_of fr = Some c) /\ K c = None /\
      (cell_of fr = None -> loops (ctx_of fr) <> [] -> resets c) /\
      loops_ok InBody fr lp /\
      covered (if is_nil (tries (ctx_of fr)) then InBody else InFinally)
        (is_nil (tries (ctx_of fr))) (is_nil (tries (ctx_of fr)) && lp) fin /\
      installed (fst (gen (n + 28) (ctx_of fr) fin (n + 3) (n + 8))) /\
      installed (fin_code (ctx_of fr) n c exit) /\
      P (n + 6) = Some (if has_finally fin then IThrow c (unwind_of (ctx_of fr)) else IUnreachable) /\
      star (At entry s m) (At (n + 23) s m1) /\
      R n fr K (has_finally fin) c exit (At (n + 23) s m1).
  Proof.
    intros IHp Cov Rg Lo W Fr C Im.
    destruct Cov as (-> & Cov1 & Cov2 & Cov3 & Cov4). destruct Rg as [N Rc].
    rewrite gen_try_eq in C. cbn zeta in C. unfold try_labels in C.
    set (c := root_cell (tries (ctx_of fr)) (n + 27)) in *.
    assert (Ec : c = match cell_of fr with Some c => c | None => n + 27 end)
      by (eapply root_cell_eq; eauto).
    assert (Cf : (cell_of fr = None /\ c = n + 27) \/ cell_of fr = Some c).
    { destruct (cell_of fr); [right; congruence|left; auto]. }
    assert (Kc : K c = None).
    { destruct Cf as [[_ E]|E]; [apply Fr; lia|apply Rc; exact E]. }
    destruct (gen (n + 28) (ctx_of fr) fin (n + 3) (n + 8)) as [cf n1] eqn:E1.
    assert (L1 : n + 28 <= n1).
    { pose proof (proj1 gen_mono fin (n + 28) (ctx_of fr) (n + 3) (n + 8)) as Mo.
      rewrite E1 in Mo. exact Mo. }
    set (hf := has_finally fin) in *.
    replace (mkCtx (loops (ctx_of fr)) (tries (ctx_of fr)) _)
      with (ctx_of (guard_fr n hs c n1 hf fr)) in C
      by (destruct hf; [reflexivity|cbn [guard_fr]; destruct (ctx_of fr); reflexivity]).
    replace (mkCtx (loops (ctx_of fr)) (_ :: tries (ctx_of fr)) _)
      with (ctx_of (body_fr n hs c n1 hf fr)) in C
      by (destruct hf; reflexivity).
    destruct (gen (n1 + 2) (ctx_of (body_fr n hs c n1 hf fr)) body (n + 23) (n + 24))
      as [cb n2] eqn:E2.
    destruct (gen n2 (ctx_of (guard_fr n hs c n1 hf fr)) els (n + 25) (n + 26))
      as [ce n3] eqn:E3.
    destruct (gen_handlers n3 (ctx_of (guard_fr n hs c n1 hf fr)) c (n + 3) hs)
      as [[ch n4] es] eqn:E4.
    cbn [fst] in C. rewrite !installed_cons, !installed_app in C.
    destruct C as (C0 & Cn & C24 & C26 & Cfin & Cx & Cp & Ccf & Ccb & Cce & Cch).
    assert (Rs : cell_of fr = None -> loops (ctx_of fr) <> [] -> resets c).
    { intros En Ln. destruct Cf as [[_ Ef]|Ef]; [|congruence]. exists (n + 23).
      rewrite Ef. replace (n + 27 - 27) with n by lia. rewrite Cn, Ef.
      destruct (loops (ctx_of fr)); [congruence|reflexivity]. }
    assert (Pre : exists m1, star (At entry s m) (At (n + 23) s m1) /\ inv K (Some c) m1).
    { assert (O : others K c m) by (eapply inv_others; eauto).
      assert (D : c_depth (m c) = 0).
      { specialize (Im c). unfold cell_ok in Im. rewrite Kc in Im. apply Im. }
      destruct (loops (ctx_of fr)) as [|l0 ls] eqn:El; cbn [is_nil] in Cn.
      - exists m. split; [ev; ev; apply star_refl|].
        apply others_inv; auto.
        specialize (Im c). unfold cell_ok in Im. rewrite Kc in Im.
        destruct Im as [_ [F|[[l' F] A]]]; [exact F|]. exfalso.
        destruct Cf as [[_ Ef]|Ef]; [|congruence].
        rewrite Ef in F. replace (n + 27 - 27) with n in F by lia. congruence.
      - eexists. split; [ev; ev; apply star_refl|]. apply others_inv.
        + apply others_upd. exact O.
        + exact Kc.
        + rewrite upd_same. exact D.
        + rewrite upd_same. left. reflexivity. }
    destruct Pre as (m1 & S1 & Im1).
    assert (En : R n fr K hf c exit (At (n + 23) s m1)).
    { apply (IHp lp n fr K n1 n2 n3 n4 hf ch es c m1 exit); auto.
      - rewrite E2. reflexivity.
      - rewrite E2. exact Ccb.
      - rewrite E3. reflexivity.
      - rewrite E3. exact Cce. }
    exists c, m1. split; [exact N|]. split; [exact Cf|]. split; [exact Kc|].
    split; [exact Rs|]. split; [exact Lo|]. split; [exact Cov4|]. split; [exact Ccf|].
    split; [exact Cfin|]. split.
    { unfold exc_code in Cx. rewrite !installed_cons in Cx.
      destruct Cx as (_ & _ & _ & _ & _ & Cx & _). exact Cx. }
    split; [exact S1|exact En].
  Qed.

  Lemma fin_run (fin : stmt) d o' lp n fr K c m :
    sim_stmt fin d o' ->
    nofin fr -> wf n fr ->
    ((cell_of fr = None /\ c = n + 27) \/ cell_of fr = Some c) ->
    (forall c, n <= c -> K c = None) ->
    loops_ok InBody fr lp ->
    covered (if is_nil (tries (ctx_of fr)) then InBody else InFinally)
      (is_nil (tries (ctx_of fr))) (is_nil (tries (ctx_of fr)) && lp) fin ->
    installed (fst (gen (n + 28) (ctx_of fr) fin (n + 3) (n + 8))) ->
    others K c m ->
    exists st, star (At (n + 3) d m) st /\ arrive (pin K c (m c)) fr (n + 8) o' st.
  Proof.
    intros IH N W Cf Fr Lo Cov C O.
    apply (IH _ _ (n + 28) fr (pin K c (m c)) (n + 3) (n + 8) (n + 3) m Cov).
    - destruct (tries (ctx_of fr)) eqn:E; cbn [is_nil].
      + split; [exact N|]. rewrite cell_of_tries, E. discriminate.
      + exact N.
    - destruct (tries (ctx_of fr)); cbn [is_nil andb]; [exact Lo|]. intro; discriminate.
    - eapply wf_mono; [|exact W]. lia.
    - intros c' Lc. rewrite pin_other; [apply Fr; lia|].
      destruct Cf as [[_ ->]|Cf]; [lia|]. pose proof (wf_cell_lt _ _ _ W Cf). lia.
    - exact C.
    - left. reflexivity.
    - apply pin_inv; [exact O|tauto].
  Qed.

  Lemma exec_skip d (o : outcome) : exec Skip d o -> o = ONorm d.
  Proof. intro H. inversion H. reflexivity. Qed.

  Lemma sim_both :
    (forall s d o, exec s d o -> sim_stmt s d o) /\
    (forall body hs els d o, exec_protected body hs els d o -> sim_prot body hs els d o).
  Proof.
    apply exec_both_ind.
    - (* skip *)
      intros s k lp n fr K entry exit l m Cov R Lo W Fr C Sl Im.
      destruct Sl as [->|(c & a & H & _)]; [|discriminate].
      cbn [gen fst] in C. apply installed_cons in C. destruct C as [C _].
      exists (At exit s m). split; [ev; apply star_refl|]. exists m. auto.
    - (* act *)
      intros a s s' E k lp n fr K entry exit l m Cov R Lo W Fr C Sl Im.
      destruct Sl as [->|(c & a' & H & _)]; [|discriminate].
      cbn [gen fst] in C. apply installed_cons in C. destruct C as [C _].
      exists (At exit s' m). split; [|exists m; auto].
      eapply star_step; [cbn [Model.step]; rewrite C, E; reflexivity|]. apply star_refl.
    - (* raise *)
      intros a s e s' E k lp n fr K entry exit l m Cov R Lo W Fr C Sl Im.
      destruct Sl as [->|(c & a' & H & _)]; [|discriminate].
      cbn [gen fst] in C. apply installed_cons in C. destruct C as [C _].
      eexists. split.
      + eapply star_step; [cbn [Model.step]; rewrite C, E; reflexivity|]. apply star_refl.
      + cbn [arrive]. eapply act_exn; eauto.
        intros ->. cbn [covered] in Cov. destruct (Cov s) as [d' Hd]. congruence.
    - (* seq *)
      intros a b s s' o _ IH1 _ IH2 k lp n fr K entry exit l m Cov R Lo W Fr C Sl Im.
      destruct Sl as [->|(c & a' & H & _)]; [|discriminate].
      destruct Cov as [Cov1 Cov2]. cbn [gen] in C.
      pose proof (proj1 gen_mono a (n + 1) (ctx_of fr) entry n) as Mo.
      destruct (gen (n + 1) (ctx_of fr) a entry n) as [ca n1] eqn:E1.
      destruct (gen n1 (ctx_of fr) b n exit) as [cb n2] eqn:E2.
      cbn [fst snd] in *. apply installed_app in C. destruct C as [C1 C2].
      destruct (IH1 k lp (n + 1) fr K entry n entry m) as (st & S1 & m' & -> & Im'); auto.
      { eapply wf_mono; [|exact W]. lia. } { intros; apply Fr; lia. }
      { rewrite E1. exact C1. } { left. reflexivity. }
      destruct (IH2 k lp n1 fr K n exit n m') as (st & S2 & Ar); auto.
      { eapply wf_mono; [|exact W]. lia. } { intros; apply Fr; lia. }
      { rewrite E2. exact C2. } { left. reflexivity. }
      exists st. split; [eapply star_trans; eauto|exact Ar].
    - (* seq, abrupt *)
      intros a b s o _ IH1 No k lp n fr K entry exit l m Cov R Lo W Fr C Sl Im.
      destruct Sl as [->|(c & a' & H & _)]; [|discriminate].
      destruct Cov as [Cov1 Cov2]. cbn [gen] in C.
      destruct (gen (n + 1) (ctx_of fr) a entry n) as [ca n1] eqn:E1.
      destruct (gen n1 (ctx_of fr) b n exit) as [cb n2] eqn:E2.
      cbn [fst snd] in *. apply installed_app in C. destruct C as [C1 C2].
      destruct (IH1 k lp (n + 1) fr K entry n entry m) as (st & S1 & Ar); auto.
      { eapply wf_mono; [|exact W]. lia. } { intros; apply Fr; lia. }
      { rewrite E1. exact C1. } { left. reflexivity. }
      exists st. split; [exact S1|]. eapply arrive_exit; eauto.
    - (* if *)
      intros c a b s o _ IH k lp n fr K entry exit l m Cov R Lo W Fr C Sl Im.
      destruct Sl as [->|(c' & a' & H & _)]; [|discriminate].
      destruct Cov as [Cov1 Cov2]. cbn [gen] in C.
      pose proof (proj1 gen_mono a (n + 2) (ctx_of fr) n exit) as Mo.
      destruct (gen (n + 2) (ctx_of fr) a n exit) as [ca n1] eqn:E1.
      destruct (gen n1 (ctx_of fr) b (n + 1) exit) as [cb n2] eqn:E2.
      cbn [fst snd] in *. rewrite installed_cons, installed_app in C.
      destruct C as (C0 & C1 & C2).
      destruct (c s) eqn:Cs.
      + destruct (IH k lp (n + 2) fr K n exit n m) as (st & S1 & Ar); auto.
        { eapply wf_mono; [|exact W]. lia. } { intros; apply Fr; lia. }
        { rewrite E1. exact C1. } { left. reflexivity. }
        exists st. split; [|exact Ar].
        eapply star_step; [cbn [Model.step]; rewrite C0, Cs; reflexivity|]. exact S1.
      + destruct (IH k lp n1 fr K (n + 1) exit (n + 1) m) as (st & S1 & Ar); auto.
        { eapply wf_mono; [|exact W]. lia. } { intros; apply Fr; lia. }
        { rewrite E2. exact C2. } { left. reflexivity. }
        exists st. split; [|exact Ar].
        eapply star_step; [cbn [Model.step]; rewrite C0, Cs; reflexivity|]. exact S1.

    - (* while, done *)
      intros c a s Cs k lp n fr K entry exit l m Cov R Lo W Fr C Sl Im.
      destruct (while_code c a n _ entry exit l s m C Sl) as (C1 & C2 & S0).
      exists (At exit s m). split; [|exists m; auto].
      eapply star_trans; [exact S0|].
      eapply star_step; [cbn [Model.step]; rewrite C1, Cs; reflexivity|]. apply star_refl.
    - (* while, next round *)
      intros c a s s' o Cs _ IH1 _ IH2 k lp n fr K entry exit l m Cov R Lo W Fr C Sl Im.
      destruct (while_code c a n _ entry exit l s m C Sl) as (C1 & C2 & S0).
      destruct (while_body c a s _ k lp n fr K entry exit m IH1 Cov R W Fr C Im)
        as (st & S1 & m' & -> & Im').
      destruct (IH2 k lp n fr K entry exit n m') as (st & S2 & Ar); auto.
      { right. eauto. }
      exists st. split; [|exact Ar]. eapply star_trans; [exact S0|].
      eapply star_step; [cbn [Model.step]; rewrite C1, Cs; reflexivity|].
      eapply star_trans; [exact S1|]. ev. exact S2.
    - (* while, continue *)
      intros c a s s' o Cs _ IH1 _ IH2 k lp n fr K entry exit l m Cov R Lo W Fr C Sl Im.
      destruct (while_code c a n _ entry exit l s m C Sl) as (C1 & C2 & S0).
      destruct (while_body c a s _ k lp n fr K entry exit m IH1 Cov R W Fr C Im)
        as (st & S1 & m' & -> & Im').
      destruct (IH2 k lp n fr K entry exit n m') as (st & S2 & Ar); auto.
      { right. eauto. }
      exists st. split; [|exact Ar]. eapply star_trans; [exact S0|].
      eapply star_step; [cbn [Model.step]; rewrite C1, Cs; reflexivity|].
      eapply star_trans; [exact S1|]. exact S2.
    - (* while, break *)
      intros c a s s' Cs _ IH1 k lp n fr K entry exit l m Cov R Lo W Fr C Sl Im.
      destruct (while_code c a n _ entry exit l s m C Sl) as (C1 & C2 & S0).
      destruct (while_body c a s _ k lp n fr K entry exit m IH1 Cov R W Fr C Im)
        as (st & S1 & m' & -> & Im').
      eexists. split; [|exists m'; split; [reflexivity|exact Im']].
      eapply star_trans; [exact S0|].
      eapply star_step; [cbn [Model.step]; rewrite C1, Cs; reflexivity|]. exact S1.
    - (* while, return *)
      intros c a s v s' Cs _ IH1 k lp n fr K entry exit l m Cov R Lo W Fr C Sl Im.
      destruct (while_code c a n _ entry exit l s m C Sl) as (C1 & C2 & S0).
      destruct (while_body c a s _ k lp n fr K entry exit m IH1 Cov R W Fr C Im)
        as (st & S1 & Ar).
      exists st. split; [|exact Ar].
      eapply star_trans; [exact S0|].
      eapply star_step; [cbn [Model.step]; rewrite C1, Cs; reflexivity|]. exact S1.
    - (* while, exception *)
      intros c a s e s' Cs _ IH1 k lp n fr K entry exit l m Cov R Lo W Fr C Sl Im.
      destruct (while_code c a n _ entry exit l s m C Sl) as (C1 & C2 & S0).
      destruct (while_body c a s _ k lp n fr K entry exit m IH1 Cov R W Fr C Im)
        as (st & S1 & Ar).
      exists st. split; [|exact Ar].
      eapply star_trans; [exact S0|].
      eapply star_step; [cbn [Model.step]; rewrite C1, Cs; reflexivity|]. exact S1.
    - (* break *)
      intros s k lp n fr K entry exit l m Cov R Lo W Fr C Sl Im.
      destruct Sl as [->|(c & a & H & _)]; [|discriminate].
      cbn [covered] in Cov. subst lp.
      apply (jump_sim k fr K l_brk FBreak s n entry m R Lo W C Im).
    - (* continue *)
      intros s k lp n fr K entry exit l m Cov R Lo W Fr C Sl Im.
      destruct Sl as [->|(c & a & H & _)]; [|discriminate].
      cbn [covered] in Cov. subst lp.
      apply (jump_sim k fr K l_cont FContinue s n entry m R Lo W C Im).
    - (* return *)
      intros v s k lp n fr K entry exit l m Cov R Lo W Fr C Sl Im.
      destruct Sl as [->|(c & a & H & _)]; [|discriminate].
      cbn [covered] in Cov. subst k.
      apply (ret_sim fr K v s n entry exit m R C Im).
    - (* try, finally ends normally *)
      intros body hs els fin s o s' _ IHp Xf IHf k lp n fr K entry exit l m Cov R Lo W Fr C Sl Im.
      destruct Sl as [->|(c & a & H & _)]; [|discriminate].
      destruct (try_enter _ _ _ _ _ _ _ _ _ _ _ _ _ _ IHp Cov R Lo W Fr C Im)
        as (c & m0 & N & Cf & Kc & Rs & Lo' & Cov4 & Ccf & Cfin & C6 & S0 & st & S01 & En).
      pose proof (star_trans _ _ _ S0 S01) as S1. clear S0 S01.
      destruct En as [(m1 & -> & O & Pc)|(Hf & No & Ar)].
      + destruct (fin_run fin _ _ lp n fr K c m1 IHf N W Cf Fr Lo' Cov4 Ccf O)
          as (st & S2 & m2 & -> & Im2).
        destruct (unpin_others _ _ _ _ _ Im2) as [O2 E2].
        rewrite <- E2 in Pc.
        assert (Cf' : cell_of fr = None \/ cell_of fr = Some c) by tauto.
        destruct (finish K fr (has_finally fin) o s' n n c m2 exit W N Cf' Kc O2 Pc Cfin C6)
          as (st & S3 & Ar).
        exists st. split; [|exact Ar]. eapply star_trans; [exact S1|].
        eapply star_trans; [exact S2|exact S3].
      + exists st. split; [exact S1|].
        destruct fin; try discriminate. apply exec_skip in Xf. injection Xf as ->.
        replace (with_data o (data_of o)) with o by (destruct o; reflexivity). exact Ar.
    - (* try, finally ends abruptly *)
      intros body hs els fin s o o' _ IHp Xf IHf No k lp n fr K entry exit l m Cov R Lo W Fr C Sl Im.
      destruct Sl as [->|(c & a & H & _)]; [|discriminate].
      destruct (try_enter _ _ _ _ _ _ _ _ _ _ _ _ _ _ IHp Cov R Lo W Fr C Im)
        as (c & m0 & N & Cf & Kc & Rs & Lo' & Cov4 & Ccf & Cfin & C6 & S0 & st & S01 & En).
      pose proof (star_trans _ _ _ S0 S01) as S1. clear S0 S01.
      destruct En as [(m1 & -> & O & Pc)|(Hf & _ & Ar)].
      + destruct (fin_run fin _ _ lp n fr K c m1 IHf N W Cf Fr Lo' Cov4 Ccf O)
          as (st & S2 & Ar).
        exists st. split; [eapply star_trans; eauto|].
        destruct Cf as [[Cn Ec]|Cs].
        * assert (T : tries (ctx_of fr) = []).
          { rewrite cell_of_tries in Cn. destruct (tries (ctx_of fr)); [reflexivity|discriminate]. }
          eapply arrive_unpin_root; [exact N|exact Cn|exact Kc| | |exact No|exact Ar].
          -- clear - Pc T. destruct o; cbn [pcell] in Pc; try tauto.
             destruct Pc as (sel & _ & [[_ Wt]|H]); [|tauto]. rewrite T in Wt.
             destruct Wt as [(k & _ & H)|(_ & _ & H)]; [discriminate|exact H].
          -- intro Ln. right. apply Rs; assumption.
        * assert (T : is_nil (tries (ctx_of fr)) = false).
          { rewrite cell_of_tries in Cs. destruct (tries (ctx_of fr)); [discriminate|reflexivity]. }
          rewrite T in Cov4. cbn [andb] in Cov4.
          pose proof (fin_outcomes _ _ _ Xf _ _ Cov4) as Fo.
          destruct o'; cbn [is_norm] in No; try discriminate; try contradiction.
          cbn [arrive] in *. eapply arr_exn_pin; [exact N| |exact Ar]. right. exact Cs.
      + exfalso. destruct fin; try discriminate. apply exec_skip in Xf. subst o'. discriminate.
    - (* protected: else *)
      intros body hs els s s' o _ IHb _ IHe lp n fr K n1 n2 n3 n4 hf ch es c m exit
        W N Cf Kc Fr L1 En2 Cb C24 En3 Ce C26 Hg Ch Cx Cp Cfin Cov1 Cov2 Cov3 Lo Im.
      destruct (body_sim body s _ hs lp n fr K n1 hf c m IHb W N Cf Kc Fr L1 Cb Cov1 Lo Im)
        as (st & S1 & m' & -> & Im').
      assert (L2 : n1 + 2 <= n2) by (rewrite En2; apply gen_mono).
      assert (Cm : calm (c_flag (m' c)) /\ c_depth (m' c) = 0).
      { specialize (Im' c). unfold cell_ok in Im'. rewrite Kc in Im'.
        cbn [body_fr cell_of td_of t_cell] in Im'.
        destruct Im' as [I1 [I2|[_ I2]]]; [auto|congruence]. }
      destruct (guard_sim els s' o n n1 n2 fr K hf hs c lp (n + 25) (n + 26) exit m')
        as (st & S2 & En); try tauto; auto.
      { eapply inv_others; eauto. }
      exists st. split; [|exact En]. eapply star_trans; [exact S1|]. ev. exact S2.
    - (* protected: caught *)
      intros body hs els s e s' b h o _ IHb Fh _ IHh lp n fr K n1 n2 n3 n4 hf ch es c m exit
        W N Cf Kc Fr L1 En2 Cb C24 En3 Ce C26 Hg Ch Cx Cp Cfin Cov1 Cov2 Cov3 Lo Im.
      destruct (body_sim body s _ hs lp n fr K n1 hf c m IHb W N Cf Kc Fr L1 Cb Cov1 Lo Im)
        as (st & S1 & Ar).
      assert (L2 : n1 + 2 <= n2) by (rewrite En2; apply gen_mono).
      assert (L3 : n2 <= n3) by (rewrite En3; apply gen_mono).
      pose proof (catch_exn n c fr K hf hs _ n3 n4 ch es Hg Ch Cx Cp e s' st
                    (n1 + 1) (if hf then Some n1 else None) Ar) as Ca.
      unfold caught in Ca. rewrite Fh in Ca.
      destruct Ca as (k & m' & Lk & (_ & _ & _ & K4 & K5) & S2 & O & F & D).
      destruct (guard_sim h (b e s') o n n1 (k + 5) fr K hf hs c lp (k + 3) (k + 4) exit m')
        as (st' & S3 & En); try tauto; auto.
      { lia. }
      { eapply covered_find; eauto. }
      { right. exact F. }
      exists st'. split; [|exact En]. eapply star_trans; [exact S1|].
      eapply star_trans; [exact S2|exact S3].
    - (* protected: not caught *)
      intros body hs els s e s' _ IHb Fh lp n fr K n1 n2 n3 n4 hf ch es c m exit
        W N Cf Kc Fr L1 En2 Cb C24 En3 Ce C26 Hg Ch Cx Cp Cfin Cov1 Cov2 Cov3 Lo Im.
      destruct (body_sim body s _ hs lp n fr K n1 hf c m IHb W N Cf Kc Fr L1 Cb Cov1 Lo Im)
        as (st & S1 & Ar).
      pose proof (catch_exn n c fr K hf hs _ n3 n4 ch es Hg Ch Cx Cp e s' st
                    (n1 + 1) (if hf then Some n1 else None) Ar) as Ca.
      unfold caught in Ca. rewrite Fh in Ca.
      destruct Ca as (m' & sel & S2 & O & F & Ct & Wt).
      exists (At (n + 3) s' m'). split; [eapply star_trans; eauto|].
      left. exists m'. split; [reflexivity|]. split; [exact O|].
      cbn [pcell]. exists sel. auto.
    - (* protected: break *)
      intros body hs els s s' _ IHb lp n fr K n1 n2 n3 n4 hf ch es c m exit
        W N Cf Kc Fr L1 En2 Cb C24 En3 Ce C26 Hg Ch Cx Cp Cfin Cov1 Cov2 Cov3 Lo Im.
      destruct (body_sim body s _ hs lp n fr K n1 hf c m IHb W N Cf Kc Fr L1 Cb Cov1 Lo Im)
        as (st & S1 & Ar).
      exists st. split; [exact S1|]. apply prot_jump in Ar.
      destruct Ar as [Ar|[Ar1 Ar2]]; [left|right]; auto.
    - (* protected: continue *)
      intros body hs els s s' _ IHb lp n fr K n1 n2 n3 n4 hf ch es c m exit
        W N Cf Kc Fr L1 En2 Cb C24 En3 Ce C26 Hg Ch Cx Cp Cfin Cov1 Cov2 Cov3 Lo Im.
      destruct (body_sim body s _ hs lp n fr K n1 hf c m IHb W N Cf Kc Fr L1 Cb Cov1 Lo Im)
        as (st & S1 & Ar).
      exists st. split; [exact S1|]. apply prot_jump in Ar.
      destruct Ar as [Ar|[Ar1 Ar2]]; [left|right]; auto.
    - (* protected: return *)
      intros body hs els s v s' _ IHb lp n fr K n1 n2 n3 n4 hf ch es c m exit
        W N Cf Kc Fr L1 En2 Cb C24 En3 Ce C26 Hg Ch Cx Cp Cfin Cov1 Cov2 Cov3 Lo Im.
      destruct (body_sim body s _ hs lp n fr K n1 hf c m IHb W N Cf Kc Fr L1 Cb Cov1 Lo Im)
        as (st & S1 & Ar).
      exists st. split; [exact S1|]. left. exact Ar.
  Qed.
End Sim.
