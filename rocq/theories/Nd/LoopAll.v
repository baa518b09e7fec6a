(** Proofs about element-wise operations: broadcasting in [_loop], and its effect as a
    sequence of element assignments. *)
From Coq Require Import List ZArith Lia Bool Permutation.
From Verif.Common Require Import Result Int64.
From Verif.Nd Require Import Spec Model Grid Copy Reshape Views IndexModel Index LoopModel Loop.
Import ListNotations.
Local Open Scope Z_scope.

(** ** Broadcasting inside [_loop] is that of routines.codon *)

Lemma merge_shape_true ans a : merge_shape_l true ans a = merge_shape ans a.
Proof.
  revert ans. induction a as [|x a IH]; intros [|y ans]; try reflexivity. cbn [merge_shape_l merge_shape andb].
  rewrite IH. reflexivity.
Qed.

Lemma merge_shapes_true ans args : merge_shapes_l true ans args = merge_shapes ans args.
Proof.
  revert ans. induction args as [|a args IH]; intros ans; [reflexivity|]. cbn [merge_shapes_l merge_shapes].
  rewrite merge_shape_true. destruct (merge_shape ans (rev a)); cbn [bind]; auto.
Qed.

Lemma broadcast_shapes_true args : (forall a, In a args -> Forall (fun d => 0 <= d) a) ->
  broadcast_shapes_l true args = broadcast_shapes args.
Proof.
  intros H. destruct args as [|a rest]; [reflexivity|]. cbn [broadcast_shapes_l broadcast_shapes].
  rewrite merge_shapes_true.
  destruct (existsb (existsb (fun i => i <? 0)) (a :: rest)) eqn:E; [|reflexivity]. exfalso.
  apply existsb_exists in E. destruct E as (x & Hx & E). apply existsb_exists in E. destruct E as (d & Hd & E).
  specialize (H x Hx). rewrite Forall_forall in H. specialize (H d Hd). lia.
Qed.

Lemma bcast_strides_same check xs : forall st sh r, bcast_strides xs st sh = Ok r -> bcast_strides_l check xs st sh = Ok r.
Proof.
  induction xs as [|a xs IH]; intros [|s st] [|b sh] r E; try exact E. cbn [bcast_strides bcast_strides_l] in *.
  destruct (a =? b).
  - destruct (bcast_strides xs st sh) eqn:E1; try discriminate. rewrite (IH _ _ _ E1). exact E.
  - destruct (a =? 1); [|discriminate]. cbn [negb]. rewrite andb_false_r.
    destruct (bcast_strides xs st sh) eqn:E1; try discriminate. rewrite (IH _ _ _ E1). exact E.
Qed.

Lemma bcast_strides_err xs : forall st sh e, bcast_strides xs st sh = Raise e -> bcast_strides_l true xs st sh = Raise e.
Proof.
  induction xs as [|a xs IH]; intros [|s st] [|b sh] e E; try exact E. cbn [bcast_strides bcast_strides_l andb] in *.
  destruct (a =? b).
  - destruct (bcast_strides xs st sh) eqn:E1; try discriminate. rewrite (IH _ _ _ E1). exact E.
  - destruct (a =? 1); [|exact E]. cbn [negb].
    destruct (bcast_strides xs st sh) eqn:E1; try discriminate. rewrite (IH _ _ _ E1). exact E.
Qed.

Lemma broadcast_to_same check x sh r : broadcast_to x sh = Ok r -> broadcast_to_l check x sh = Ok r.
Proof.
  unfold broadcast_to, broadcast_to_l. destruct (length sh <? ndim x)%nat; [discriminate|]. intros E.
  destruct (bcast_strides _ _ _) eqn:E1; try discriminate. now rewrite (bcast_strides_same check _ _ _ _ E1).
Qed.

Lemma broadcast_to_err x sh e : broadcast_to x sh = Raise e -> broadcast_to_l true x sh = Raise e.
Proof.
  unfold broadcast_to, broadcast_to_l. destruct (length sh <? ndim x)%nat; [auto|]. intros E.
  destruct (bcast_strides _ _ _) eqn:E1; try discriminate. rewrite (bcast_strides_err _ _ _ _ E1). exact E.
Qed.

Lemma broadcast_to_start x sh r : broadcast_to x sh = Ok r -> blk r = blk x /\ base r = base x.
Proof.
  unfold broadcast_to. destruct (length sh <? ndim x)%nat; [discriminate|]. intros E.
  destruct (bcast_strides _ _ _); try discriminate. injection E as <-. auto.
Qed.

(** Strides with which an array is read as one of shape [sh]. *)
Definition reads (sh : list Z) (x : nd) (st : list Z) : Prop :=
  length st = length sh /\ forall c, inside sh c -> dot c st = dot (pick (shape x) c) (strides x).

Lemma pick_same sh c : inside sh c -> pick sh c = c.
Proof.
  intros H. unfold pick. rewrite (inside_length _ _ H), Nat.sub_diag. simpl skipn.
  induction H as [|n i sh c Hi H IH]; [reflexivity|]. cbn [combine map]. rewrite IH.
  destruct (Z.eqb_spec n 1); [f_equal; lia|reflexivity].
Qed.

Lemma reads_same x : wf x -> reads (shape x) x (strides x).
Proof. intros [L _ _]. split; [assumption|]. intros c Hc. now rewrite pick_same. Qed.

Lemma reads_to x sh : wf x -> Forall (fun d => 0 <= d) sh -> (ndim x <= length sh)%nat ->
  broadcasts [shape x; sh] sh -> exists r, broadcast_to x sh = Ok r /\ shape r = sh /\ reads sh x (strides r).
Proof.
  intros W F L B. destruct (broadcast_to_ok x sh W F L) as [(_ & r & E & Wr & Sr & Br & H)|[N _]]; [|contradiction].
  exists r. split; [assumption|]. split; [assumption|]. destruct (broadcast_to_start _ _ _ E) as [_ Eb].
  split; [destruct Wr as [Lr _ _]; congruence|]. intros c Hc. destruct (H c Hc) as [_ H1].
  unfold ptr in H1. injection H1 as _ H1. lia.
Qed.

Lemma ats_reads sh arrays sts c : Forall2 (reads sh) arrays sts -> inside sh c ->
  ats (map (fun x => (blk x, base x)) arrays) sts c = map (fun x => ptr x (pick (shape x) c)) arrays.
Proof.
  intros H Hc. induction H as [|x st arrays sts [_ Hx] H IH]; [reflexivity|]. cbn [map ats]. rewrite IH.
  unfold incr, ptr. cbn [fst snd]. now rewrite Hx.
Qed.

Lemma reads_lengths sh arrays sts : Forall2 (reads sh) arrays sts ->
  Forall (fun st => length st = length sh) sts /\ length sts = length arrays.
Proof. induction 1 as [|x st arrays sts [L _] H [IH1 IH2]]; simpl; split; auto. Qed.

(** All to the common shape. *)
Lemma reads_all l out : Forall wf l -> Forall (fun d => 0 <= d) out ->
  (forall x, In x l -> broadcasts [shape x; out] out) ->
  exists rs, mapm (fun a => broadcast_to_l false a out) l = Ok rs /\ Forall (fun r => shape r = out) rs /\
    Forall2 (reads out) l (map strides rs).
Proof.
  intros W F B. induction W as [|x l Wx W IH]; [exists []; repeat split; constructor|]. cbn [mapm].
  destruct (reads_to x out Wx F) as (r & E & S & R).
  { destruct (B x (or_introl eq_refl)) as [Q _]. apply Q. simpl. auto. }
  { apply B. simpl. auto. }
  rewrite (broadcast_to_same false _ _ _ E). cbn [bind].
  destruct IH as (rs & Er & Fr & Rr); [intros; apply B; simpl; auto|]. rewrite Er. cbn [bind].
  eexists. split; [reflexivity|]. split; constructor; auto.
Qed.

Lemma max_dim_ok rest : forall a, In (max_dim a rest) (a :: rest) /\ forall x, In x (a :: rest) -> (ndim x <= ndim (max_dim a rest))%nat.
Proof.
  induction rest as [|b rest IH]; intros a.
  - split; [simpl; auto|]. intros x [<-|[]]. reflexivity.
  - cbn [max_dim]. destruct (IH b) as [I M]. destruct (Nat.ltb_spec (ndim a) (ndim (max_dim b rest))).
    + split; [right; exact I|]. intros x [<-|Hx]; [lia|auto].
    + split; [simpl; auto|]. intros x [<-|Hx]; [lia|]. specialize (M x Hx). lia.
Qed.

Lemma contig_shapes a rest : fst (all_contiguous a rest) = true -> forall x, In x (a :: rest) -> shape x = shape a.
Proof.
  unfold all_contiguous. destruct (_ =? _)%nat; [|discriminate]. cbn [fst]. intros H x [<-|Hx]; [reflexivity|].
  apply andb_true_iff in H. destruct H as [H _]. rewrite forallb_forall in H. apply list_eqb_spec. auto.
Qed.

Lemma reads_contig a rest : Forall wf (a :: rest) -> fst (all_contiguous a rest) = true ->
  Forall2 (reads (shape a)) (a :: rest) (map strides (a :: rest)).
Proof.
  intros W C. pose proof (contig_shapes a rest C) as S. clear C. revert W S. generalize (a :: rest) as l.
  induction l as [|x l IH]; intros W S; [constructor|]. inversion W; subst. cbn [map].
  constructor; [rewrite <- (S x) by (simpl; auto); now apply reads_same|]. apply IH; auto. intros; apply S; simpl; auto.
Qed.

Lemma broadcasts_same l (out : list Z) : l <> [] -> (forall s, In s l -> s = out) -> broadcasts l out.
Proof.
  intros NE H. split; [intros s Hs; rewrite (H s Hs); lia|].
  destruct l as [|s l]; [congruence|]. assert (E : s = out) by (apply H; simpl; auto). subst s.
  split; [exists out; simpl; auto|]. intros k d E. split; [exists out; simpl; auto|].
  intros s e Hs He. rewrite (H s Hs) in He. right. congruence.
Qed.

Section LoopAll.
Context {V : Type} (zero : V).
Local Notation heap := (heap V).
Local Notation func_t := (heap -> list (nat * Z) -> heap).

(** The callback run for the coordinates [l]. *)
Definition runs (func : func_t) (rs arrays : list nd) (l : list (list Z)) (h : heap) : heap :=
  fold_left (fun h c => func h (map (fun r => ptr r c) rs ++ map (fun x => ptr x (pick (shape x) c)) arrays)) l h.

(** [_loop] ran the callback once for every coordinate of [out]. *)
Definition ran (func : func_t) m check es arrays (h : heap) out (h' : heap) rs : Prop :=
  nd_loop zero func m check es arrays h = Ok (h', rs) /\ new_arrays h out es rs /\
  exists h1 l, next h1 = (next h + length es)%nat /\ kept h h1 /\ Permutation l (grid out) /\
    h' = runs func rs arrays l h1.

Lemma views_run func m check es a rest h out sts : Forall wf (a :: rest) -> Forall (fun e => 0 < e) es ->
  (if fst (all_contiguous a rest) then Ok (shape a, map strides (a :: rest)) else broadcast_args a rest m check) = Ok (out, sts) ->
  Forall (fun d => 0 <= d) out -> length out = ndim (max_dim a rest) ->
  Forall2 (reads out) (a :: rest) sts -> exists h' rs, ran func m check es (a :: rest) h out h' rs.
Proof.
  intros W E Eb F L R. destruct (reads_lengths _ _ _ R) as [R1 R2].
  destruct (nd_loop_views zero func m check es a rest h out sts W E Eb F) as (h1 & l & rs & N & K & NA & P & El); auto.
  { rewrite L. destruct (max_dim_ok rest a) as [I _]. rewrite Forall_forall in W. destruct (W _ I) as [Lx _ _]. now rewrite Lx. }
  eexists _, rs. split; [exact El|]. split; [assumption|]. exists h1, l. do 3 (split; [assumption|]).
  unfold runs. apply fold_ext_in. intros h2 c Hc. f_equal. f_equal. apply (ats_reads out); [assumption|].
  apply (Permutation_in _ P) in Hc. now apply grid_in.
Qed.

Theorem loop_all_ok func es a rest h : Forall wf (a :: rest) -> Forall (fun e => 0 < e) es ->
  (exists out h' rs, broadcasts (map shape (a :: rest)) out /\ Forall (fun d => 0 <= d) out /\
     ran func BAll true es (a :: rest) h out h' rs) \/
  ((forall out, ~ broadcasts (map shape (a :: rest)) out) /\
   nd_loop zero func BAll true es (a :: rest) h = Raise ValueError).
Proof.
  intros W E. assert (Wa : wf a) by (inversion W; assumption). pose proof Wa as [La Fa Pa].
  destruct (max_dim_ok rest a) as [MI MM].
  destruct (fst (all_contiguous a rest)) eqn:C.
  - left. exists (shape a). pose proof (contig_shapes a rest C) as S.
    destruct (views_run func BAll true es a rest h (shape a) (map strides (a :: rest)) W E) as (h' & rs & H); auto.
    + now rewrite C.
    + unfold ndim. now rewrite (S _ MI).
    + now apply reads_contig.
    + exists h', rs. split; [|auto]. apply broadcasts_same; [discriminate|]. intros s Hs.
      apply in_map_iff in Hs. destruct Hs as (x & <- & Hx). auto.
  - assert (NN : forall s, In s (map shape (a :: rest)) -> Forall (fun d => 0 <= d) s).
    { intros s Hs. apply in_map_iff in Hs. destruct Hs as (x & <- & Hx). rewrite Forall_forall in W. now destruct (W x Hx). }
    destruct (broadcast_shapes_ok (map shape (a :: rest))) as [(out & Eo & B & Fo)|(Eo & N)]; [discriminate|assumption| |].
    + left. exists out. destruct (reads_all (a :: rest) out W Fo) as (vs & Ev & Sv & Rv).
      { intros x Hx. eapply broadcasts_each; [exact B|]. now apply in_map. }
      destruct (views_run func BAll true es a rest h out (map strides vs) W E) as (h' & rs & H); auto.
      * rewrite C. cbn [broadcast_args]. unfold broadcast_arrays_l. rewrite broadcast_shapes_true by assumption.
        rewrite Eo. cbn [bind]. rewrite Ev. cbn [bind]. destruct vs as [|v vs].
        { inversion Rv. }
        inversion Sv; subst. reflexivity.
      * destruct B as (B1 & (s & Hs & Ls) & _). apply in_map_iff in Hs. destruct Hs as (x & <- & Hx).
        unfold ndim in *. specialize (MM x Hx). assert (length (shape (max_dim a rest)) <= length out)%nat by (apply B1; now apply in_map). lia.
      * exists h', rs. auto.
    + right. split; [assumption|]. unfold nd_loop. destruct (all_contiguous a rest) as [ac cc] eqn:EC. cbn [fst] in C. subst ac.
      cbn [broadcast_args]. unfold broadcast_arrays_l. rewrite broadcast_shapes_true by assumption. rewrite Eo. reflexivity.
Qed.

(** Everything to the shape of the first array. *)
Lemma reads_first check l out : Forall wf l -> Forall (fun d => 0 <= d) out ->
  (forall x, In x l -> broadcasts [shape x; out] out) ->
  exists rs, mapm (fun a => broadcast_to_l check a out) l = Ok rs /\ Forall2 (reads out) l (map strides rs).
Proof.
  intros W F B. induction W as [|x l Wx W IH]; [exists []; repeat split; constructor|]. cbn [mapm].
  destruct (reads_to x out Wx F) as (r & E & S & R).
  { destruct (B x (or_introl eq_refl)) as [Q _]. apply Q. simpl. auto. }
  { apply B. simpl. auto. }
  rewrite (broadcast_to_same check _ _ _ E). cbn [bind].
  destruct IH as (rs & Er & Rr); [intros; apply B; simpl; auto|]. rewrite Er. cbn [bind].
  eexists. split; [reflexivity|]. constructor; auto.
Qed.

Theorem loop_first_ok func check es a rest h : Forall wf (a :: rest) -> Forall (fun e => 0 < e) es ->
  (forall x, In x rest -> broadcasts [shape x; shape a] (shape a)) ->
  exists h' rs, ran func BFirst check es (a :: rest) h (shape a) h' rs.
Proof.
  intros W E B. assert (Wa : wf a) by (inversion W; assumption). pose proof Wa as [La Fa Pa].
  destruct (max_dim_ok rest a) as [MI MM].
  assert (ML : length (shape a) = ndim (max_dim a rest)).
  { assert (ndim a <= ndim (max_dim a rest))%nat by (apply MM; simpl; auto). unfold ndim in *.
    destruct MI as [<-|MI]; [reflexivity|]. destruct (B _ MI) as [Q _]. specialize (Q _ (or_introl eq_refl)). lia. }
  destruct (fst (all_contiguous a rest)) eqn:C.
  - apply views_run with (map strides (a :: rest)); auto; [now rewrite C|now apply reads_contig].
  - destruct (reads_first check rest (shape a)) as (vs & Ev & Rv); [inversion W; assumption|assumption|assumption|].
    apply views_run with (map strides (a :: vs)); auto.
    + rewrite C. cbn [broadcast_args]. rewrite Ev. reflexivity.
    + cbn [map]. constructor; [now apply reads_same|exact Rv].
Qed.

Theorem loop_first_err func es a rest h : Forall wf (a :: rest) ->
  (forall x, In x rest -> (ndim x <= ndim a)%nat) ->
  (exists x, In x rest /\ ~ broadcasts [shape x; shape a] (shape a)) ->
  nd_loop zero func BFirst true es (a :: rest) h = Raise ValueError.
Proof.
  intros W D (y & Hy & Ny). assert (Wa : wf a) by (inversion W; assumption). pose proof Wa as [La Fa Pa].
  unfold nd_loop. destruct (all_contiguous a rest) as [ac cc] eqn:C. destruct ac.
  - exfalso. apply Ny. assert (S : shape y = shape a) by (apply (contig_shapes a rest); [now rewrite C|simpl; auto]).
    rewrite S. apply broadcasts_same; [discriminate|]. intros s [<-|[<-|[]]]; reflexivity.
  - cbn [broadcast_args]. clear C.
    assert (G : mapm (fun x => broadcast_to_l true x (shape a)) rest = Raise ValueError).
    { assert (Wr : Forall wf rest) by (inversion W; assumption). clear W. induction rest as [|x rest IH]; [contradiction|].
      cbn [mapm]. inversion Wr; subst. assert (Lx : (ndim x <= length (shape a))%nat) by (apply (D x); simpl; auto).
      destruct (broadcast_to_ok x (shape a)) as [(Bx & r & E & _)|(_ & E)]; auto.
      - rewrite (broadcast_to_same true _ _ _ E). cbn [bind]. rewrite IH; auto.
        + intros; apply D; simpl; auto.
        + destruct Hy as [->|Hy]; [contradiction|assumption].
      - now rewrite (broadcast_to_err _ _ _ E). }
    rewrite G. reflexivity.
Qed.

(** ** Effects *)

(** Like [steps], where a step may also leave its cell as it is. *)
Definition osteps (f : list V -> option V) (h : heap) (l : list ((nat * Z) * list (nat * Z))) : heap :=
  fold_left (fun h s => match f (map (load h) (snd s)) with Some v => store h (fst s) v | None => h end) l h.

Lemma osteps_cons f h s l : osteps f h (s :: l) =
  osteps f (match f (map (load h) (snd s)) with Some v => store h (fst s) v | None => h end) l.
Proof. reflexivity. Qed.

Lemma osteps_next f h l : next (osteps f h l) = next h.
Proof.
  revert h. induction l as [|s l IH]; intros h; [reflexivity|]. rewrite osteps_cons, IH. now destruct (f _).
Qed.

Lemma osteps_other f h l p : ~ In p (map fst l) -> load (osteps f h l) p = load h p.
Proof.
  revert h. induction l as [|s l IH]; intros h H; [reflexivity|]. simpl in H.
  rewrite osteps_cons, IH by tauto. destruct (f _); [|reflexivity]. apply load_store_other. intuition.
Qed.

Lemma osteps_in f h l s : NoDup (map fst l) ->
  (forall s t, In s l -> In t l -> In (fst s) (snd t) -> s = t) ->
  In s l -> load (osteps f h l) (fst s) =
    match f (map (load h) (snd s)) with Some v => v | None => load h (fst s) end.
Proof.
  revert h. induction l as [|t l IH]; intros h N D Hs; [contradiction|].
  simpl in N. inversion N as [|? ? N1 N2]; subst. rewrite osteps_cons.
  destruct Hs as [->|Hs].
  - rewrite osteps_other by assumption. destruct (f _); [apply load_store_same|reflexivity].
  - assert (U : forall p, p <> fst t -> load (match f (map (load h) (snd t)) with Some v => store h (fst t) v | None => h end) p = load h p).
    { intros p Hp. destruct (f _); [now apply load_store_other|reflexivity]. }
    rewrite IH; [|assumption|intros; apply D; simpl; auto|assumption].
    assert (Q : forall p, In p (snd s) -> p <> fst t).
    { intros p Hp ->. assert (t = s) by (apply D; simpl; auto). subst. apply N1. now apply in_map. }
    rewrite (map_ext_in _ (load h) (snd s)) by (intros p Hp; apply U; auto).
    destruct (f (map (load h) (snd s))); [reflexivity|]. apply U. intros E. apply N1. rewrite <- E. now apply in_map.
Qed.

Lemma runs_steps (func : func_t) f (w : list Z -> nat * Z) (rd : list Z -> list (nat * Z)) rs arrays l h :
  (forall h c, In c l -> func h (map (fun r => ptr r c) rs ++ map (fun x => ptr x (pick (shape x) c)) arrays) =
     match f (map (load h) (rd c)) with Some v => store h (w c) v | None => h end) ->
  runs func rs arrays l h = osteps f h (map (fun c => (w c, rd c)) l).
Proof.
  intros H. unfold runs, osteps. rewrite fold_map. apply fold_ext_in. intros h1 c Hc. now rewrite H.
Qed.

Lemma nodup_ptr r l : (forall c d, In c l -> In d l -> ptr r c = ptr r d -> c = d) -> NoDup l -> NoDup (map (ptr r) l).
Proof.
  intros I N. induction N as [|c l Hc N IH]; simpl; constructor.
  - intros E. apply in_map_iff in E. destruct E as (d & E & Hd). apply I in E; simpl; auto. congruence.
  - apply IH. intros; apply I; simpl; auto.
Qed.

(** A new array is filled from old ones. *)
Lemma fill_new func f e arrays h out h' rs m check : ran func m check [e] arrays h out h' rs ->
  (forall r h1 c, func h1 (ptr r c :: map (fun x => ptr x (pick (shape x) c)) arrays) =
     store h1 (ptr r c) (f (map (load h1) (map (fun x => ptr x (pick (shape x) c)) arrays)))) ->
  Forall (fun x => (blk x < next h)%nat) arrays ->
  exists r, rs = [r] /\ wf r /\ blk r = next h /\ next h' = S (next h) /\ isz r = e /\ shape r = out /\ kept h h' /\
    forall c, inside out c -> load h' (ptr r c) = f (map (load h) (map (fun x => ptr x (pick (shape x) c)) arrays)).
Proof.
  intros (_ & (NB & NI & NF) & h1 & l & N1 & K & P & ->) Hf Bl.
  destruct rs as [|r [|r2 rs]]; try discriminate. injection NB as Br. injection NI as Ir.
  inversion NF as [|? ? (Wr & Sr & Ij) _]; subst. exists r. split; [reflexivity|]. do 2 (split; [assumption|]).
  assert (IC : forall c, In c l -> inside (shape r) c) by (intros c Hc; apply (Permutation_in _ P) in Hc; now apply grid_in).
  rewrite (runs_steps func (fun vs => Some (f vs)) (ptr r) (fun c => map (fun x => ptr x (pick (shape x) c)) arrays)) by (intros; apply Hf).
  split; [rewrite osteps_next, N1; simpl; lia|]. do 2 (split; [reflexivity|]). split.
  - destruct K as [K1 K2]. split; [rewrite osteps_next; lia|]. intros p Hp. rewrite osteps_other; [now apply K2|].
    rewrite map_map. cbn [fst]. intros Hi. apply in_map_iff in Hi. destruct Hi as (c & <- & _). cbn [ptr fst] in Hp. lia.
  - intros c Hc. change (ptr r c) with (fst (ptr r c, map (fun x => ptr x (pick (shape x) c)) arrays)).
    rewrite osteps_in.
    + cbn [snd]. f_equal. apply map_ext_in. intros q Hq. apply in_map_iff in Hq. destruct Hq as (x & <- & Hx).
      destruct K as [_ K]. apply K. rewrite Forall_forall in Bl. cbn [ptr fst]. now apply Bl.
    + rewrite map_map. cbn [fst]. apply nodup_ptr.
      * intros c0 d Hc0 Hd. apply Ij; auto.
      * eapply Permutation_NoDup; [apply Permutation_sym; exact P|apply grid_nodup].
    + intros s t Hs Ht Hi. exfalso. apply in_map_iff in Hs, Ht. destruct Hs as (c1 & <- & _), Ht as (c2 & <- & _).
      cbn [fst snd] in Hi. apply in_map_iff in Hi. destruct Hi as (x & E & Hx). rewrite Forall_forall in Bl.
      specialize (Bl x Hx). apply (f_equal fst) in E. cbn [ptr fst] in E. lia.
    + apply in_map_iff. exists c. split; [reflexivity|]. eapply Permutation_in; [apply Permutation_sym; exact P|]. now apply grid_in.
Qed.

(** An existing array is overwritten, reading also others.  No element may be read from
    a cell after another element was written there. *)
Lemma fill_old func f a arrays h h' rs m check : ran func m check [] (a :: arrays) h (shape a) h' rs ->
  Forall (fun x => (blk x < next h)%nat) (a :: arrays) ->
  (forall h1 c, inside (shape a) c -> func h1 (ptr a c :: map (fun x => ptr x (pick (shape x) c)) arrays) =
     match f (map (load h1) (ptr a c :: map (fun x => ptr x (pick (shape x) c)) arrays)) with
     | Some v => store h1 (ptr a c) v | None => h1 end) ->
  (forall c d, inside (shape a) c -> inside (shape a) d -> ptr a c = ptr a d -> c = d) ->
  (forall x c d, In x arrays -> inside (shape a) c -> inside (shape a) d -> ptr a c = ptr x (pick (shape x) d) -> c = d) ->
  next h' = next h /\
  (forall c, inside (shape a) c -> load h' (ptr a c) =
     match f (map (load h) (ptr a c :: map (fun x => ptr x (pick (shape x) c)) arrays)) with
     | Some v => v | None => load h (ptr a c) end) /\
  (forall p, (fst p < next h)%nat -> ~ cells a p -> load h' p = load h p).
Proof.
  intros (_ & (NB & NI & NF) & h1 & l & N1 & K & P & ->) Bl Hf Ij Ds.
  destruct rs as [|r rs]; [|discriminate]. clear NB NI NF.
  assert (IC : forall c, In c l -> inside (shape a) c) by (intros c Hc; apply (Permutation_in _ P) in Hc; now apply grid_in).
  rewrite (runs_steps func f (ptr a) (fun c => ptr a c :: map (fun x => ptr x (pick (shape x) c)) arrays)).
  2: { intros h2 c Hc. cbn [map app]. rewrite (pick_same (shape a) c) by auto. apply Hf. auto. }
  split; [rewrite osteps_next, N1; simpl; lia|]. rewrite Forall_forall in Bl. destruct K as [_ K]. split.
  - intros c Hc. pose proof (osteps_in f h1 (map (fun c => (ptr a c, ptr a c :: map (fun x => ptr x (pick (shape x) c)) arrays)) l)
      (ptr a c, ptr a c :: map (fun x => ptr x (pick (shape x) c)) arrays)) as X. cbn [fst snd] in X. rewrite X; clear X.
    + rewrite (map_ext_in (load h1) (load h)).
      * destruct (f _); [reflexivity|]. apply K. apply Bl. simpl. auto.
      * intros q [<-|Hq]; [apply K, Bl; simpl; auto|]. apply in_map_iff in Hq. destruct Hq as (x & <- & Hx).
        apply K, Bl. simpl. auto.
    + rewrite map_map. cbn [fst]. apply nodup_ptr.
      * intros c0 d Hc0 Hd. apply Ij; auto.
      * eapply Permutation_NoDup; [apply Permutation_sym; exact P|apply grid_nodup].
    + intros s t Hs Ht Hi. apply in_map_iff in Hs, Ht. destruct Hs as (c1 & <- & H1), Ht as (c2 & <- & H2).
      assert (E : c1 = c2); [|now subst]. apply IC in H1, H2. cbn [fst snd] in Hi. destruct Hi as [Hi|Hi].
      * symmetry. now apply Ij.
      * apply in_map_iff in Hi. destruct Hi as (x & E & Hx). eapply Ds; eauto.
    + apply in_map_iff. exists c. split; [reflexivity|]. eapply Permutation_in; [apply Permutation_sym; exact P|]. now apply grid_in.
  - intros p Hp Hc. rewrite osteps_other; [now apply K|].
    rewrite map_map. cbn [fst]. intros Hi. apply in_map_iff in Hi. destruct Hi as (c & <- & Hi). apply Hc. exists c. auto.
Qed.

End LoopAll.
