(** C67: pickling numpy arrays. *)
From Coq Require Import List ZArith Lia Bool.
From Verif.Common Require Import Result Int64 Arr Tac.
From Verif.Nd Require Import Spec Model Grid.
From Verif.Pickle Require Import PickleModel PickleSpec PickleProofs NdPickleModel NdPickleProofs PickleProperties.
Import ListNotations.
Local Open Scope Z_scope.
Local Open Scope res_scope.

(** The array loaded has the shape and, at every coordinate, an element equal to the one
    dumped; existing memory is untouched; a truncated file is refused.  This holds of atomic
    element types without padding in every layout (slices, transposes, reversed axes), of
    padded ones when the array is contiguous, and of other element types (str, ...) unless the
    array is in Fortran order only: for the remaining two cases see the refutations below. *)
Theorem C67_ndarray_pickle_partial : forall eqb hash junk (t : ty) (h h0 : @heap (den t)) (a : nd),
  wf a -> isz a = Z.of_nat (sizeof t) -> Forall in64 (shape a) -> product (shape a) * Z.of_nat (sizeof t) < 2^63 ->
  (forall c, inside (shape a) c -> valid eqb hash t (load h (ptr a c))) ->
  (if atomic t then packed t = true \/ is_contig a = true else fst (contig a) = true \/ snd (contig a) = false) ->
  exists bytes h' a', nd_pickle junk t h a = Ok bytes /\
    (forall rest, nd_unpickle eqb hash t h0 (length (shape a)) (bytes ++ rest) = Ok ((h', a'), rest)) /\
    (forall p q, bytes = p ++ q -> q <> [] -> nd_unpickle eqb hash t h0 (length (shape a)) p = Raise OtherError) /\
    shape a' = shape a /\
    (forall c, inside (shape a) c -> same eqb hash t (load h (ptr a c)) (load h' (ptr a' c))) /\
    (forall p, (fst p < next h0)%nat -> load h' p = load h0 p).
Proof.
  intros eqb hash junk t h h0 a W EI I64 LIM V SUP.
  destruct (nd_pickle_ok eqb hash junk t h h0 a W EI I64 LIM V SUP) as (bs & h' & a' & E & [C1 C2] & S1 & _ & S2 & S3).
  exists bs, h', a'. auto 6.
Qed.
Print Assumptions C67_ndarray_pickle_partial.

(** A 2 x 3 array of strings in Fortran order: the elements come back at other coordinates. *)
Definition fh : @heap (den TStr) := Heap 1 (fun _ o => [o / 8]).
Definition fa : nd := mk 0 0 8 [2; 3] true.
Theorem C67_fortran_strings_refuted : forall eqb hash junk h0,
  wf fa /\ (forall c, inside (shape fa) c -> valid eqb hash TStr (load fh (ptr fa c))) /\ contig fa = (false, true) /\
  exists bytes h' a', nd_pickle junk TStr fh fa = Ok bytes /\ nd_unpickle eqb hash TStr h0 2 bytes = Ok ((h', a'), []) /\
    inside (shape fa) [1; 0] /\ load fh (ptr fa [1; 0]) = [1] /\ load h' (ptr a' [1; 0]) = [2].
Proof.
  intros eqb hash junk h0. split; [constructor; [reflexivity|repeat constructor; lia|cbn; lia]|].
  split; [intros c _; cbn; lia|]. split; [reflexivity|].
  eexists; exists (fill TStr (fst (alloc [] h0)) (next h0) 0 [[0]; [2]; [4]; [1]; [3]; [5]]); exists (mk (next h0) 0 8 [2; 3] true).
  split; [vm_compute; reflexivity|]. split; [vm_compute; reflexivity|].
  split; [repeat constructor; lia|]. split; [vm_compute; reflexivity|].
  exact (fill_at TStr _ (next h0) [[0]; [2]; [4]; [1]; [3]; [5]] ltac:(cbn; lia) 0 1 [] ltac:(lia) ltac:(cbn; lia)).
Qed.
Print Assumptions C67_fortran_strings_refuted.

(** Every other element of an array of (bool, int): what was written cannot be loaded. *)
Definition ph : @heap (den (TPair TBool TInt)) := Heap 1 (fun _ o => (true, o)).
Definition pa : nd := Nd 0 0 16 [2] [32].
Theorem C67_padded_slice_refuted : forall eqb hash junk h0,
  wf pa /\ isz pa = Z.of_nat (sizeof (TPair TBool TInt)) /\
  (forall c, inside (shape pa) c -> valid eqb hash (TPair TBool TInt) (load ph (ptr pa c))) /\ is_contig pa = false /\
  exists bytes, nd_pickle junk (TPair TBool TInt) ph pa = Ok bytes /\
    nd_unpickle eqb hash (TPair TBool TInt) h0 1 bytes = Raise OtherError.
Proof.
  intros eqb hash junk h0. split; [constructor; [reflexivity|repeat constructor; lia|cbn; lia]|]. split; [reflexivity|].
  split. { intros c Hc. cbn in Hc. inversion Hc as [|? i ? ? Hi Hc']; subst. inversion Hc'; subst. cbn. split; auto. unfold in64, min64, max64. lia. }
  split; [reflexivity|]. eexists. split; [vm_compute; reflexivity|]. vm_compute. reflexivity.
Qed.
Print Assumptions C67_padded_slice_refuted.

(** The hypotheses hold, for instance, of the transpose of a reversed int array. *)
Definition ih : @heap (den TInt) := Heap 1 (fun _ o => o).
Definition ia : nd := Nd 0 40 8 [3; 2] [-8; -24].
Example ia_hyps : wf ia /\ isz ia = Z.of_nat (sizeof TInt) /\ Forall in64 (shape ia) /\ contig ia = (false, false) /\
  (forall c, inside (shape ia) c -> valid teq th TInt (load ih (ptr ia c))) /\ packed TInt = true.
Proof.
  split; [constructor; [reflexivity|repeat constructor; lia|cbn; lia]|]. split; [reflexivity|].
  split; [repeat constructor; unfold in64, min64, max64; lia|]. split; [reflexivity|]. split; [|reflexivity].
  intros c Hc. cbn in Hc. inversion Hc as [|? i ? ? Hi Hc']; subst. inversion Hc' as [|? j ? ? Hj Hc'']; subst. inversion Hc''; subst.
  change (in64 (40 + (i * -8 + (j * -24 + 0)))). unfold in64, min64, max64. lia.
Qed.
Example ia_loads : exists bytes h' a', nd_pickle (fun _ => []) TInt ih ia = Ok bytes /\ length bytes = 72%nat /\
  nd_unpickle teq th TInt (Heap 5 (fun _ _ => 99)) 2 bytes = Ok ((h', a'), []) /\
  map (fun c => load h' (ptr a' c)) (grid [3; 2]) = [40; 16; 32; 8; 24; 0] /\ load h' (4%nat, 0) = 99.
Proof. eexists; eexists; eexists. split; [vm_compute; reflexivity|]. split; [reflexivity|]. split; [vm_compute; reflexivity|]. split; vm_compute; reflexivity. Qed.
Example fa_c_order : exists bytes h' a', let a := mk 0 0 8 [2; 3] false in nd_pickle (fun _ => []) TStr fh a = Ok bytes /\
  nd_unpickle teq th TStr fh 2 bytes = Ok ((h', a'), []) /\ map (fun c => load h' (ptr a' c)) (grid [2; 3]) = [[0]; [1]; [2]; [3]; [4]; [5]].
Proof. eexists; eexists; eexists. split; [vm_compute; reflexivity|]. split; vm_compute; reflexivity. Qed.
