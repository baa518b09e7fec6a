(** What an array expression means: every operation applied element by element to its
    broadcast operands. *)
From Coq Require Import List ZArith Bool.
From Verif.Nd Require Import Spec Model Properties LoopProperties FusionModel.
Import ListNotations.
Local Open Scope Z_scope.

Section Spec.
Context {V : Type} (szof : nat -> Z).
(** [means h e sh f]: with the memory [h] the value of [e] has shape [sh] and elements [f c]. *)
Inductive means (h : heap V) : fx -> list Z -> (list Z -> V) -> Prop :=
| m_arr dt a fr : means h (FArr dt a fr) (shape a) (item_at h a)
| m_num dt v : means h (FNum dt v) [] (fun _ => v)
| m_un dt vec op l sh f : means h l sh f -> means h (FUn dt vec op l) sh (fun c => op (f c))
| m_bin dt vec op l r s1 f1 s2 f2 sh : means h l s1 f1 -> means h r s2 f2 -> broadcasts [s1; s2] sh ->
    means h (FBin dt vec op l r) sh (fun c => op (f1 (pick s1 c)) (f2 (pick s2 c))).

(** The blocks of the temporaries among the leaves. *)
Definition owned (e : fx (V := V)) : list nat := map (fun x => blk (fst x)) (filter snd (arrays e)).
(** The leaves are arrays that were not freed; a temporary shares its memory with no other
    leaf, and its elements lie in different cells. *)
Definition usable (s : mem (V := V)) (e : fx) : Prop :=
  (forall a fr, In (a, fr) (arrays e) -> array (hp s) a /\ ~ In (blk a) (freed s) /\ (fr = true -> separate a)) /\
  NoDup (owned e) /\ (forall a, In (a, false) (arrays e) -> ~ In (blk a) (owned e)) /\
  forall b, In b (freed s) -> (b < next (hp s))%nat.
(** No leaf has an axis of extent 0. *)
Definition no_empty (e : fx (V := V)) : Prop :=
  forall a fr, In (a, fr) (arrays e) -> Forall (fun d => 0 < d) (shape a).
(** The arrays in [e] have the same shape [sh], and the elements of each lie in different cells. *)
Definition uniform (sh : list Z) (e : fx (V := V)) : Prop :=
  forall a fr, In (a, fr) (arrays e) -> shape a = sh /\ separate a.
(** Every operation has an array operand.  Functions with a vectorised loop keep the element
    type and are of arrays with at least one axis; if binary, their arguments are arrays
    computed from arrays of one shape. *)
Fixpoint typed (e : fx (V := V)) : Prop :=
  match e with
  | FArr dt a _ => isz a = szof dt
  | FNum _ _ => True
  | FUn dt vec _ l => typed l /\ is_array l = true /\ (vec = true -> dtype l = dt /\ (0 < ndims l)%nat)
  | FBin dt vec _ l r => typed l /\ typed r /\ (is_array l = true \/ is_array r = true) /\
      (vec = true -> is_array l = true /\ is_array r = true /\ dtype l = dt /\ dtype r = dt /\
         exists sh, sh <> [] /\ uniform sh l /\ uniform sh r)
  end.

(** It is not a single leaf. *)
Definition operation (e : fx (V := V)) : Prop := match e with FUn _ _ _ _ | FBin _ _ _ _ _ => True | _ => False end.

(** [r] has shape [sh] and elements [f c] and was not freed.  Memory that existed before is
    unchanged and not freed, except for the temporaries. *)
Definition evaluated (s s' : mem) (e : fx) (r : nd) (sh : list Z) (f : list Z -> V) : Prop :=
  array (hp s') r /\ shape r = sh /\ (forall c, inside sh c -> item_at (hp s') r c = f c) /\ ~ In (blk r) (freed s') /\
  (next (hp s) <= next (hp s'))%nat /\
  (forall p, (fst p < next (hp s))%nat -> ~ In (fst p) (owned e) -> load (hp s') p = load (hp s) p) /\
  (forall b, (b < next (hp s))%nat -> ~ In b (owned e) -> In b (freed s') -> In b (freed s)) /\
  (In (blk r) (owned e) \/ (next (hp s) <= blk r)%nat).
End Spec.
