(** Model of element-wise operations: [ndarray._loop] and the operators built on it
    (/repo/stdlib/numpy/ndarray.codon), universal functions
    (/repo/stdlib/numpy/ufunc.codon) and their vectorised loops
    (/repo/codon/runtime/numpy/loops.cpp), on the arrays of [Nd.Model].

    The callback of [_loop] is a function of the memory and of the pointers it is
    given.  Casts between element types are part of the operation.  [optimize_order]
    is always true, as in all calls. *)
From Coq Require Import List ZArith Lia Bool.
From Verif.Common Require Import Result Int64.
From Verif.Nd Require Import Spec Model IndexModel.
Import ListNotations.
Local Open Scope Z_scope.
Local Open Scope res_scope.


(** [Ptr[T](p.as_byte() + s)] *)
Definition incr (p : nat * Z) (s : Z) : nat * Z := (fst p, snd p + s).

(** ndarray.codon:637-697 the pointers of iteration [i] of the innermost loop, with the
    special cases for two and three arrays; [es] are the element sizes *)
Fixpoint line_generic (ptrs : list (nat * Z)) (ss : list Z) (i : Z) : list (nat * Z) :=
  match ptrs, ss with
  | p :: ptrs, s :: ss => incr p (i * s) :: line_generic ptrs ss i
  | _, _ => []
  end.

Definition line_ptrs (ptrs : list (nat * Z)) (es ss : list Z) (i : Z) : list (nat * Z) :=
  match ptrs, es, ss with
  | [p0; p1], [e0; e1], [s0; s1] =>
      if (s0 =? e0) && (s1 =? e1) then [incr p0 (i * e0); incr p1 (i * e1)]
      else if (s0 =? e0) && (s1 =? 0) then [incr p0 (i * s0); p1]
      else [incr p0 (i * s0); incr p1 (i * s1)]
  | [p0; p1; p2], [e0; e1; e2], [s0; s1; s2] =>
      if (s0 =? e0) && (s1 =? e1) && (s2 =? e2) then [incr p0 (i * e0); incr p1 (i * e1); incr p2 (i * e2)]
      else if (s0 =? e0) && (s1 =? 0) && (s2 =? e2) then [incr p0 (i * s0); p1; incr p2 (i * s2)]
      else if (s0 =? e0) && (s1 =? e1) && (s2 =? 0) then [incr p0 (i * s0); incr p1 (i * s1); p2]
      else [incr p0 (i * s0); incr p1 (i * s1); incr p2 (i * s2)]
  | _, _, _ => line_generic ptrs ss i
  end.

(** util.codon:108-118 [tuple_perm] *)
Definition tuple_perm {A} (d : A) (t : list A) (perm : list nat) : list A :=
  if (length t <=? 1)%nat then t else map (fun p => nth p t d) perm.

(** util.codon:120-126 [tuple_perm_inv] *)
Fixpoint set_nth {A} (l : list A) (k : nat) (v : A) : list A :=
  match l, k with
  | [], _ => []
  | _ :: l, O => v :: l
  | x :: l, S k => x :: set_nth l k v
  end.
Definition tuple_perm_inv (perm : list nat) : list nat :=
  fold_left (fun q i => set_nth q (nth i perm O) i) (seq 0 (length perm)) (repeat O (length perm)).

(** ndarray.codon:707-723 [reorder_loops] *)
Definition reorder_loops (st : list Z) : list nat :=
  match st with
  | [] => []
  | [_] => [O]
  | [s0; s1] => if negb (s0 =? 0) && (Z.abs s0 <? Z.abs s1) then [1%nat; O] else [O; 1%nat]
  | _ => map fst (sort_by_stride (seq 0 (length st)) st)
  end.

(** ndarray.codon:725-759 [broadcast_shapes] inside [_loop]: as in routines.codon, but
    without the check for negative extents, and without any error if not [check] *)
Fixpoint merge_shape_l (check : bool) (ans a : list Z) : res (list Z) :=
  match a, ans with
  | [], _ => Ok ans
  | x :: a, y :: ans =>
      if y =? 1 then r <- merge_shape_l check ans a ;; Ok (x :: r)
      else if check && negb (x =? 1) && negb (x =? y) then Raise ValueError
      else r <- merge_shape_l check ans a ;; Ok (y :: r)
  | _ :: _, [] => Undef
  end.
Fixpoint merge_shapes_l (check : bool) (ans : list Z) (args : list (list Z)) : res (list Z) :=
  match args with
  | [] => Ok ans
  | a :: args => ans <- merge_shape_l check ans (rev a) ;; merge_shapes_l check ans args
  end.
Definition broadcast_shapes_l (check : bool) (args : list (list Z)) : res (list Z) :=
  match args with
  | [] => Ok []
  | a :: rest => r <- merge_shapes_l check (rev (largest a rest)) args ;; Ok (rev r)
  end.

(** ndarray.codon:761-780 [broadcast_to] inside [_loop] *)
Fixpoint bcast_strides_l (check : bool) (xs st sh : list Z) : res (list Z) :=
  match xs, st, sh with
  | a :: xs, s :: st, b :: sh =>
      if a =? b then r <- bcast_strides_l check xs st sh ;; Ok (s :: r)
      else if check && negb (a =? 1) then Raise ValueError
      else r <- bcast_strides_l check xs st sh ;; Ok (0 :: r)
  | _, _, _ => Ok []
  end.
Definition broadcast_to_l (check : bool) (x : nd) (sh : list Z) : res nd :=
  let n := ndim x in
  if (length sh <? n)%nat then Raise TypeError (* at compile time *)
  else
    sub <- bcast_strides_l check (shape x) (strides x) (skipn (length sh - n) sh) ;;
    Ok (Nd (blk x) (base x) (isz x) sh (repeat 0 (length sh - n) ++ sub)).

(** ndarray.codon:782-784 [broadcast_arrays] inside [_loop] *)
Definition broadcast_arrays_l (check : bool) (arrays : list nd) : res (list nd) :=
  sh <- broadcast_shapes_l check (map shape arrays) ;; mapm (fun a => broadcast_to_l false a sh) arrays.

(** ndarray.codon:786-810 [min_dim], [max_dim] *)
Fixpoint min_dim (a : nd) (rest : list nd) : nd :=
  match rest with
  | [] => a
  | b :: rest => let m := min_dim b rest in if (ndim m <? ndim a)%nat then m else a
  end.
Fixpoint max_dim (a : nd) (rest : list nd) : nd :=
  match rest with
  | [] => a
  | b :: rest => let m := max_dim b rest in if (ndim a <? ndim m)%nat then m else a
  end.

(** ndarray.codon:812-830 [all_contiguous] *)
Definition all_contiguous (a : nd) (rest : list nd) : bool * bool :=
  if (ndim (min_dim a rest) =? ndim (max_dim a rest))%nat then
    let sh := forallb (fun x => list_eqb (shape x) (shape a)) rest in
    let cc := forallb (fun x => fst (contig x)) (a :: rest) in
    let fc := forallb (fun x => snd (contig x)) (a :: rest) in
    (sh && (cc || fc), cc)
  else (false, false).

(** The [broadcast] argument. *)
Inductive bmode := BNone | BFirst | BAll.

(** ndarray.codon:837-852 [broadcast_args]: the shape, and the strides of each array *)
Definition broadcast_args (a : nd) (rest : list nd) (m : bmode) (check : bool) : res (list Z * list (list Z)) :=
  match m with
  | BNone => Ok (shape a, map strides (a :: rest))
  | BFirst => r <- mapm (fun x => broadcast_to_l check x (shape a)) rest ;; Ok (shape a, map strides (a :: r))
  | BAll => l <- broadcast_arrays_l check (a :: rest) ;;
            Ok (match l with x :: _ => shape x | [] => [] end, map strides l)
  end.

Section Loop.
Context {V : Type} (zero : V).
Local Notation heap := (heap V).
Local Notation func_t := (heap -> list (nat * Z) -> heap).

(** ndarray.codon:631-705 [loop] *)
Fixpoint loop (func : func_t) (es : list Z) (sh : list Z) (sts : list (list Z)) (ptrs : list (nat * Z)) (h : heap) : heap :=
  match sh with
  | [] => func h ptrs
  | [n] => fold_left (fun h i => func h (line_ptrs ptrs es (map (hd 0) sts) i)) (zrange n) h
  | n :: sh1 =>
      fst (fold_left (fun '(h, ptrs) _ =>
             (loop func es sh1 (map (@tl Z) sts) ptrs h, line_generic ptrs (map (hd 0) sts) 1))
           (zrange n) (h, ptrs))
  end.

(** ndarray.codon:832-835 [alloc_array], for each type of [alloc] (given by its size) *)
Fixpoint alloc_arrays (h : heap) (perm_shape : list Z) (es : list Z) : heap * list nd :=
  match es with
  | [] => (h, [])
  | e :: es =>
      let '(h, b) := alloc zero h in
      let '(h, r) := alloc_arrays h perm_shape es in
      (h, mk b 0 e perm_shape false :: r)
  end.

(** ndarray.codon:622-920 [_loop] *)
Definition nd_loop (func : func_t) (m : bmode) (check : bool) (allocs : list Z) (arrays : list nd) (h : heap)
  : res (heap * list nd) :=
  match arrays with
  | [] => Ok (h, [])
  | a :: rest =>
      let '(all_contig, ccontig) := all_contiguous a rest in
      '(sh, sts) <- (if all_contig then Ok (shape a, map strides arrays) else broadcast_args a rest m check) ;;
      let perm := reorder_loops (strides (max_dim a rest)) in
      let '(h, allocated) := alloc_arrays h (tuple_perm 0 sh perm) allocs in
      if all_contig then
        let h := fold_left (fun h i =>
          func h (map (fun x => (blk x, base x + i * isz x)) (allocated ++ arrays))) (zrange (size a)) h in
        Ok (h, map (fun x => mk (blk x) (base x) (isz x) sh (negb ccontig)) allocated)
      else
        let h := loop func (map isz (allocated ++ arrays)) (tuple_perm 0 sh perm)
          (map strides allocated ++ map (fun s => tuple_perm 0 s perm) sts)
          (map (fun x => (blk x, base x)) (allocated ++ arrays)) h in
        let fix_strides st :=
          match sh with
          | [] | [_] => st
          | [_; _] => if (nth 0 perm O =? 1)%nat then rev st else st
          | _ => tuple_perm 0 st (tuple_perm_inv perm)
          end in
        Ok (h, map (fun x => Nd (blk x) (base x) (isz x) sh (fix_strides (strides x))) allocated)
  end.

(** ** Operators *)

(** ndarray.codon:208-310 the functors.  A call with another number of pointers does
    not type-check. *)
Definition unary_functor (op : V -> V) : func_t := fun h ps =>
  match ps with [y; x] => store h y (op (load h x)) | _ => h end.
Definition inplace_unary_functor (op : V -> V) : func_t := fun h ps =>
  match ps with [x] => store h x (op (load h x)) | _ => h end.
Definition binary_functor (op : V -> V -> V) : func_t := fun h ps =>
  match ps with [z; x; y] => store h z (op (load h x) (load h y)) | _ => h end.
Definition inplace_binary_functor (op : V -> V -> V) : func_t := fun h ps =>
  match ps with [x; y] => store h x (op (load h x) (load h y)) | _ => h end.
Definition right_binary_functor (op : V -> V -> V) : func_t := fun h ps =>
  match ps with [z; x; y] => store h z (op (load h y) (load h x)) | _ => h end.
Definition scalar_functor (op : V -> V -> V) (y : V) : func_t := unary_functor (fun x => op x y).
Definition right_scalar_functor (op : V -> V -> V) (y : V) : func_t := unary_functor (fun x => op y x).
Definition inplace_scalar_functor (op : V -> V -> V) (y : V) : func_t := inplace_unary_functor (fun x => op x y).

Definition first_result (r : res (heap * list nd)) : res (heap * nd) :=
  '(h, l) <- r ;; match l with x :: _ => Ok (h, x) | [] => Undef end.

(** ndarray.codon:1178-1240; [e] is the element size of the result *)
Definition op_elemwise (op : V -> V -> V) (e : Z) (h : heap) (a b : nd) : res (heap * nd) :=
  first_result (nd_loop (binary_functor op) BAll true [e] [a; b] h).
Definition rop_elemwise (op : V -> V -> V) (e : Z) (h : heap) (a b : nd) : res (heap * nd) :=
  first_result (nd_loop (right_binary_functor op) BAll true [e] [a; b] h).
Definition op_scalar (op : V -> V -> V) (e : Z) (h : heap) (a : nd) (y : V) : res (heap * nd) :=
  first_result (nd_loop (scalar_functor op y) BAll true [e] [a] h).
Definition rop_scalar (op : V -> V -> V) (e : Z) (h : heap) (a : nd) (y : V) : res (heap * nd) :=
  first_result (nd_loop (right_scalar_functor op y) BAll true [e] [a] h).
Definition op_unary (op : V -> V) (e : Z) (h : heap) (a : nd) : res (heap * nd) :=
  first_result (nd_loop (unary_functor op) BAll true [e] [a] h).
Definition iop_elemwise (op : V -> V -> V) (h : heap) (a b : nd) : res heap :=
  '(h, _) <- nd_loop (inplace_binary_functor op) BAll true [] [a; b] h ;; Ok h.
Definition iop_scalar (op : V -> V -> V) (h : heap) (a : nd) (y : V) : res heap :=
  '(h, _) <- nd_loop (inplace_scalar_functor op y) BAll true [] [a] h ;; Ok h.
Definition iop_unary (op : V -> V) (h : heap) (a : nd) : res heap :=
  '(h, _) <- nd_loop (inplace_unary_functor op) BAll true [] [a] h ;; Ok h.

End Loop.
