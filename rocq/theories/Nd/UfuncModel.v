(** Model of universal functions (/repo/stdlib/numpy/ufunc.codon) and of their
    vectorised loops (/repo/codon/runtime/numpy/loops.cpp), on the arrays of [Nd.Model].

    Simplifications: casts between element types are part of the operation; the vector
    and the scalar version of an operation are the same function; [vec] says that the
    element types are equal and the function has a vectorised loop (ufunc.codon:10-20);
    [L] is the number of lanes. *)
From Coq Require Import List ZArith Lia Bool.
From Verif.Common Require Import Result Int64.
From Verif.Nd Require Import Spec Model IndexModel LoopModel.
Import ListNotations.
Local Open Scope Z_scope.
Local Open Scope res_scope.

(** util.codon:68-97 [tuple_delete], [tuple_insert] *)
Fixpoint tuple_delete (t : list Z) (k : nat) : list Z :=
  match t, k with
  | [], _ => []
  | _ :: t, O => t
  | x :: t, S k => x :: tuple_delete t k
  end.
Fixpoint tuple_insert (t : list Z) (k : nat) (v : Z) {struct k} : list Z :=
  match k, t with
  | O, t => v :: t
  | S k, x :: t => x :: tuple_insert t k v
  | S _, [] => [v]
  end.

(** util.codon:187-215 [broadcast]; [broadcast_zip] is its second loop *)
Fixpoint broadcast_zip (t1 t2 : list Z) : res (list Z) :=
  match t1, t2 with
  | a :: t1, b :: t2 =>
      if a =? 1 then r <- broadcast_zip t1 t2 ;; Ok (b :: r)
      else if negb (b =? 1) && negb (a =? b) then Raise ValueError
      else r <- broadcast_zip t1 t2 ;; Ok (a :: r)
  | _, _ => Ok []
  end.
Definition util_broadcast (s1 s2 : list Z) : res (list Z) :=
  let d1 := length s1 in let d2 := length s2 in
  let diff := (Nat.max d1 d2 - Nat.min d1 d2)%nat in
  r <- broadcast_zip (skipn (d1 - Nat.min d1 d2) s1) (skipn (d2 - Nat.min d1 d2) s2) ;;
  Ok (firstn diff (if (d2 <? d1)%nat then s1 else s2) ++ r).

(** routines.codon:197-208: the strides of [empty_like] with the axes in the order [perm]
    of the prototype's strides, innermost first *)
Fixpoint like_strides (perm : list nat) (sh : list Z) (stride : Z) (st : list Z) : list Z :=
  match perm with
  | [] => st
  | p :: perm => like_strides perm sh (stride * nth p sh 0) (set_nth st p stride)
  end.

(** ndarray.codon:1137-1144 [_should_transpose] without an argument *)
Definition should_transpose (a : nd) : bool :=
  if (1 <? ndim a)%nat then
    let s1 := hd 0 (strides a) in let s2 := last (strides a) 0 in
    negb (s1 =? 0) && (Z.abs s1 <? Z.abs s2)
  else false.

(** ufunc.codon:45-57, 103-117: the axis with the smallest stride among those longer than 1 *)
Fixpoint pick_axis (i : nat) (sh st : list Z) (best : option (nat * Z)) : option (nat * Z) :=
  match sh, st with
  | n :: sh, s :: st =>
      pick_axis (S i) sh st
        (if (1 <? n) && (match best with None => true | Some (_, si) => s <? si end)
         then Some (i, s) else best)
  | _, _ => best
  end.
Definition loop_axis (sh st : list Z) : nat :=
  match pick_axis 0 sh st None with Some (k, _) => k | None => O end.

Inductive where_t := WTrue | WFalse | WArr (w : nd).

Section Ufunc.
Context {V : Type} (zero : V).
Local Notation heap := (heap V).

(** The stores [p_i := v_i] in order. *)
Definition put (h : heap) (ps : list (nat * Z)) (vs : list V) : heap :=
  fold_left (fun h '(p, v) => store h p v) (combine ps vs) h.

(** The cells of lanes [i], ..., [i + L - 1] of a line. *)
Definition lanes (p : nat * Z) (s i L : Z) : list (nat * Z) := map (fun j => incr p ((i + j) * s)) (zrange L).

Definition map2 (op : V -> V -> V) (xs ys : list V) : list V := map (fun '(x, y) => op x y) (combine xs ys).

(** loops.cpp:414-446 [UnaryLoop]; the branch for adjacent elements is the other one
    with both strides the element size *)
Definition unary_loop (L : Z) (op : V -> V) (h : heap) (p : nat * Z) (is : Z) (q : nat * Z) (os n : Z) : heap :=
  let h := fold_left (fun h k => put h (lanes q os (k * L) L) (map op (map (load h) (lanes p is (k * L) L)))) (zrange (n / L)) h in
  fold_left (fun h j => let i := n / L * L + j in store h (incr q (i * os)) (op (load h (incr p (i * is))))) (zrange (n mod L)) h.

(** loops.cpp:448-516 [BinaryLoop]; the first branch is the last one with all strides the
    element size [e] *)
Definition binary_loop (L e : Z) (op : V -> V -> V) (h : heap) (p1 : nat * Z) (is1 : Z) (p2 : nat * Z) (is2 : Z)
  (q : nat * Z) (os n : Z) : heap :=
  let h :=
    if (is1 =? 0) && (is2 =? e) && (os =? e) then
      fst (fold_left (fun '(h, tmp1) k =>
        let vs := map2 op tmp1 (map (load h) (lanes p2 is2 (k * L) L)) in
        (put h (lanes q os (k * L) L) vs, vs)) (zrange (n / L)) (h, map (fun _ => load h p1) (zrange L)))
    else if (is1 =? e) && (is2 =? 0) && (os =? e) then
      let tmp2 := map (fun _ => load h p2) (zrange L) in
      fold_left (fun h k => put h (lanes q os (k * L) L) (map2 op (map (load h) (lanes p1 is1 (k * L) L)) tmp2)) (zrange (n / L)) h
    else
      fold_left (fun h k => put h (lanes q os (k * L) L)
        (map2 op (map (load h) (lanes p1 is1 (k * L) L)) (map (load h) (lanes p2 is2 (k * L) L)))) (zrange (n / L)) h in
  fold_left (fun h j => let i := n / L * L + j in
    store h (incr q (i * os)) (op (load h (incr p1 (i * is1))) (load h (incr p2 (i * is2))))) (zrange (n mod L)) h.

(** ufunc.codon:22-64 [_apply_vectorized_loop_unary].  [broadcast_to] to the array's own
    shape is the array itself.  [key] is what two strides are compared by: the stride here, its
    absolute value in the copy of fusion.codon:148-190. *)
Definition vectorized_unary (key : Z -> Z) (L : Z) (op : V -> V) (h : heap) (arr out : nd) : res heap :=
  if ((ndim arr =? 0) || (ndim out =? 0) || (ndim out <? ndim arr))%nat then Raise TypeError (* at compile time *)
  else if (ndim out =? 1)%nat then
    Ok (unary_loop L op h (blk arr, base arr) (hd 0 (strides arr)) (blk out, base out) (hd 0 (strides out)) (size out))
  else
    let sh := shape arr in
    if contig_match arr out then
      Ok (unary_loop L op h (blk arr, base arr) (isz out) (blk out, base out) (isz out) (size out))
    else
      let k := loop_axis sh (map key (strides arr)) in
      Ok (fold_left (fun h idx =>
            let idx1 := tuple_insert idx k 0 in
            unary_loop L op h (ptr arr idx1) (nth k (strides arr) 0) (ptr out idx1) (nth k (strides out) 0) (nth k sh 0))
          (multirange (tuple_delete sh k)) h).

(** ufunc.codon:66-125 [_apply_vectorized_loop_binary]; fusion.codon:192-251 with the absolute value for [key] *)
Definition vectorized_binary (key : Z -> Z) (L : Z) (op : V -> V -> V) (h : heap) (arr1 arr2 out : nd) : res heap :=
  if ((ndim arr1 =? 0) && (ndim arr2 =? 0) || (ndim out =? 0) || (ndim out <? ndim arr1) || (ndim out <? ndim arr2))%nat
  then Raise TypeError (* at compile time *)
  else if (ndim out =? 1)%nat then
    Ok (binary_loop L (isz out) op h (blk arr1, base arr1) (hd 0 (strides arr1)) (blk arr2, base arr2) (hd 0 (strides arr2))
          (blk out, base out) (hd 0 (strides out)) (size out))
  else
    let sh := shape out in
    arr1 <- broadcast_to arr1 sh ;;
    arr2 <- broadcast_to arr2 sh ;;
    if contig_match arr1 out && contig_match arr2 out then
      Ok (binary_loop L (isz out) op h (blk arr1, base arr1) (isz out) (blk arr2, base arr2) (isz out)
            (blk out, base out) (isz out) (size out))
    else
      let k := loop_axis sh (map key (strides arr1)) in
      Ok (fold_left (fun h idx =>
            let idx1 := tuple_insert idx k 0 in
            binary_loop L (isz out) op h (ptr arr1 idx1) (nth k (strides arr1) 0) (ptr arr2 idx1) (nth k (strides arr2) 0)
              (ptr out idx1) (nth k (strides out) 0) (nth k sh 0))
          (multirange (tuple_delete sh k)) h).

(** routines.codon:176-213 [empty_like] with order 'K' and the prototype's shape; [e] is
    the element size *)
Definition empty_like (e : Z) (h : heap) (x : nd) : heap * nd :=
  let '(h, b) := alloc zero h in
  let '(cc, fc) := contig x in
  (h, if cc || (ndim x <=? 1)%nat then mk b 0 e (shape x) false
      else if fc then mk b 0 e (shape x) true
      else Nd b 0 e (shape x)
             (like_strides (rev (map fst (sort_by_stride (seq 0 (ndim x)) (strides x)))) (shape x) e (repeat 0 (ndim x)))).

(** ufunc.codon:247-259 [_UnaryWhereFunctor], 346-363 [_BinaryWhereFunctor], 306-344 the
    functors with a fixed operand; [tr] is the truth of a cell of [where] *)
Definition unary_where (tr : V -> bool) (op : V -> V) : heap -> list (nat * Z) -> heap := fun h ps =>
  match ps with [y; x; w] => if tr (load h w) then store h y (op (load h x)) else h | _ => h end.
Definition binary_where (tr : V -> bool) (op : V -> V -> V) : heap -> list (nat * Z) -> heap := fun h ps =>
  match ps with [z; x; y; w] => if tr (load h w) then store h z (op (load h x) (load h y)) else h | _ => h end.

(** The memory after a [_loop] without allocations. *)
Definition after (r : res (heap * list nd)) : res heap := '(h, _) <- r ;; Ok h.

(** ufunc.codon:395-442 [UnaryUFunc.__call__]; the result is a number or an array *)
Definition ufunc1 (vec : bool) (L : Z) (tr : V -> bool) (op : V -> V) (e : Z) (h : heap) (x : nd)
  (out : option nd) (w : where_t) : res (heap * (V + nd)) :=
  if (ndim x =? 0)%nat then
    let r := op (load h (blk x, base x)) in
    match out with
    | None => Ok (h, inl r)
    | Some z => h <- iop_unary zero (fun _ => r) h z ;; Ok (h, inr z)
    end
  else
    '(h, ans) <- (match out with
                  | None => Ok (empty_like e h x)
                  | Some z => bs <- util_broadcast (shape x) (shape z) ;;
                              if list_eqb bs (shape z) then Ok (h, z) else Raise ValueError
                  end) ;;
    h <- (match w with
          | WTrue => if vec then vectorized_unary (fun s => s) L op h x ans
                     else after (nd_loop zero (unary_functor op) BAll false [] [ans; x] h)
          | WFalse => Ok h
          | WArr wa => after (nd_loop zero (unary_where tr op) BFirst true [] [ans; x; wa] h)
          end) ;;
    Ok (h, inr ans).

(** ufunc.codon:617-645: the end of [BinaryUFunc.__call__], with the result array [ans] *)
Definition run2 (vec : bool) (L : Z) (tr : V -> bool) (op : V -> V -> V) (h : heap) (x y ans : nd) (w : where_t)
  : res (heap * (V + nd)) :=
  h <- (match w with
        | WTrue =>
            if vec then vectorized_binary (fun s => s) L op h x y ans
            else if (ndim x =? 0)%nat then
              let v := load h (blk x, base x) in
              after (nd_loop zero (right_scalar_functor op v) BFirst false [] [ans; y] h)
            else if (ndim y =? 0)%nat then
              let v := load h (blk y, base y) in
              after (nd_loop zero (scalar_functor op v) BFirst false [] [ans; x] h)
            else after (nd_loop zero (binary_functor op) BFirst false [] [ans; x; y] h)
        | WFalse => Ok h
        | WArr wa => after (nd_loop zero (binary_where tr op) BFirst true [] [ans; x; y; wa] h)
        end) ;;
  Ok (h, inr ans).

(** ufunc.codon:573-645 [BinaryUFunc.__call__] *)
Definition ufunc2 (vec : bool) (L : Z) (tr : V -> bool) (op : V -> V -> V) (e : Z) (h : heap) (x y : nd)
  (out : option nd) (w : where_t) : res (heap * (V + nd)) :=
  match out with
  | None => if ((ndim x =? 0) && (ndim y =? 0))%nat
            then Ok (h, inl (op (load h (blk x, base x)) (load h (blk y, base y))))
            else
              os <- util_broadcast (shape x) (shape y) ;;
              let fc := if (ndim y <=? ndim x)%nat then should_transpose x else should_transpose y in
              let '(h, b) := alloc zero h in run2 vec L tr op h x y (mk b 0 e os fc) w
  | Some z => bs <- util_broadcast (shape x) (shape z) ;;
              if list_eqb bs (shape z) then run2 vec L tr op h x y z w else Raise ValueError
  end.

End Ufunc.
