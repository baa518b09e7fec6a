(** Model of the array layer of /repo/stdlib/numpy: ndarray.codon, util.codon,
    indexing.codon and the broadcasting part of routines.codon.

    Memory is a collection of blocks (one per allocation) of cells addressed by byte
    offset; a cell holds a whole element, so elements of different sizes may not be
    reinterpreted ([view(dtype)] is not modelled).  An array is a block, the byte
    offset of its first element, its element size, its shape and its byte strides.
    Allocation makes a new block; there is no collection and no allocation failure.
    Shapes and strides are unbounded integers, except in [fix_unknown], where
    the sizes asked for by the user are multiplied in 64 bits.  Tuples of static
    length are lists, and errors reported at compile time are [Raise TypeError]. *)
From Coq Require Import List ZArith Lia Bool.
From Verif.Common Require Import Result Int64.
From Verif.List Require Import SliceSpec SliceModel.
From Verif.Nd Require Import Spec.
Import ListNotations.
Local Open Scope Z_scope.
Local Open Scope res_scope.

(** ** Memory *)
Section Nd.
Context {V : Type} (zero : V).

Record heap := Heap { next : nat; cell : nat -> Z -> V }.

Definition load (h : heap) (p : nat * Z) : V := cell h (fst p) (snd p).

Definition store (h : heap) (p : nat * Z) (v : V) : heap :=
  Heap (next h) (fun b o => if ((b =? fst p)%nat && (o =? snd p))%bool then v else cell h b o).

(** [Ptr[dtype](n)]: a new block.  Its initial contents are arbitrary; [zero] here. *)
Definition alloc (h : heap) : heap * nat :=
  (Heap (S (next h)) (fun b o => if (b =? next h)%nat then zero else cell h b o), next h).

(** ** ndarray.codon:311-324 the record and its constructors *)
Record nd := Nd { blk : nat; base : Z; isz : Z; shape : list Z; strides : list Z }.

(** util.codon:161-168 [count] *)
Definition count (sh : list Z) : Z := fold_left Z.mul sh 1.

Definition size (a : nd) : Z := count (shape a).
Definition ndim (a : nd) : nat := length (shape a).

(** util.codon:2218-2233 [strides]: walk over the axes, from the first one for 'F',
    from the last one for 'C', multiplying up *)
Fixpoint strides_walk (sh : list Z) (curr : Z) : list Z :=
  match sh with
  | [] => []
  | n :: sh => curr :: strides_walk sh (curr * n)
  end.

Definition mk_strides (sh : list Z) (forder : bool) (isz : Z) : list Z :=
  if forder then strides_walk sh isz else rev (strides_walk (rev sh) isz).

(** ndarray.codon:322-324 [ndarray(shape, data, fcontig)] *)
Definition mk (b : nat) (base isz : Z) (sh : list Z) (fcontig : bool) : nd :=
  Nd b base isz sh (mk_strides sh fcontig isz).

(** ndarray.codon:326-352 [_contig].  The first loop runs from the last axis and
    gives up with [None] on an empty axis, in which case the answer is (True, True). *)
Fixpoint contig_walk (dims : list (Z * Z)) (sd : Z) : option bool :=
  match dims with
  | [] => Some true
  | (dim, s) :: dims =>
      if dim =? 0 then None
      else if dim =? 1 then contig_walk dims sd
      else match contig_walk dims (sd * dim) with
           | None => None
           | Some ok => Some ((s =? sd) && ok)%bool
           end
  end.

Definition contig (a : nd) : bool * bool :=
  match contig_walk (rev (combine (shape a) (strides a))) (isz a) with
  | None => (true, true)
  | Some cc =>
      (cc, match contig_walk (combine (shape a) (strides a)) (isz a) with
           | Some fc => fc
           | None => true   (* no empty axis: excluded by the first loop *)
           end)
  end.

Definition is_contig (a : nd) : bool := let '(c, f) := contig a in c || f.

Definition list_eqb (x y : list Z) : bool := if list_eq_dec Z.eq_dec x y then true else false.

(** ndarray.codon:359-369 [_contig_match] *)
Definition contig_match (a b : nd) : bool :=
  if negb (ndim a =? ndim b)%nat then false
  else if negb (list_eqb (shape a) (shape b)) then false
  else let '(c1, f1) := contig a in let '(c2, f2) := contig b in
       (c1 && c2) || (f1 && f2).

Fixpoint dot (c s : list Z) : Z :=
  match c, s with
  | i :: c, x :: s => i * x + dot c s
  | _, _ => 0
  end.

(** ndarray.codon:1031-1060 [_ptr] = [_ptr_for_index] without checks.  With
    [broadcast] excess leading indices and axes of extent 1 are skipped. *)
Definition ptr (a : nd) (c : list Z) : nat * Z := (blk a, base a + dot c (strides a)).

Fixpoint bdot (sh c s : list Z) : Z :=
  match sh, c, s with
  | n :: sh, i :: c, x :: s => (if n =? 1 then 0 else i * x) + bdot sh c s
  | _, _, _ => 0
  end.

Definition ptr_bcast (a : nd) (c : list Z) : nat * Z :=
  (blk a, base a + bdot (shape a) (skipn (length c - ndim a) c) (strides a)).

(** ** util.codon:438-531 [multirange], [fmultirange] *)
Fixpoint multirange (lim : list Z) : list (list Z) :=
  match lim with
  | [] => [[]]
  | n :: lim => flat_map (fun i => map (cons i) (multirange lim)) (zrange n)
  end.

(** The nested loops written out for up to six axes: the last index is outermost. *)
Fixpoint fnest (lim : list Z) : list (list Z) :=
  match lim with
  | [] => [[]]
  | n :: lim => flat_map (fun c => map (fun i => i :: c) (zrange n)) (fnest lim)
  end.

(** util.codon:528-531, for more than six axes: [yield idx + (i,)] *)
Fixpoint fmultirange_more (extra : nat) (lim : list Z) : list (list Z) :=
  match extra with
  | O => fnest lim
  | S extra =>
      match lim with
      | [] => [[]]
      | n :: lim =>
          flat_map (fun c => map (fun i => c ++ [i]) (zrange n)) (fmultirange_more extra lim)
      end
  end.

Definition fmultirange (lim : list Z) : list (list Z) :=
  fmultirange_more (length lim - 6) lim.

(** ** util.codon:284-330 ranks and coordinates ([divmod] rounds down) *)
Fixpoint to_fcoords (index : Z) (lim : list Z) : res (list Z) :=
  match lim with
  | [] => Ok []
  | n :: lim =>
      if n =? 0 then Raise ZeroDivisionError
      else c <- to_fcoords (index / n) lim ;; Ok (index mod n :: c)
  end.
Definition index_to_fcoords := to_fcoords.
Definition index_to_coords (index : Z) (lim : list Z) : res (list Z) :=
  c <- to_fcoords index (rev lim) ;; Ok (rev c).

Fixpoint findex_walk (coords lim : list Z) (s : Z) : Z :=
  match coords, lim with
  | i :: coords, n :: lim => i * s + findex_walk coords lim (s * n)
  | _, _ => 0
  end.
Definition coords_to_findex (coords lim : list Z) : Z := findex_walk coords lim 1.
Definition coords_to_index (coords lim : list Z) : Z := findex_walk (rev coords) (rev lim) 1.

(** ** Copies *)

(** [for idx, i in ...: p[i] = self._ptr(idx)[0]] into block [b] of element size [isz] *)
Fixpoint fill_linear (h : heap) (a : nd) (b : nat) (i : Z) (cs : list (list Z)) : heap :=
  match cs with
  | [] => h
  | c :: cs => fill_linear (store h (b, i * isz a) (load h (ptr a c))) a b (i + 1) cs
  end.

(** [str.memcpy(p, self._data, n * itemsize)], element by element *)
Fixpoint memcpy (h : heap) (a : nd) (b : nat) (n : nat) : heap :=
  match n with
  | O => h
  | S n =>
      let h := memcpy h a b n in
      store h (b, Z.of_nat n * isz a) (load h (blk a, base a + Z.of_nat n * isz a))
  end.

(** ndarray.codon:922-960 [_contiguous], [_fcontiguous]: the pointer returned *)
Definition contiguous (copy : bool) (h : heap) (a : nd) : heap * (nat * Z) :=
  if fst (contig a) then
    if copy then
      let '(h, b) := alloc h in (memcpy h a b (Z.to_nat (size a)), (b, 0))
    else (h, (blk a, base a))
  else
    let '(h, b) := alloc h in (fill_linear h a b 0 (multirange (shape a)), (b, 0)).

Definition fcontiguous (copy : bool) (h : heap) (a : nd) : heap * (nat * Z) :=
  if snd (contig a) then
    if copy then
      let '(h, b) := alloc h in (memcpy h a b (Z.to_nat (size a)), (b, 0))
    else (h, (blk a, base a))
  else
    let '(h, b) := alloc h in (fill_linear h a b 0 (fmultirange (shape a)), (b, 0)).

(** The [order] argument: ndarray.codon:1072-1074 [_check_order] has run. *)
Inductive ord := RC | RF | RA | RK.

(** [for idx in util.multirange(shape): x._ptr(idx)[0] = self._ptr(idx)[0]] *)
Fixpoint copy_elems (h : heap) (x a : nd) (cs : list (list Z)) : heap :=
  match cs with
  | [] => h
  | c :: cs => copy_elems (store h (ptr x c) (load h (ptr a c))) x a cs
  end.

(** ndarray.codon:1076-1131 [astype] to the same type with [copy=True] = [copy] *)
Definition copy (h : heap) (a : nd) (o : ord) : heap * nd :=
  let '(cc, fc) := contig a in
  let '(h, b) := alloc h in
  if (match o with RC => cc | RF => fc | _ => false end) then
    let f := fc && negb cc in
    (memcpy h a b (Z.to_nat (size a)), mk b 0 (isz a) (shape a) f)
  else
    let f := match o with RF => true | RA | RK => fc | RC => false end in
    let x := mk b 0 (isz a) (shape a) f in
    (copy_elems h x a (multirange (shape a)), x).

(** util.codon:340-367 [sort_by_stride]: bubble sort by decreasing absolute stride.
    One pass over the first [n] entries; [true] if something was swapped. *)
Fixpoint bubble {A} (n : nat) (l : list (A * Z)) : list (A * Z) * bool :=
  match n, l with
  | S n, x :: ((y :: l) as l') =>
      if Z.abs (snd x) <? Z.abs (snd y)
      then let '(r, _) := bubble n (x :: l) in (y :: r, true)
      else let '(r, sw) := bubble n l' in (x :: r, sw)
  | _, _ => (l, false)
  end.

Fixpoint bubble_passes {A} (n : nat) (l : list (A * Z)) : list (A * Z) :=
  match n with
  | O => l
  | S n => let '(l, sw) := bubble n l in if sw then bubble_passes n l else l
  end.

Definition sort_by_stride {A} (sh : list A) (st : list Z) : list (A * Z) :=
  let l := combine sh st in
  if (length st <=? 1)%nat then l else bubble_passes (length st) l.

(** ndarray.codon:1013-1025 [flatten] *)
Definition flatten (h : heap) (a : nd) (o : ord) : heap * nd :=
  let '(_, fc) := contig a in
  let o := match o with RA => if fc then RF else RC | o => o end in
  match o with
  | RC => let '(h, p) := contiguous true h a in
          (h, mk (fst p) (snd p) (isz a) [size a] false)
  | RF => let '(h, p) := fcontiguous true h a in
          (h, mk (fst p) (snd p) (isz a) [size a] false)
  | _ => let l := sort_by_stride (shape a) (strides a) in
         let other := Nd (blk a) (base a) (isz a) (map fst l) (map snd l) in
         let '(h, p) := contiguous true h other in
         (h, mk (fst p) (snd p) (isz a) [size other] false)
  end.

(** ndarray.codon:988-1011 [ravel] *)
Definition ravel (h : heap) (a : nd) (o : ord) : heap * nd :=
  let '(_, fc) := contig a in
  let o := match o with RA => if fc then RF else RC | o => o end in
  match o with
  | RC => let '(h, p) := contiguous false h a in
          (h, mk (fst p) (snd p) (isz a) [size a] false)
  | RF => let '(h, p) := fcontiguous false h a in
          (h, mk (fst p) (snd p) (isz a) [size a] false)
  | _ => let l := sort_by_stride (shape a) (strides a) in
         let other := Nd (blk a) (base a) (isz a) (map fst l) (map snd l) in
         let '(h, p) := contiguous true h other in
         (h, mk (fst p) (snd p) (isz a) [size other] false)
  end.

(** ** Axes *)

(** util.codon:230-235 [normalize_axis_index] *)
Definition normalize_axis_index (axis : Z) (ndim : nat) : res nat :=
  let n := Z.of_nat ndim in
  if (axis <? - n) || (n <=? axis) then Raise OtherError (* AxisError *)
  else Ok (Z.to_nat (if axis <? 0 then axis + n else axis)).

(** util.codon:238-245 [has_duplicate] *)
Fixpoint has_duplicate {A} (eqb : A -> A -> bool) (l : list A) : bool :=
  match l with
  | [] => false
  | x :: l => existsb (eqb x) l || has_duplicate eqb l
  end.

Fixpoint mapm {A B} (f : A -> res B) (l : list A) : res (list B) :=
  match l with
  | [] => Ok []
  | x :: l => y <- f x ;; r <- mapm f l ;; Ok (y :: r)
  end.

(** ndarray.codon:410-429 [transpose] with the axes given one by one; no axes means all of them reversed *)
Definition transpose (a : nd) (axes : list Z) : res nd :=
  match axes with
  | [] => Ok (Nd (blk a) (base a) (isz a) (rev (shape a)) (rev (strides a)))
  | _ =>
      if negb (length axes =? ndim a)%nat then Raise TypeError else
      axs <- mapm (fun ax => normalize_axis_index ax (ndim a)) axes ;;
      if has_duplicate Nat.eqb axs then Raise ValueError
      else Ok (Nd (blk a) (base a) (isz a)
                  (map (fun j => nth j (shape a) 0) axs)
                  (map (fun j => nth j (strides a) 0) axs))
  end.

(** tuple.codon:7-12 [_fix_index] *)
Definition fix_index (idx : Z) (len : nat) : res nat :=
  let n := Z.of_nat len in
  let idx := if idx <? 0 then idx + n else idx in
  if (idx <? 0) || (n <=? idx) then Raise IndexError else Ok (Z.to_nat idx).

(** ndarray.codon:431-442 [transpose(axes: List[int])] *)
Definition transpose_list (a : nd) (axes : list Z) : res nd :=
  if negb (length axes =? ndim a)%nat then Raise ValueError
  else if has_duplicate Z.eqb axes then Raise ValueError
  else axs <- mapm (fun ax => fix_index ax (ndim a)) axes ;;
       Ok (Nd (blk a) (base a) (isz a)
              (map (fun j => nth j (shape a) 0) axs)
              (map (fun j => nth j (strides a) 0) axs)).

(** [p[i], p[j] = p[j], p[i]] on a tuple *)
Definition swap_at (i j : nat) (l : list Z) : list Z :=
  map (fun k => nth (if (k =? i)%nat then j else if (k =? j)%nat then i else k) l 0)
      (seq 0 (length l)).

(** ndarray.codon:444-453 [swapaxes] *)
Definition swapaxes (a : nd) (axis1 axis2 : Z) : res nd :=
  i <- normalize_axis_index axis1 (ndim a) ;;
  j <- normalize_axis_index axis2 (ndim a) ;;
  Ok (Nd (blk a) (base a) (isz a) (swap_at i j (shape a)) (swap_at i j (strides a))).

(** ** Reshape *)

(** ndarray.codon:463-504 [_fix_unknown_dimension]; [s_known] is a 64-bit product *)
Fixpoint known (req : list Z) (s_known : Z) (unknown : bool) : res (Z * bool) :=
  match req with
  | [] => Ok (s_known, unknown)
  | dim :: req =>
      if dim <? 0 then
        if unknown then Raise ValueError else known req s_known true
      else known req (w64 (s_known * dim)) unknown
  end.

Definition fix_unknown (size : Z) (req : list Z) : res (list Z) :=
  match req with
  | [] => if negb (size =? 1) then Raise ValueError else Ok req
  | [d] => if d <? 0 then Ok [size]
           else if negb (d =? size) then Raise ValueError else Ok req
  | _ =>
      '(s_known, unknown) <- known req 1 false ;;
      if (unknown : bool) then
        if (s_known =? 0) || negb (Z.rem size s_known =? 0) then Raise ValueError
        else Ok (map (fun d => if d <? 0 then Z.quot size s_known else d) req)
      else if negb (size =? s_known) then Raise ValueError else Ok req
  end.

(** ndarray.codon:506-586 [_attempt_reshape_nocopy].

    The dimensions still to be matched are the lists [news] and [olds]; a group of
    each is taken from their fronts.  [grab] is the inner loop [while np != op]:
    it returns the two groups and what is left, or [None] if it would run past the
    end of the dimensions. *)
Fixpoint grab (fuel : nat) (np op : Z) (gn : list Z) (go : list (Z * Z))
  (news : list Z) (olds : list (Z * Z))
  : option (list Z * list (Z * Z) * list Z * list (Z * Z)) :=
  match fuel with
  | O => None
  | S fuel =>
      if np =? op then Some (gn, go, news, olds)
      else if np <? op then
        match news with
        | [] => None
        | n :: news => grab fuel (np * n) op (gn ++ [n]) go news olds
        end
      else
        match olds with
        | [] => None
        | o :: olds => grab fuel np (op * fst o) gn (go ++ [o]) news olds
        end
  end.

(** ndarray.codon:548-557: may the old group be walked with one stride? *)
Fixpoint one_stride (forder : bool) (go : list (Z * Z)) : bool :=
  match go with
  | (d1, s1) :: (((d2, s2) :: _) as go') =>
      (if forder then s2 =? d1 * s1 else s1 =? d2 * s2) && one_stride forder go'
  | _ => true
  end.

(** ndarray.codon:559-569: strides of the new group *)
Fixpoint spread_walk (dims : list Z) (s : Z) : list Z :=
  match dims with
  | [] => []
  | d :: dims => s :: spread_walk dims (s * d)
  end.

Definition group_strides (forder : bool) (gn : list Z) (go : list (Z * Z)) : list Z :=
  if forder then spread_walk gn (snd (hd (0, 0) go))
  else rev (spread_walk (rev gn) (snd (last go (0, 0)))).

(** The outer loop.  [done] holds the strides computed so far, [ldim] the extent of
    the last matched new dimension. *)
Fixpoint match_groups (fuel : nat) (forder : bool) (itemsize : Z) (done : list Z) (ldim : Z)
  (news : list Z) (olds : list (Z * Z)) : res (option (list Z)) :=
  match fuel with
  | O => NoFuel
  | S fuel =>
      match news, olds with
      | n :: news', o :: olds' =>
          match grab (length news + length olds) n (fst o) [n] [o] news' olds' with
          | None => Undef
          | Some (gn, go, news, olds) =>
              if one_stride forder go then
                match_groups fuel forder itemsize (done ++ group_strides forder gn go)
                  (last gn 0) news olds
              else Ok None
          end
      | _, _ =>
          let last_stride := if (length done =? 0)%nat then itemsize else last done 0 in
          let last_stride := if forder then last_stride * ldim else last_stride in
          Ok (Some (done ++ repeat last_stride (length news)))
      end
  end.

Definition reshape_nocopy (a : nd) (newdims : list Z) (forder : bool) : res (option (list Z)) :=
  let olds := filter (fun d => negb (fst d =? 1)) (combine (shape a) (strides a)) in
  match_groups (S (length newdims)) forder (isz a) [] 0 newdims olds.

(** ndarray.codon:588-625 [reshape]: dimensions given one by one, [a.reshape(2, 3)] *)
Definition reshape (h : heap) (a : nd) (req : list Z) (o : ord) : res (heap * nd) :=
  match req with
  | [] => if negb (size a =? 1) then Raise ValueError
          else Ok (h, Nd (blk a) (base a) (isz a) [] [])
  | _ =>
      let '(cc, fc) := contig a in
      o <- match o with
           | RA => Ok (if fc && negb cc then OF else OC)
           | RK => Raise ValueError
           | RC => Ok OC
           | RF => Ok OF
           end ;;
      if list_eqb req (shape a) then Ok (h, a) else
      sh <- fix_unknown (size a) req ;;
      let f := match o with OF => true | OC => false end in
      if (match o with OC => negb cc | OF => negb fc end) then
        r <- reshape_nocopy a sh f ;;
        match r with
        | Some st => Ok (h, Nd (blk a) (base a) (isz a) sh st)
        | None =>
            let '(h, x) := copy h a (if f then RF else RC) in
            Ok (h, mk (blk x) (base x) (isz x) sh f)
        end
      else Ok (h, mk (blk a) (base a) (isz a) sh f)
  end.

(** ndarray.codon:597-598: a tuple of dimensions, [a.reshape((2, 3), order=...)], and
    routines.codon:1003-1004 [np.reshape(a, newshape, order)].  The order is not
    passed on. *)
Definition reshape_tuple (h : heap) (a : nd) (req : list Z) (o : ord) : res (heap * nd) :=
  reshape h a req RC.

End Nd.
Arguments heap : clear implicits.
