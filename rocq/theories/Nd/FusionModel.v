(** Model of the evaluation of array expressions after operator fusion
    (/repo/codon/cir/transform/numpy/expr.cpp, numpy.cpp:699-778 and
    /repo/stdlib/numpy/fusion.codon), on the arrays and loops of [Nd].

    The leaves have been evaluated to variables (numpy.cpp:771-774).  Transposes and
    matrix products inside an expression are evaluated separately beforehand
    (numpy.cpp:703-737), so here they are leaves.  Casts are part of the operations. *)
From Coq Require Import List ZArith Lia Bool.
From Verif.Common Require Import Result Int64.
From Verif.Nd Require Import Spec Model IndexModel LoopModel UfuncModel.
Import ListNotations.
Local Open Scope Z_scope.
Local Open Scope res_scope.

Section Fusion.
Context {V : Type} (zero : V) (lanes : Z) (szof : nat -> Z).
Local Notation heap := (heap V).

(** numpy.h:134-229 [NumPyExpr]: element type [dt] (its size is [szof dt]); an array
    leaf with its variable's array and [freeable]; a number; operations with the flag
    [vec] of [haveVectorizedLoop] (expr.cpp:112-130) *)
Inductive fx :=
| FArr (dt : nat) (a : nd) (fr : bool)
| FNum (dt : nat) (v : V)
| FUn (dt : nat) (vec : bool) (op : V -> V) (l : fx)
| FBin (dt : nat) (vec : bool) (op : V -> V -> V) (l r : fx).
Definition dtype (e : fx) : nat := match e with FArr dt _ _ | FNum dt _ | FUn dt _ _ _ | FBin dt _ _ _ _ => dt end.
(** numpy.h:111 [isArray]; operations on numbers only are no array expressions *)
Definition is_array (e : fx) : bool := match e with FNum _ _ => false | _ => true end.
(** numpy.h:97: the number of axes, known from the types *)
Fixpoint ndims (e : fx) : nat :=
  match e with FArr _ a _ => ndim a | FNum _ _ => 0 | FUn _ _ _ l => ndims l | FBin _ _ _ l r => Nat.max (ndims l) (ndims r) end.
(** numpy.h:246-252 *)
Fixpoint depth (e : fx) : nat :=
  match e with FArr _ _ _ | FNum _ _ => 1 | FUn _ _ _ l => S (depth l) | FBin _ _ _ l r => S (Nat.max (depth l) (depth r)) end.
Fixpoint nodes (e : fx) : nat :=
  match e with FArr _ _ _ | FNum _ _ => 1 | FUn _ _ _ l => S (nodes l) | FBin _ _ _ l r => S (nodes l + nodes r) end.
(** expr.cpp:461-467 [apply] on the array leaves *)
Fixpoint arrays (e : fx) : list (nd * bool) :=
  match e with FArr _ a fr => [(a, fr)] | FNum _ _ => [] | FUn _ _ _ l => arrays l | FBin _ _ _ l r => arrays l ++ arrays r end.

(** Memory, and the blocks that were freed: to use one is undefined. *)
Record mem := Mem { hp : heap; freed : list nat }.
Inductive ov := OA (a : nd) | ON (v : V).
Definition live (s : mem) (a : nd) : bool := negb (existsb (Nat.eqb (blk a)) (freed s)).
Definition touch {A} (s : mem) (l : list nd) (k : res A) : res A := if forallb (live s) l then k else Undef.
(** fusion.codon:145-146 [_free].  The array is taken to start at the allocated address. *)
Definition free (a : nd) (s : mem) : res mem := touch s [a] (Ok (Mem (hp s) (blk a :: freed s))).
Definition with_hp (s : mem) (r : res heap) : res mem := h <- r ;; Ok (Mem h (freed s)).

(** fusion.codon:63-88 [_broadcast] *)
Fixpoint bc_same (s1 s2 : list Z) : res (list Z) :=
  match s1, s2 with
  | a :: s1, b :: s2 =>
      if (a =? 1) || (b =? 1) || (a =? b) then r <- bc_same s1 s2 ;; Ok (Z.max a b :: r) else Raise ValueError
  | _, _ => Ok []
  end.
Definition fbroadcast (s1 s2 : list Z) : res (list Z) :=
  let n1 := length s1 in let n2 := length s2 in
  if (n1 =? 0)%nat then Ok s2
  else if (n2 =? 0)%nat then Ok s1
  else if (n2 <? n1)%nat then r <- bc_same (skipn (n1 - n2) s1) s2 ;; Ok (firstn (n1 - n2) s1 ++ r)
  else if (n1 <? n2)%nat then r <- bc_same s1 (skipn (n2 - n1) s2) ;; Ok (firstn (n2 - n1) s2 ++ r)
  else bc_same s1 s2.

(** fusion.codon:139-143 [_shape] *)
Definition shape_of (o : ov) : list Z := match o with OA a => shape a | ON _ => [] end.
(** fusion.codon:136-137 [_create]: routines.codon:176-213 [empty_like] with order 'K' and a shape *)
Definition create (like : ov) (sh : list Z) (e : Z) (s : mem) : mem * nd :=
  let '(h, b) := alloc zero (hp s) in
  (Mem h (freed s),
   match like with
   | ON _ => mk b 0 e sh false
   | OA x =>
       let '(cc, fc) := contig x in
       if (length sh =? ndim x)%nat then
         if cc || (ndim x <=? 1)%nat then mk b 0 e sh false
         else if fc then mk b 0 e sh true
         else Nd b 0 e sh
                (like_strides (rev (map fst (sort_by_stride (seq 0 (ndim x)) (strides x)))) sh e (repeat 0 (ndim x)))
       else mk b 0 e sh false
   end).

(** Is the result the variable of an operand, at compile time? *)
Inductive reuse := RLeft | RRight | RNone.

(** expr.cpp:722-870: the loop of one operation; [r] is the result array.  The functors
    are those of ndarray.codon:208-310 in effect. *)
Definition run_un (vec : bool) (w : reuse) (op : V -> V) (r a : nd) (s : mem) : res mem :=
  touch s [r; a] (with_hp s (
    if vec then vectorized_unary Z.abs lanes op (hp s) a r
    else match w with
         | RNone => after (nd_loop zero (unary_functor op) BAll true [] [r; a] (hp s))
         | _ => after (nd_loop zero (inplace_unary_functor op) BAll true [] [a] (hp s))
         end)).
Definition right_inplace (op : V -> V -> V) : heap -> list (nat * Z) -> heap := fun h ps =>
  match ps with [y; x] => store h y (op (load h x) (load h y)) | _ => h end.
Definition run_bin (vec : bool) (w : reuse) (op : V -> V -> V) (r : nd) (x y : ov) (s : mem) : res mem :=
  match x, y with
  | OA a, OA b =>
      touch s [r; a; b] (with_hp s (
        if vec then vectorized_binary Z.abs lanes op (hp s) a b r
        else match w with
             | RLeft => after (nd_loop zero (inplace_binary_functor op) BAll true [] [a; b] (hp s))
             | RRight => after (nd_loop zero (right_inplace op) BAll true [] [b; a] (hp s))
             | RNone => after (nd_loop zero (binary_functor op) BAll true [] [r; a; b] (hp s))
             end))
  | OA a, ON v =>
      touch s [r; a] (with_hp s (
        match w with
        | RLeft => after (nd_loop zero (inplace_scalar_functor op v) BAll true [] [a] (hp s))
        | _ => after (nd_loop zero (scalar_functor op v) BAll true [] [r; a] (hp s))
        end))
  | ON v, OA b =>
      touch s [r; b] (with_hp s (
        match w with
        | RRight => after (nd_loop zero (inplace_unary_functor (fun x => op v x)) BAll true [] [b] (hp s))
        | _ => after (nd_loop zero (right_scalar_functor op v) BAll true [] [r; b] (hp s))
        end))
  | ON _, ON _ => Undef (* an assertion *)
  end.

(** expr.cpp:653-656 *)
Definition freeable (e : fx) : bool := match e with FArr _ _ fr => fr | FNum _ _ => false | _ => true end.
Definition is_tmp (dt nd : nat) (e : fx) : bool := freeable e && (dtype e =? dt)%nat && (ndims e =? nd)%nat.
Definition free_if (b : bool) (o : ov) (s : mem) : res mem :=
  if b then match o with OA a => free a s | ON _ => Undef end else Ok s.
Definition arr (o : ov) : res nd := match o with OA a => Ok a | ON _ => Undef end.

(** expr.cpp:602-901 [codegenSequentialEval] *)
Fixpoint seqeval (e : fx) (s : mem) : res (mem * ov) :=
  match e with
  | FArr _ a _ => Ok (s, OA a)
  | FNum _ v => Ok (s, ON v)
  | FUn dt vec op l =>
      '(s, lv) <- seqeval l s ;;
      a <- arr lv ;;
      let lt := is_tmp dt (ndims e) l in
      let '(s, r) := if lt then (s, a) else create lv (shape a) (szof dt) s in
      s <- run_un vec (if lt then RLeft else RNone) op r a s ;;
      s <- free_if (negb lt && freeable l) lv s ;;
      Ok (s, OA r)
  | FBin dt vec op l r =>
      '(s, lv) <- seqeval l s ;;
      '(s, rv) <- seqeval r s ;;
      sh <- fbroadcast (shape_of lv) (shape_of rv) ;;
      let like := if (ndims l <? ndims r)%nat then rv else lv in
      let lt := is_tmp dt (ndims e) l in
      let rt := is_tmp dt (ndims e) r in
      let lcond := list_eqb (shape_of lv) sh in
      let rcond := list_eqb (shape_of rv) sh in
      let new := create like sh (szof dt) s in
      '(s, res, w, fl, fr) <-
        (if lt && (ndims r =? 0)%nat then a <- arr lv ;; Ok (s, a, RLeft, false, false)
         else if rt && (ndims l =? 0)%nat then b <- arr rv ;; Ok (s, b, RRight, false, false)
         else if negb lt && negb rt then Ok (fst new, snd new, RNone, freeable l, freeable r)
         else if lt && rt then
           if lcond then a <- arr lv ;; Ok (s, a, RNone, false, true)
           else if rcond then b <- arr rv ;; Ok (s, b, RNone, true, false)
           else Ok (fst new, snd new, RNone, true, true)
         else if lt then
           if lcond then a <- arr lv ;; Ok (s, a, RNone, false, freeable r)
           else Ok (fst new, snd new, RNone, true, freeable r)
         else
           if rcond then b <- arr rv ;; Ok (s, b, RNone, freeable l, false)
           else Ok (fst new, snd new, RNone, freeable l, true)) ;;
      s <- run_bin vec w op res lv rv s ;;
      s <- free_if fl lv s ;;
      s <- free_if fr rv s ;;
      Ok (s, OA res)
  end.

(** expr.cpp:942-988 [codegenScalarExpr]: the value for one element; it takes the elements of the array leaves in order *)
Fixpoint scalar (e : fx) (vs : list V) : V * list V :=
  match e with
  | FArr _ _ _ => (hd zero vs, tl vs)
  | FNum _ v => (v, vs)
  | FUn _ _ op l => let '(x, vs) := scalar l vs in (op x, vs)
  | FBin _ _ op l r => let '(x, vs) := scalar l vs in let '(y, vs) := scalar r vs in (op x y, vs)
  end.
Definition scalar_fn (e : fx) : heap -> list (nat * Z) -> heap := fun h ps =>
  match ps with o :: ins => store h o (fst (scalar e (map (load h) ins))) | [] => h end.
(** expr.cpp:503-600 [codegenFusedEval] *)
Fixpoint free_all (l : list (nd * bool)) (s : mem) : res mem :=
  match l with
  | [] => Ok s
  | (a, fr) :: l => s <- (if fr then free a s else Ok s) ;; free_all l s
  end.
Definition fused (e : fx) (s : mem) : res (mem * ov) :=
  touch s (map fst (arrays e)) (
    '(h, r) <- first_result (nd_loop zero (scalar_fn e) BAll true [szof (dtype e)] (map fst (arrays e)) (hp s)) ;;
    s <- free_all (arrays e) (Mem h (freed s)) ;;
    Ok (s, OA r)).

(** expr.cpp:469-501 [codegenBroadcasts] *)
Definition differ (e : fx) : bool :=
  match arrays e with
  | [] => false
  | (a, _) :: l => existsb (fun x => negb (list_eqb (shape (fst x)) (shape a))) l
  end.

(** numpy.cpp:739-789 [optimizeHelper].  [decide] is what the costs and the broadcast
    information say about an expression: fuse, fuse unless shapes differ, or neither. *)
Inductive choice := CFuse | CCond | CNone.
Context (decide : fx -> choice).
Definition fuse_now (e : fx) (s : mem) : option (res (mem * ov)) :=
  if (depth e <=? 2)%nat then None
  else match decide e with
       | CFuse => Some (fused e s)
       | CCond => Some (if differ e then seqeval e s else fused e s)
       | CNone => None
       end.
Fixpoint pass (e : fx) (s : mem) : res (mem * fx * bool) :=
  match fuse_now e s with
  | Some m => '(s, o) <- m ;; a <- arr o ;; Ok (s, FArr (dtype e) a true, true)
  | None =>
      match e with
      | FUn dt vec op l => '(s, l, b) <- pass l s ;; Ok (s, FUn dt vec op l, b)
      | FBin dt vec op l r => '(s, l, b) <- pass l s ;; '(s, r, b') <- pass r s ;; Ok (s, FBin dt vec op l r, b || b')
      | _ => Ok (s, e, false)
      end
  end.
Fixpoint passes (fuel : nat) (e : fx) (s : mem) : res (mem * fx) :=
  match fuel with
  | O => NoFuel
  | S fuel => '(s, e, changed) <- pass e s ;; if changed then passes fuel e s else Ok (s, e)
  end.
Definition optimized (e : fx) (s : mem) : res (mem * ov) :=
  '(s, e) <- passes (nodes e) e s ;; seqeval e s.
End Fusion.
