(** Model of the combinatoric iterators of /repo/stdlib/itertools.codon:
    [product] (both overloads), [combinations] (both), [combinations_with_
    replacement] (both) and [permutations] (both helpers).

    A generator is drained: the model returns the list of the values it yields,
    in order, or [NoFuel] when the bound on the number of yields is reached
    (the theorems say which bound suffices).  A yielded list is a value: the
    model does not let the consumer mutate a list that was yielded to it.
    Raw pointers ([Ptr[int](n)], the address of a tuple) are lists whose cells
    are read and written with [get] and [set]; an access outside is [Undef].
    The cells of an allocated but unwritten buffer are [None]s ([empty()] in the
    code), and reading one where a value is needed is [Undef].
    [for j in range(a, b)] loops are recursions on the number of rounds left.
    Lengths and indices are naturals; machine overflow of [n * repeat] is not
    modelled. *)
From Coq Require Import List ZArith Bool Arith.
From Verif.Common Require Import Result Arr.
Import ListNotations.
Local Open Scope res_scope.

(** Ptr.__getitem__ / Ptr.__setitem__, /repo/stdlib/internal/types/ptr.codon:
    no bounds check in the code. *)
Definition get {A} (l : list A) (i : nat) : res A :=
  match nth_error l i with Some x => Ok x | None => Undef end.

Definition set {A} (l : list A) (i : nat) (x : A) : res (list A) :=
  if i <? length l then Ok (upd_nat l i x) else Undef.

(** Drains a generator of the shape [while True: yield out; advance or break],
    which all the functions below have (itertools.codon:305-324, 365-383,
    403-421, 451-468, 490-507, 540-556, 589-619, 651-680). *)
Fixpoint drain {S V} (fuel : nat) (step : S -> res (option S)) (out : S -> res V) (s : S)
  : res (list V) :=
  match fuel with
  | O => NoFuel
  | Datatypes.S f =>
      v <- out s ;;
      o <- step s ;;
      match o with
      | None => Ok [v]
      | Some s' => vs <- drain f step out s' ;; Ok (v :: vs)
      end
  end.

(** [result[i] = pool[indices[i]]; i += 1] while rounds are left:
    itertools.codon:419-421, 466-468, and the [for k in range(i, r)] loops of
    611-613, 672-674. *)
Fixpoint emit {A} (pool : list A) (ind : list nat) (result : list (option A)) (i rounds : nat)
  : res (list (option A)) :=
  match rounds with
  | O => Ok result
  | S k =>
      j <- get ind i ;;
      x <- get pool j ;;
      result <- set result i (Some x) ;;
      emit pool ind result (S i) k
  end.

(** [yield result]: all cells must have been written. *)
Fixpoint all_written {A} (l : list (option A)) : res (list A) :=
  match l with
  | [] => Ok []
  | None :: _ => Undef
  | Some x :: t => r <- all_written t ;; Ok (x :: r)
  end.

(** [for i in range(k): p[i] = f(i)] from [i] on. *)
Fixpoint init_cells (p : list nat) (f : nat -> nat) (i rounds : nat) : res (list nat) :=
  match rounds with
  | O => Ok p
  | S k => p <- set p i (f i) ;; init_cells p f (S i) k
  end.

(** [for i in range(r): result[i] = pool[i]], itertools.codon:399-401, 447-449,
    586-587, 648-649.  The list variants append to an empty list of capacity
    [r], the tuple variants write into the cells of an uninitialised tuple: both
    leave the same cells, the model writes cells. *)
Fixpoint init_result {A} (pool : list A) (result : list (option A)) (i rounds : nat)
  : res (list (option A)) :=
  match rounds with
  | O => Ok result
  | S k => x <- get pool i ;; result <- set result i (Some x) ;; init_result pool result (S i) k
  end.

(** ** combinations, itertools.codon:385-468 *)

(** [while i >= 0 and indices[i] == i + n - r: i -= 1] started at [k - 1];
    [None] is [i < 0] (itertools.codon:406-411, 454-459). *)
Fixpoint comb_find (ind : list nat) (n r k : nat) : res (option nat) :=
  match k with
  | O => Ok None
  | S i =>
      v <- get ind i ;;
      if v =? i + n - r then comb_find ind n r i else Ok (Some i)
  end.

(** [for j in range(i + 1, r): indices[j] = indices[j-1] + 1],
    itertools.codon:415-416, 463-464. *)
Fixpoint comb_fill (ind : list nat) (j rounds : nat) : res (list nat) :=
  match rounds with
  | O => Ok ind
  | S k => v <- get ind (j - 1) ;; ind <- set ind j (v + 1) ;; comb_fill ind (S j) k
  end.

(** One round of the loop after the yield (itertools.codon:406-421, 454-468). *)
Definition comb_step {A} (pool : list A) (n r : nat) (s : list nat * list (option A))
  : res (option (list nat * list (option A))) :=
  let '(ind, result) := s in
  o <- comb_find ind n r r ;;
  match o with
  | None => Ok None
  | Some i =>
      v <- get ind i ;;
      ind <- set ind i (v + 1) ;;
      ind <- comb_fill ind (i + 1) (r - (i + 1)) ;;
      result <- emit pool ind result i (r - i) ;;
      Ok (Some (ind, result))
  end.

(** combinations(pool, r), itertools.codon:385-421 (run-time [r]) and 423-468
    ([Literal] [r]; a negative [r] is then a compile-time error). *)
Definition combinations {A} (fuel : nat) (pool : list A) (r : Z) : res (list (list A)) :=
  if (r <? 0)%Z then Raise ValueError
  else
    let r := Z.to_nat r in
    let n := length pool in
    if n <? r then Ok []
    else
      ind <- init_cells (repeat 0 r) (fun i => i) 0 r ;;
      result <- init_result pool (repeat None r) 0 r ;;
      drain fuel (comb_step pool n r) (fun s => all_written (snd s)) (ind, result).

(** ** combinations_with_replacement, itertools.codon:470-556 *)

(** [while i >= 0 and indices[i] == n - 1: i -= 1], itertools.codon:493-498, 543-548. *)
Fixpoint cwr_find (ind : list nat) (n k : nat) : res (option nat) :=
  match k with
  | O => Ok None
  | S i =>
      v <- get ind i ;;
      if v =? n - 1 then cwr_find ind n i else Ok (Some i)
  end.

(** [while i < r: indices[i] = index; result[i] = elem; i += 1],
    itertools.codon:504-507, 553-556. *)
Fixpoint cwr_fill {A} (ind : list nat) (result : list (option A)) (index : nat) (elem : A)
  (i rounds : nat) : res (list nat * list (option A)) :=
  match rounds with
  | O => Ok (ind, result)
  | S k =>
      ind <- set ind i index ;;
      result <- set result i (Some elem) ;;
      cwr_fill ind result index elem (S i) k
  end.

Definition cwr_step {A} (pool : list A) (n r : nat) (s : list nat * list (option A))
  : res (option (list nat * list (option A))) :=
  let '(ind, result) := s in
  o <- cwr_find ind n r ;;
  match o with
  | None => Ok None
  | Some i =>
      v <- get ind i ;;
      let index := v + 1 in
      elem <- get pool index ;;
      s' <- cwr_fill ind result index elem i (r - i) ;;
      Ok (Some s')
  end.

(** [for i in range(r): result[i] = pool[0]], itertools.codon:486-488, 537-538. *)
Fixpoint cwr_init {A} (pool : list A) (result : list (option A)) (i rounds : nat)
  : res (list (option A)) :=
  match rounds with
  | O => Ok result
  | S k => x <- get pool 0 ;; result <- set result i (Some x) ;; cwr_init pool result (S i) k
  end.

(** combinations_with_replacement(pool, r), itertools.codon:470-507 and 509-556
    (where [r == 0] is answered first, with the same single empty result). *)
Definition combinations_with_replacement {A} (fuel : nat) (pool : list A) (r : Z)
  : res (list (list A)) :=
  if (r <? 0)%Z then Raise ValueError
  else
    let r := Z.to_nat r in
    let n := length pool in
    if n =? 0 then (if r =? 0 then Ok [[]] else Ok [])
    else
      ind <- init_cells (repeat 0 r) (fun _ => 0) 0 r ;;
      result <- cwr_init pool (repeat None r) 0 r ;;
      drain fuel (cwr_step pool n r) (fun s => all_written (snd s)) (ind, result).

(** ** permutations, itertools.codon:558-690 *)

(** [for j in range(i, n - 1): indices[j] = indices[j+1]],
    itertools.codon:601-602, 662-663. *)
Fixpoint perm_shift (ind : list nat) (j rounds : nat) : res (list nat) :=
  match rounds with
  | O => Ok ind
  | S k => v <- get ind (j + 1) ;; ind <- set ind j v ;; perm_shift ind (S j) k
  end.

(** [while i >= 0: ...] started at [k - 1]; the result says whether the loop was
    left by [break] (itertools.codon:597-616, 658-677). *)
Fixpoint perm_loop {A} (pool : list A) (n r k : nat) (ind cyc : list nat)
  (result : list (option A)) : res (bool * (list nat * list nat * list (option A))) :=
  match k with
  | O => Ok (false, (ind, cyc, result))
  | S i =>
      c <- get cyc i ;;
      cyc <- set cyc i (c - 1) ;;
      if c - 1 =? 0 then
        index <- get ind i ;;
        ind <- perm_shift ind i (n - 1 - i) ;;
        ind <- set ind (n - 1) index ;;
        cyc <- set cyc i (n - i) ;;
        perm_loop pool n r i ind cyc result
      else
        let j := c - 1 in
        index <- get ind i ;;
        v <- get ind (n - j) ;;
        ind <- set ind i v ;;
        ind <- set ind (n - j) index ;;
        result <- emit pool ind result i (r - i) ;;
        Ok (true, (ind, cyc, result))
  end.

Definition perm_step {A} (pool : list A) (n r : nat)
  (s : list nat * list nat * list (option A))
  : res (option (list nat * list nat * list (option A))) :=
  let '(ind, cyc, result) := s in
  if n =? 0 then Ok None
  else
    ' (broke, s') <- perm_loop pool n r r ind cyc result ;;
    if (broke : bool) then Ok (Some s') else Ok None.

(** permutations(pool, r), itertools.codon:558-619 and 621-680, chosen by
    682-690; [None] for [r] means the length of the pool (562-564, 684). *)
Definition permutations {A} (fuel : nat) (pool : list A) (r : option Z) : res (list (list A)) :=
  let n := length pool in
  let r := match r with None => Z.of_nat n | Some r => r end in
  if (r <? 0)%Z then Raise ValueError
  else
    let r := Z.to_nat r in
    if n <? r then Ok []
    else
      ind <- init_cells (repeat 0 n) (fun i => i) 0 n ;;
      cyc <- init_cells (repeat 0 r) (fun i => n - i) 0 r ;;
      result <- init_result pool (repeat None r) 0 r ;;
      drain fuel (perm_step pool n r) (fun s => all_written (snd s)) (ind, cyc, result).

(** ** product, itertools.codon:273-383 *)

(** [while i >= 0: ...] started at [k - 1], itertools.codon:309-324.  In the
    [Literal] overload (368-381) [result] is not touched in the loop. *)
Fixpoint prod_loop {A} (pools : list (list A)) (k : nat) (ind : list nat)
  (result : list A) : res (bool * (list nat * list A)) :=
  match k with
  | O => Ok (false, (ind, result))
  | S i =>
      pool <- get pools i ;;
      v <- get ind i ;;
      ind <- set ind i (v + 1) ;;
      if v + 1 =? length pool then
        ind <- set ind i 0 ;;
        x <- get pool 0 ;;
        result <- set result i x ;;
        prod_loop pools i ind result
      else
        x <- get pool (v + 1) ;;
        result <- set result i x ;;
        Ok (true, (ind, result))
  end.

Definition prod_step {A} (pools : list (list A)) (s : list nat * list A)
  : res (option (list nat * list A)) :=
  let '(ind, result) := s in
  ' (broke, s') <- prod_loop pools (length pools) ind result ;;
  if (broke : bool) then Ok (Some s') else Ok None.

(** [for i in range(npools): result.append(pools[i][0])], itertools.codon:301-303. *)
Fixpoint firsts {A} (pools : list (list A)) : res (list A) :=
  match pools with
  | [] => Ok []
  | p :: t => x <- get p 0 ;; r <- firsts t ;; Ok (x :: r)
  end.

(** [while i < npools: pools.append(pools[i - nargs])], itertools.codon:296-299. *)
Fixpoint copies {A} (nargs : nat) (pools : list A) (rounds : nat) : res (list A) :=
  match rounds with
  | O => Ok pools
  | S k =>
      p <- get pools (length pools - nargs) ;;
      copies nargs (pools ++ [p]) k
  end.

(** product( *iterables, repeat), itertools.codon:273-324, run-time [repeat]. *)
Definition product {A} (fuel : nat) (iterables : list (list A)) (repeat_ : Z)
  : res (list (list A)) :=
  if (repeat_ <? 0)%Z then Raise ValueError
  else
    let reps := Z.to_nat repeat_ in
    let args := if reps =? 0 then [] else iterables in
    let nargs := length args in
    let npools := nargs * reps in
    if existsb (fun p => length p =? 0) args then Ok []
    else
      pools <- copies nargs args (npools - nargs) ;;
      result <- firsts pools ;;
      drain fuel (prod_step pools) (fun s => Ok (snd s)) (repeat 0 npools, result).

(** The [Literal] overload keeps only the indices, itertools.codon:368-381. *)
Fixpoint sprod_loop {A} (pools : list (list A)) (k : nat) (ind : list nat)
  : res (bool * list nat) :=
  match k with
  | O => Ok (false, ind)
  | S i =>
      pool <- get pools i ;;
      v <- get ind i ;;
      ind <- set ind i (v + 1) ;;
      if v + 1 =? length pool then
        ind <- set ind i 0 ;;
        sprod_loop pools i ind
      else Ok (true, ind)
  end.

(** [tuple(pools[i][indices[i]] for i in ...)], itertools.codon:383; before the
    first round all indices are 0, which is line 363. *)
Fixpoint picks {A} (pools : list (list A)) (ind : list nat) : res (list A) :=
  match pools, ind with
  | [], [] => Ok []
  | p :: ps, i :: is => x <- get p i ;; r <- picks ps is ;; Ok (x :: r)
  | _, _ => Undef
  end.

Definition sprod_step {A} (pools : list (list A)) (ind : list nat) : res (option (list nat)) :=
  ' (broke, ind') <- sprod_loop pools (length pools) ind ;;
  if (broke : bool) then Ok (Some ind') else Ok None.

(** product( *iterables, repeat: Literal[int]), itertools.codon:326-383. *)
Definition product_static {A} (fuel : nat) (iterables : list (list A)) (reps : nat)
  : res (list (list A)) :=
  match reps, iterables with
  | 0, _ => Ok [[]]
  | 1, [a] => Ok (map (fun x => [x]) a)
  | 1, [a; b] => Ok (flat_map (fun x => map (fun y => [x; y]) b) a)
  | 1, [a; b; c] =>
      Ok (flat_map (fun x => flat_map (fun y => map (fun z => [x; y; z]) c) b) a)
  | _, _ =>
      let npools := length iterables * reps in
      let pools := concat (repeat iterables reps) in
      if existsb (fun p => length p =? 0) iterables then Ok []
      else drain fuel (sprod_step pools) (picks pools) (repeat 0 npools)
  end.
