(** Model of generator handles and of the non-combinatoric functions of
    /repo/stdlib/itertools.codon, with [zip] of /repo/stdlib/internal/builtin.codon.

    A generator is a coroutine handle.  Its state says what it will still yield,
    and whether it has run to its end or was destroyed; resuming a finished or a
    destroyed coroutine, and destroying one twice, is undefined (LLVM language
    reference, llvm.coro.resume / llvm.coro.destroy).  A source yields finitely
    many values here; what a function does with the first values of an infinite
    source is what it does with a finite source until the end of it is reached.
    The generators returned by the functions are drained by their consumer, so a
    function is modelled by the list of the values it yields and by what it does
    to its sources. *)
From Coq Require Import List ZArith Bool Arith.
From Verif.Common Require Import Result Int64.
From Verif.Itertools Require Import CombModel.
Import ListNotations.
Local Open Scope res_scope.

(** State of a coroutine: suspended, with the value yielded last if any (its
    promise) and the values to come; at its final suspension; destroyed. *)
Inductive gen (A : Type) : Type :=
| Sus (cur : option A) (rest : list A)
| Fin
| Des.
Arguments Sus {A} _ _.
Arguments Fin {A}.
Arguments Des {A}.

(** [iter(l)] on a container: a fresh coroutine. *)
Definition fresh {A} (l : list A) : gen A := Sus None l.

(** Generator.__resume__, /repo/stdlib/internal/types/generator.codon:54-59. *)
Definition resume {A} (g : gen A) : res (gen A) :=
  match g with
  | Sus _ (x :: r) => Ok (Sus (Some x) r)
  | Sus _ [] => Ok Fin
  | Fin | Des => Undef
  end.

(** Generator.__done__, generator.codon:46-52. *)
Definition is_done {A} (g : gen A) : res bool :=
  match g with Sus _ _ => Ok false | Fin => Ok true | Des => Undef end.

(** Generator.done, generator.codon:17-19. *)
Definition done {A} (g : gen A) : res (bool * gen A) :=
  g <- resume g ;; b <- is_done g ;; Ok (b, g).

(** Generator.__next__, generator.codon:21-25: reads the promise. *)
Definition next {A} (g : gen A) : res A :=
  match g with Sus (Some x) _ => Ok x | _ => Undef end.

(** Generator.destroy, generator.codon:70-75. *)
Definition destroy {A} (g : gen A) : res (gen A) :=
  match g with Des => Undef | _ => Ok Des end.

(** [for x in g: body]: resume, leave and destroy when done; [break] leaves the
    handle as it is (/repo/codon/cir/llvm/llvisitor.cpp:2600-2656).  The body
    returns the new state and whether it breaks. *)
Fixpoint for_rest {A S} (body : A -> S -> S * bool) (rest : list A) (st : S) : S * gen A :=
  match rest with
  | [] => (st, Des)
  | x :: r =>
      let '(st, brk) := body x st in
      if (brk : bool) then (st, Sus (Some x) r) else for_rest body r st
  end.

Definition for_gen {A S} (g : gen A) (body : A -> S -> S * bool) (st : S) : res (S * gen A) :=
  match g with
  | Sus _ rest => Ok (for_rest body rest st)
  | Fin | Des => Undef
  end.

(** ** zip, /repo/stdlib/internal/builtin.codon:195-208 *)

(** The handles are numbers into a heap, so that two arguments may be the same
    generator.  [for i in iters: if i.done(): done = True]: every iterator is
    resumed, also after one was found done (202-204). *)
Fixpoint zip_resume {A} (heap : list (gen A)) (hs : list nat) (fin : bool)
  : res (bool * list (gen A)) :=
  match hs with
  | [] => Ok (fin, heap)
  | h :: hs =>
      g <- get heap h ;;
      ' (b, g) <- done g ;;
      heap <- set heap h g ;;
      zip_resume heap hs (fin || b)
  end.

(** [tuple(i.__next__() for i in iters)], line 206. *)
Fixpoint zip_values {A} (heap : list (gen A)) (hs : list nat) : res (list A) :=
  match hs with
  | [] => Ok []
  | h :: hs => g <- get heap h ;; x <- next g ;; r <- zip_values heap hs ;; Ok (x :: r)
  end.

(** [for i in iters: i.destroy()], lines 207-208. *)
Fixpoint zip_destroy {A} (heap : list (gen A)) (hs : list nat) : res (list (gen A)) :=
  match hs with
  | [] => Ok heap
  | h :: hs => g <- get heap h ;; g <- destroy g ;; heap <- set heap h g ;; zip_destroy heap hs
  end.

(** The rounds, lines 201-208; fuel bounds them. *)
Fixpoint zip_rounds {A} (fuel : nat) (heap : list (gen A)) (hs : list nat)
  : res (list (list A) * list (gen A)) :=
  match fuel with
  | O => NoFuel
  | S f =>
      ' (fin, heap) <- zip_resume heap hs false ;;
      if (fin : bool) then heap <- zip_destroy heap hs ;; Ok ([], heap)
      else
        v <- zip_values heap hs ;;
        ' (vs, heap) <- zip_rounds f heap hs ;;
        Ok (v :: vs, heap)
  end.

(** zip( *args), lines 195-208; no arguments, no values (196-197). *)
Definition zip {A} (fuel : nat) (heap : list (gen A)) (hs : list nat)
  : res (list (list A) * list (gen A)) :=
  match hs with [] => Ok ([], heap) | _ => zip_rounds fuel heap hs end.

(** [zip(a, b)] of two different generators of any types, used by the functions
    below: the values, and what becomes of the two. *)
Fixpoint zip2_rest {A B} (ra : list A) (rb : list B) : list (A * B) :=
  match ra, rb with
  | x :: ra, y :: rb => (x, y) :: zip2_rest ra rb
  | _, _ => []
  end.

Definition zip2 {A B} (a : gen A) (b : gen B) : res (list (A * B) * gen A * gen B) :=
  match a, b with
  | Sus _ ra, Sus _ rb => Ok (zip2_rest ra rb, Des, Des)
  | _, _ => Undef
  end.

(** ** itertools.codon:7-33 *)

(** The first [k] values of count(start, step), itertools.codon:8-13, on ints. *)
Fixpoint count_take (k : nat) (n step : Z) : list Z :=
  match k with O => [] | S k => n :: count_take k (w64 (n + step)) step end.

(** The first [k] values of [while saved: for element in saved: yield element],
    itertools.codon:21-23, with [todo] left of the inner loop. *)
Fixpoint cycle_saved {A} (k : nat) (saved todo : list A) : list A :=
  match k with
  | O => []
  | S k' =>
      match todo with
      | x :: todo => x :: cycle_saved k' saved todo
      | [] => match saved with
              | [] => []
              | x :: todo => x :: cycle_saved k' saved todo
              end
      end
  end.

(** The first [k] values of cycle(iterable), itertools.codon:15-23: the values of
    the source are yielded and saved, in this order. *)
Fixpoint cycle_take {A} (k : nat) (rest saved : list A) : list A :=
  match k with
  | O => []
  | S k' =>
      match rest with
      | x :: rest => x :: cycle_take k' rest (saved ++ [x])
      | [] => cycle_saved k saved []
      end
  end.

(** repeat(object, times), itertools.codon:25-33; the first [k] values. *)
Fixpoint repeat_take {A} (k : nat) (object : A) : list A :=
  match k with O => [] | S k => object :: repeat_take k object end.

Definition repeat_ {A} (k : nat) (object : A) (times : option Z) : list A :=
  match times with
  | None => repeat_take k object
  | Some t => repeat_take (Nat.min k (Z.to_nat t)) object
  end.

(** ** itertools.codon:35-110 *)

(** accumulate with an initial value, itertools.codon:36-42. *)
Definition accumulate_init {A B} (func : B -> A -> B) (initial : B) (it : gen A)
  : res (list B * gen A) :=
  ' (total, out, it) <-
    for_gen it (fun element s =>
      let '(total, out) := s in
      let total := func total element in (total, out ++ [total], false)) (initial, [initial]) ;;
  Ok (out, it).

(** accumulate without one, itertools.codon:44-50. *)
Definition accumulate {A} (func : A -> A -> A) (it : gen A) : res (list A * gen A) :=
  ' (total, out, it) <-
    for_gen it (fun element s =>
      let '(total, out) := s in
      let total := match total with None => element | Some t => func t element end in
      (Some total, out ++ [total], false)) (None, []) ;;
  Ok (out, it).

(** chain( *iterables) and chain.from_iterable, itertools.codon:52-65, on fresh
    iterables. *)
Fixpoint chain {A} (its : list (gen A)) : res (list A * list (gen A)) :=
  match its with
  | [] => Ok ([], [])
  | it :: its =>
      ' (out, it) <- for_gen it (fun element out => (out ++ [element], false)) [] ;;
      ' (outs, its) <- chain its ;;
      Ok (out ++ outs, it :: its)
  end.

(** compress(data, selectors), itertools.codon:67-73. *)
Definition compress {A} (data : gen A) (selectors : gen bool)
  : res (list A * gen A * gen bool) :=
  ' (ps, data, selectors) <- zip2 data selectors ;;
  Ok (map fst (filter snd ps), data, selectors).

(** dropwhile(predicate, iterable), itertools.codon:75-84. *)
Definition dropwhile {A} (predicate : A -> bool) (it : gen A) : res (list A * gen A) :=
  ' (b, out, it) <-
    for_gen it (fun x s =>
      let '(b, out) := s in
      let b := if negb b && negb (predicate x) then true else b in
      (b, if b then out ++ [x] else out, false)) (false, []) ;;
  Ok (out, it).

(** filterfalse(predicate, iterable), itertools.codon:86-92. *)
Definition filterfalse {A} (predicate : A -> bool) (it : gen A) : res (list A * gen A) :=
  for_gen it (fun x out => (if negb (predicate x) then out ++ [x] else out, false)) [].

(** takewhile(predicate, iterable), itertools.codon:175-183. *)
Definition takewhile {A} (predicate : A -> bool) (it : gen A) : res (list A * gen A) :=
  for_gen it (fun x out => if predicate x then (out ++ [x], false) else (out, true)) [].

(** starmap(function, iterable), itertools.codon:170-173. *)
Definition starmap {A B} (function : A -> B) (it : gen A) : res (list B * gen A) :=
  for_gen it (fun x out => (out ++ [function x], false)) [].

(** groupby(iterable, key), itertools.codon:94-110; [ne] is [!=] on the keys. *)
Definition groupby {A K} (ne : K -> K -> bool) (key : A -> K) (it : gen A)
  : res (list (K * list A) * gen A) :=
  ' (currkey, group, out, it) <-
    for_gen it (fun currvalue s =>
      let '(currkey, group, out) := s in
      let k := key currvalue in
      let ck := match currkey with None => k | Some c => c end in
      if ne k ck
      then (Some k, [currvalue], out ++ [(ck, group)], false)
      else (Some ck, group ++ [currvalue], out, false)) (None, [], []) ;;
  Ok (match currkey with None => out | Some c => out ++ [(c, group)] end, it).

(** ** islice, itertools.codon:112-168 *)

(** islice(iterable, stop), lines 112-122. *)
Definition islice_stop {A} (it : gen A) (stop : option Z) : res (list A * gen A) :=
  if match stop with Some s => (s <? 0)%Z | None => false end then Raise ValueError
  else
    ' (i, out, it) <-
      for_gen it (fun x s =>
        let '(i, out) := s in
        if match stop with Some st => (st <=? i)%Z | None => false end then (i, out, true)
        else ((i + 1)%Z, out ++ [x], false)) (0%Z, []) ;;
    Ok (out, it).

(** range.__len__ for a positive step, /repo/stdlib/internal/types/range.codon:81-88. *)
Definition range_len (start stop step : Z) : Z :=
  if ((0 <? step) && (start <? stop))%Z then (1 + (stop - 1 - start) / step)%Z else 0%Z.

(** range.__getitem__ inside its bounds, range.codon:26-35. *)
Definition range_get (start step idx : Z) : Z := (start + idx * step)%Z.

(** [for i, element in zip(range(k), iterable): pass]. *)
Definition skip_zip {A} (k : Z) (it : gen A) : res (gen A) :=
  ' (_, _, it) <- zip2 (fresh (repeat tt (Z.to_nat k))) it ;; Ok it.

(** The loop of lines 156-163; the state is [i], [nexti], [idx], the yields and
    [b]. *)
Definition islice_body {A} (start step N : Z) (element : A) (s : Z * Z * Z * list A * Z)
  : (Z * Z * Z * list A * Z) * bool :=
  let '(i, nexti, idx, out, b) := s in
  if (i =? nexti)%Z then
    let out := out ++ [element] in
    let idx := (idx + 1)%Z in
    if (N <=? idx)%Z then ((i + 1)%Z, nexti, idx, out, i, true)
    else ((i + 1)%Z, range_get start step idx, idx, out, b, false)
  else ((i + 1)%Z, nexti, idx, out, b, false).

(** islice(iterable, start, stop, step), lines 124-168; [sys.maxsize] is 2^63-1. *)
Definition islice {A} (it : gen A) (start stop step : option Z) : res (list A * gen A) :=
  let start := match start with None => 0%Z | Some s => s end in
  let stop := match stop with None => max64 | Some s => s end in
  let step := match step with None => 1%Z | Some s => s end in
  if (start <? 0)%Z || (stop <? 0)%Z then Raise ValueError
  else if (step <? 0)%Z then Raise ValueError
  else if (step =? 0)%Z then Raise ValueError
  else
    let N := range_len start stop step in
    if (N =? 0)%Z then it <- skip_zip start it ;; Ok ([], it)
    else
      ' (i, nexti, idx, out, b, it) <-
        for_gen it (islice_body start step N) (0%Z, range_get start step 0, 0%Z, [], (-1)%Z) ;;
      if (0 <=? b)%Z then it <- skip_zip (stop - (b + 1)) it ;; Ok (out, it)
      else Ok (out, it).

(** ** zip_longest, itertools.codon:206-269 *)

(** Two iterables and a fill value, lines 208-227.  The rounds of
    [while not a.done()]: the state of [b] and [b_done]. *)
Fixpoint zl2_first {A B} (fa : A) (fb : B) (ra : list A) (b : gen B) (b_done : bool)
  : res (list (A * B) * gen B * bool) :=
  match ra with
  | [] => Ok ([], b, b_done)
  | x :: ra =>
      ' (b_done, b) <- (if b_done then Ok (true, b) else done b) ;;
      y <- (if (b_done : bool) then Ok fb else next b) ;;
      ' (out, b, b_done) <- zl2_first fa fb ra b b_done ;;
      Ok ((x, y) :: out, b, b_done)
  end.

(** [while not b.done(): yield fillvalue, b.__next__()], lines 223-225. *)
Definition zl2_second {A B} (fa : A) (b : gen B) : res (list (A * B) * gen B) :=
  match b with
  | Sus _ rb => Ok (map (fun y => (fa, y)) rb, Fin)
  | Fin | Des => Undef
  end.

Definition zip_longest2 {A B} (fa : A) (fb : B) (a : gen A) (b : gen B)
  : res (list (A * B) * gen A * gen B) :=
  match a with
  | Sus _ ra =>
      ' (out1, b, b_done) <- zl2_first fa fb ra b false ;;
      ' (out2, b) <- (if (b_done : bool) then Ok ([], b) else zl2_second fa b) ;;
      a <- destroy (@Fin A) ;;
      b <- destroy b ;;
      Ok (out1 ++ out2, a, b)
  | Fin | Des => Undef
  end.

(** Any other number of iterables and a fill value, lines 228-246: one round of
    [for it in iterators]; [None] is [return]. *)
Fixpoint zl_round {A} (fill : A) (its : list (gen A)) (active : nat)
  : res (option (list A * list (gen A) * nat)) :=
  match its with
  | [] => Ok (Some ([], [], active))
  | it :: its =>
      d <- is_done it ;;
      if (d : bool) then
        o <- zl_round fill its active ;;
        match o with
        | None => Ok None
        | Some (vs, its, active) => Ok (Some (fill :: vs, it :: its, active))
        end
      else
        ' (d, it) <- done it ;;
        if (d : bool) then
          let active := active - 1 in
          if active =? 0 then Ok None
          else
            o <- zl_round fill its active ;;
            match o with
            | None => Ok None
            | Some (vs, its, active) => Ok (Some (fill :: vs, it :: its, active))
            end
        else
          v <- next it ;;
          o <- zl_round fill its active ;;
          match o with
          | None => Ok None
          | Some (vs, its, active) => Ok (Some (v :: vs, it :: its, active))
          end
  end.

Fixpoint zl_rounds {A} (fuel : nat) (fill : A) (its : list (gen A)) (active : nat)
  : res (list (list A)) :=
  match fuel with
  | O => NoFuel
  | S f =>
      o <- zl_round fill its active ;;
      match o with
      | None => Ok []
      | Some (v, its, active) => vs <- zl_rounds f fill its active ;; Ok (v :: vs)
      end
  end.

Definition zip_longest_fill {A} (fuel : nat) (fill : A) (its : list (gen A)) : res (list (list A)) :=
  if length its =? 0 then Ok [] else zl_rounds fuel fill its (length its).

(** Without a fill value, lines 248-269.  [get_next] returns an [Optional]; for
    elements that are themselves [Optional] it does not add a second layer, so
    [lift] says which [Optional] an element becomes: [Some] for ordinary elements,
    the identity for [Optional] ones. *)
Definition get_next {A V} (lift : A -> option V) (it : gen A) : res (option V * gen A) :=
  d <- is_done it ;;
  if (d : bool) then Ok (None, it)
  else
    ' (d, it) <- done it ;;
    if (d : bool) then Ok (None, it)
    else v <- next it ;; Ok (lift v, it).

Fixpoint get_nexts {A V} (lift : A -> option V) (its : list (gen A))
  : res (list (option V) * list (gen A)) :=
  match its with
  | [] => Ok ([], [])
  | it :: its =>
      ' (v, it) <- get_next lift it ;;
      ' (vs, its) <- get_nexts lift its ;;
      Ok (v :: vs, it :: its)
  end.

Fixpoint zip_longest {A V} (fuel : nat) (lift : A -> option V) (its : list (gen A))
  : res (list (list (option V))) :=
  match fuel with
  | O => NoFuel
  | S f =>
      ' (result, its) <- get_nexts lift its ;;
      if forallb (fun a => match a with None => true | Some _ => false end) result then Ok []
      else vs <- zip_longest f lift its ;; Ok (result :: vs)
  end.

(** ** tee, itertools.codon:185-204 *)

(** The shared source, the deques, and which of the generators have returned. *)
Record tees (A : Type) : Type := Tees {
  tee_src : gen A;
  tee_deques : list (list A);
  tee_returned : list bool
}.
Arguments Tees {A} _ _ _.
Arguments tee_src {A} _.
Arguments tee_deques {A} _.
Arguments tee_returned {A} _.

(** tee(iterable, n), lines 187-189, 204. *)
Definition tee {A} (it : gen A) (n : nat) : tees A := Tees it (repeat [] n) (repeat false n).

(** Resuming the [i]-th generator once, lines 191-202: the value it yields, or
    [None] if it returns.  Resuming one that has returned is undefined. *)
Definition tee_next {A} (t : tees A) (i : nat) : res (option A * tees A) :=
  r <- get (tee_returned t) i ;;
  if (r : bool) then Undef
  else
    d <- get (tee_deques t) i ;;
    match d with
    | x :: d =>
        ds <- set (tee_deques t) i d ;;
        Ok (Some x, Tees (tee_src t) ds (tee_returned t))
    | [] =>
        let ret it := rs <- set (tee_returned t) i true ;; Ok (None, Tees it (tee_deques t) rs) in
        b <- is_done (tee_src t) ;;
        if (b : bool) then ret (tee_src t)
        else
          it <- resume (tee_src t) ;;
          b <- is_done it ;;
          if (b : bool) then ret it
          else
            newval <- next it ;;
            let ds := map (fun d => d ++ [newval]) (tee_deques t) in
            d <- get ds i ;;
            match d with
            | [] => Undef
            | x :: d => ds <- set ds i d ;; Ok (Some x, Tees it ds (tee_returned t))
            end
    end.

(** A consumer resumes the generators in some order; what it gets. *)
Fixpoint tee_run {A} (t : tees A) (sched : list nat) : res (list (nat * option A) * tees A) :=
  match sched with
  | [] => Ok ([], t)
  | i :: sched =>
      ' (o, t) <- tee_next t i ;;
      ' (tr, t) <- tee_run t sched ;;
      Ok ((i, o) :: tr, t)
  end.
