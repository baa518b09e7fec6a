(** The event loop, futures and tasks: /repo/stdlib/asyncio.codon, and the code that [await]
    becomes (/repo/codon/cir/transform/lowering/await.cpp).

    Objects live in lists indexed by their number.  One loop is modelled, used by one thread;
    every API call is one step.  Locks are not part of the state: [std::timed_mutex::lock] by
    the thread that owns the mutex is undefined behaviour, and the two places that can take a
    lock twice ([call_soon_threadsafe] and [Task.cancel]) say so.

    User code is a table [code]: given the answers it got so far, a body decides what to do
    next.  A call that raises answers [RErr]; a body that does not handle it does [ARaise].
    Coroutines that are awaited directly are part of the body of their task.

    Not modelled: [close], several loops or threads, [nan] deadlines, the texts of exceptions,
    custom [__await__], asynchronous generators. *)
From Coq Require Import List ZArith Bool.
From Verif.Common Require Import Result.
Import ListNotations.
Local Open Scope res_scope.

(** Exceptions user code can see or raise *)
Inductive pyexn := ECancelled | EInvalidState | EValue | ERuntime | ESystemExit | EAssertion | EUser (n : Z).

Fixpoint upd {A} (l : list A) (i : nat) (x : A) : list A :=
  match l, i with
  | [], _ => []
  | _ :: l, O => x :: l
  | y :: l, S i => y :: upd l i x
  end.

(** asyncio.codon:21-25, 113-135 [WorkItem]: coroutine and task; a cancelled item has no
    coroutine *)
Record work := W { w_coro : option nat; w_task : option nat }.
Definition no_work : work := W None None.

(** ** The queue of work: a doubly linked list *)

(** asyncio.codon:27-38 [WorkNode] *)
Record node := Node { n_work : work; n_prev : option nat; n_next : option nat }.
Record queue := Q { q_nodes : list node; q_head : option nat; q_tail : option nat }.

Definition get_node (q : queue) (i : nat) : res node :=
  match nth_error (q_nodes q) i with Some n => Ok n | None => Undef end.
Definition set_node (q : queue) (i : nat) (n : node) : queue :=
  Q (upd (q_nodes q) i n) (q_head q) (q_tail q).
(** [x.prev = v], [x.next = v] *)
Definition set_prev (q : queue) (i : nat) (v : option nat) : res queue :=
  n <- get_node q i ;; Ok (set_node q i (Node (n_work n) v (n_next n))).
Definition set_next (q : queue) (i : nat) (v : option nat) : res queue :=
  n <- get_node q i ;; Ok (set_node q i (Node (n_work n) (n_prev n) v)).

(** asyncio.codon:371-372 [_work_empty] *)
Definition work_empty (q : queue) : bool := match q_tail q with None => true | Some _ => false end.

(** asyncio.codon:374-384 [_work_enqueue] *)
Definition enqueue (q : queue) (w : work) : res (nat * queue) :=
  let i := length (q_nodes q) in
  let q' := Q (q_nodes q ++ [Node w None None]) (q_head q) (q_tail q) in
  match q_tail q with
  | None => Ok (i, Q (q_nodes q') (Some i) (Some i))
  | Some tail =>
      q' <- set_prev q' i (Some tail) ;;
      q' <- set_next q' tail (Some i) ;;
      Ok (i, Q (q_nodes q') (q_head q') (Some i))
  end.

(** asyncio.codon:386-395 [_work_dequeue]; reading a field of [None] raises ValueError
    (optional.codon:130-133 [unwrap]) *)
Definition dequeue (q : queue) : res (work * queue) :=
  match q_head q with
  | None => Raise ValueError
  | Some head =>
      h <- get_node q head ;;
      let q := Q (q_nodes q) (n_next h) (q_tail q) in
      match n_next h with
      | None => Ok (n_work h, Q (q_nodes q) (q_head q) None)
      | Some nx =>
          q <- set_prev q nx None ;;
          q <- set_next q head None ;;
          Ok (n_work h, q)
      end
  end.

(** asyncio.codon:397-422 [_cancel] of a node; [true] when it raises (a field of [None] is
    read), after the changes it made *)
Definition cancel_node (q : queue) (i : nat) : res (queue * bool) :=
  n <- get_node q i ;;
  let q := set_node q i (Node no_work (n_prev n) (n_next n)) in
  match q_head q, q_tail q with
  | Some head, Some tail =>
      if i =? head then
        let q := Q (q_nodes q) (n_next n) (q_tail q) in
        match n_next n with
        | None => Ok (Q (q_nodes q) (q_head q) None, false)
        | Some nx => q <- set_prev q nx None ;; q <- set_next q head None ;; Ok (q, false)
        end
      else if i =? tail then
        let q := Q (q_nodes q) (q_head q) (n_prev n) in
        match n_prev n with
        | None => Ok (Q (q_nodes q) None (q_tail q), false)
        | Some pv => q <- set_next q pv None ;; q <- set_prev q tail None ;; Ok (q, false)
        end
      else
        match n_prev n with
        | None => Ok (q, true)
        | Some pv =>
            q <- set_next q pv (n_next n) ;;
            match n_next n with
            | None => Ok (q, true)
            | Some nx => q <- set_prev q nx (n_prev n) ;; Ok (q, false)
            end
        end
  | _, _ => Ok (q, false)
  end.

(** asyncio.codon:231-240 the walk of [_call_soon_no_duplicate] from a node on *)
Fixpoint scheduled (fuel : nat) (q : queue) (i : option nat) (c : option nat) : res bool :=
  match fuel with
  | O => NoFuel
  | S fuel =>
      match i with
      | None => Ok false
      | Some i =>
          n <- get_node q i ;;
          if match w_coro (n_work n), c with
             | Some a, Some b => a =? b | None, None => true | _, _ => false end
          then Ok true else scheduled fuel q (n_next n) c
      end
  end.

(** ** Timers: a binary heap ordered by deadline *)

(** asyncio.codon:40-45 [Timer] *)
Record timer := Timer { t_work : work; t_when : Z }.
(** [_timers], [_timers_len], [_timers_cap]: the array holds timer numbers *)
Record timers := Ts { ts_objs : list timer; ts_arr : list nat; ts_len : nat }.
Definition ts_cap (t : timers) : nat := length (ts_arr t).

Definition read {A} (l : list A) (i : nat) : res A :=
  match nth_error l i with Some x => Ok x | None => Undef end.
Definition write (l : list nat) (i x : nat) : res (list nat) :=
  if i <? length l then Ok (upd l i x) else Undef.
Definition when (objs : list timer) (arr : list nat) (i : nat) : res Z :=
  k <- read arr i ;; t <- read objs k ;; Ok (t_when t).

(** asyncio.codon:427-442 [_timers_reserve], [_timers_swap] *)
Definition reserve (arr : list nat) (new_cap : nat) : list nat :=
  if new_cap <=? length arr then arr else arr ++ repeat O (new_cap - length arr).
Definition swap (arr : list nat) (i j : nat) : res (list nat) :=
  x <- read arr i ;; y <- read arr j ;; arr <- write arr i y ;; write arr j x.

(** asyncio.codon:453-459, the loop of [_timers_push] *)
Fixpoint sift_up (fuel : nat) (objs : list timer) (arr : list nat) (i : nat) : res (list nat) :=
  match fuel with
  | O => NoFuel
  | S fuel =>
      if 0 <? i then
        let parent := (i - 1) / 2 in
        a <- when objs arr parent ;;
        b <- when objs arr i ;;
        if (a <=? b)%Z then Ok arr
        else arr <- swap arr parent i ;; sift_up fuel objs arr parent
      else Ok arr
  end.
(** asyncio.codon:444-459 [_timers_push] of a new timer *)
Definition timers_push (t : timers) (x : timer) : res timers :=
  let k := length (ts_objs t) in
  let objs := ts_objs t ++ [x] in
  let arr := if ts_len t =? ts_cap t then reserve (ts_arr t) (ts_cap t * 2) else ts_arr t in
  let i := ts_len t in
  arr <- write arr i k ;;
  arr <- sift_up (S i) objs arr i ;;
  Ok (Ts objs arr (S i)).

(** asyncio.codon:470-484, the loop of [_timers_pop] *)
Fixpoint sift_down (fuel : nat) (objs : list timer) (arr : list nat) (n i : nat) : res (list nat) :=
  match fuel with
  | O => NoFuel
  | S fuel =>
      let left := 2 * i + 1 in
      let right := 2 * i + 2 in
      smallest <- (if left <? n then
                     a <- when objs arr left ;; b <- when objs arr i ;;
                     Ok (if (a <? b)%Z then left else i)
                   else Ok i) ;;
      smallest <- (if right <? n then
                     a <- when objs arr right ;; b <- when objs arr smallest ;;
                     Ok (if (a <? b)%Z then right else smallest)
                   else Ok smallest) ;;
      if smallest =? i then Ok arr
      else arr <- swap arr i smallest ;; sift_down fuel objs arr n smallest
  end.
(** asyncio.codon:461-486 [_timers_pop] *)
Definition timers_pop (t : timers) : res (nat * timers) :=
  out <- read (ts_arr t) 0 ;;
  let n := ts_len t - 1 in
  if 0 <? n then
    x <- read (ts_arr t) n ;;
    arr <- write (ts_arr t) 0 x ;;
    arr <- sift_down n (ts_objs t) arr n 0 ;;
    Ok (out, Ts (ts_objs t) arr n)
  else Ok (out, Ts (ts_objs t) (ts_arr t) n).

(** asyncio.codon:424-425 [_cancel] of a timer *)
Definition cancel_timer (t : timers) (k : nat) : res timers :=
  x <- read (ts_objs t) k ;; Ok (Ts (upd (ts_objs t) k (Timer no_work (t_when x))) (ts_arr t) (ts_len t)).

(** ** Futures, tasks and coroutines *)

(** Results: numbers stand for the values of user code; [gather] makes tuples, in memory that is
    not initialised *)
Inductive val := VInt (z : Z) | VTuple (l : list val) | VUninit.

(** asyncio.codon:9-12 *)
Inductive fstate := Pending | Finished (v : val) | Failed (e : pyexn) | Cancelled.

(** asyncio.codon:90-107 [Future] (with its callbacks and the capacity of their array) and
    [Task] ([f_task] is the coroutine of a task); the lock a task waits on is named by its
    future *)
Record future := Fut {
  f_state : fstate; f_cbs : list work; f_cap : nat;
  f_task : option nat; f_wait_task : option nat; f_wait_lock : option nat }.

(** What a body is answered *)
Inductive resp := RUnit | RBool (b : bool) | RId (n : nat) | RVal (v : val) | RErr (e : pyexn).

(** What a body does.  A [call_later] is given the deadline [time() + delay].  Arguments name
    objects the loop has handed out; the answer to any other number is an error, without
    effect. *)
Inductive act :=
| ACallSoon (c : nat) | ACallLater (deadline : Z) (c : nat)
| ACancelHandle (n : nat) | ACancelTimer (t : nat)
| AFuture | ASpawn (c : nat)
| ASetResult (f : nat) (v : val) | ASetException (f : nat) (e : pyexn)
| ACancel (f : nat) | AAddCallback (f c : nat)
| AResult (f : nat) | ADone (f : nat) | AGather (fs : list nat) | AAwait (f : nat)
| AStop | AReturn (v : val) | ARaise (e : pyexn).

(** Where a coroutine is: not started, suspended in [await f], running, returned, or left by an
    exception.  Only the final suspension marks a coroutine as done (llvisitor.cpp:2095-2099),
    so one that was left by an exception is not [__done__]; resuming it, or one that returned,
    is undefined. *)
Inductive point := Start | AtAwait (f : nat) | Active | Returned | Broken.
(** The code of a coroutine: user code, or a callback of [gather] number [g]: for its future
    number [i], or for its outer future *)
Inductive codeptr := CUser (n : nat) | CGather (g i : nat) | CGatherCancel (g : nat).
Record coro := Coro { c_code : codeptr; c_hist : list resp; c_at : point }.

(** Outside the loop; between two steps of the loop (running until a future is done, or
    forever); inside a step, running a work item *)
Inductive mode := Outside | Between (target : option nat) | Inside (target : option nat) (w : work).

(** asyncio.codon:906-972 what the callbacks of a [gather] share: the future it returns, the
    futures gathered, the results, and how many are missing *)
Record gather := G { g_outer : nat; g_futs : list nat; g_results : list val; g_remaining : Z }.

(** [w_handles]: the nodes of the handles handed out.  [w_ran] is not part of the program: the work items run so far, the last one first *)
Record world := World {
  w_queue : queue; w_timers : timers; w_futs : list future; w_coros : list coro;
  w_gathers : list gather; w_handles : list nat;
  w_curr : option work; w_running : bool; w_stop : bool; w_mode : mode;
  w_ran : list work }.

Definition set_queue (s : world) x := World x (w_timers s) (w_futs s) (w_coros s) (w_gathers s) (w_handles s) (w_curr s) (w_running s) (w_stop s) (w_mode s) (w_ran s).
Definition set_timers (s : world) x := World (w_queue s) x (w_futs s) (w_coros s) (w_gathers s) (w_handles s) (w_curr s) (w_running s) (w_stop s) (w_mode s) (w_ran s).
Definition set_futs (s : world) x := World (w_queue s) (w_timers s) x (w_coros s) (w_gathers s) (w_handles s) (w_curr s) (w_running s) (w_stop s) (w_mode s) (w_ran s).
Definition set_coros (s : world) x := World (w_queue s) (w_timers s) (w_futs s) x (w_gathers s) (w_handles s) (w_curr s) (w_running s) (w_stop s) (w_mode s) (w_ran s).
Definition set_gathers (s : world) x := World (w_queue s) (w_timers s) (w_futs s) (w_coros s) x (w_handles s) (w_curr s) (w_running s) (w_stop s) (w_mode s) (w_ran s).
Definition set_handles (s : world) x := World (w_queue s) (w_timers s) (w_futs s) (w_coros s) (w_gathers s) x (w_curr s) (w_running s) (w_stop s) (w_mode s) (w_ran s).
Definition set_curr (s : world) x := World (w_queue s) (w_timers s) (w_futs s) (w_coros s) (w_gathers s) (w_handles s) x (w_running s) (w_stop s) (w_mode s) (w_ran s).
Definition set_running (s : world) x := World (w_queue s) (w_timers s) (w_futs s) (w_coros s) (w_gathers s) (w_handles s) (w_curr s) x (w_stop s) (w_mode s) (w_ran s).
Definition set_stop (s : world) x := World (w_queue s) (w_timers s) (w_futs s) (w_coros s) (w_gathers s) (w_handles s) (w_curr s) (w_running s) x (w_mode s) (w_ran s).
Definition set_mode (s : world) x := World (w_queue s) (w_timers s) (w_futs s) (w_coros s) (w_gathers s) (w_handles s) (w_curr s) (w_running s) (w_stop s) x (w_ran s).
Definition set_ran (s : world) x := World (w_queue s) (w_timers s) (w_futs s) (w_coros s) (w_gathers s) (w_handles s) (w_curr s) (w_running s) (w_stop s) (w_mode s) x.

(** asyncio.codon:177-188 [EventLoop.__init__] *)
Definition new_loop : world :=
  World (Q [] None None) (Ts [] (repeat O 8) 0) [] [] [] [] None false false Outside [].

(** asyncio.codon:224-229 [_call_soon] *)
Definition call_soon_work (s : world) (w : work) : res (nat * world) :=
  ' (i, q) <- enqueue (w_queue s) w ;; Ok (i, set_queue s q).
(** asyncio.codon:231-240 [_call_soon_no_duplicate] *)
Definition call_soon_no_duplicate (s : world) (w : work) : res world :=
  let q := w_queue s in
  b <- scheduled (S (length (q_nodes q))) q (q_head q) (w_coro w) ;;
  if (b : bool) then Ok s else ' (_, s) <- call_soon_work s w ;; Ok s.

Definition new_coro (s : world) (c : codeptr) : nat * world :=
  (length (w_coros s), set_coros s (w_coros s ++ [Coro c [] Start])).

(** asyncio.codon:242-244 [call_soon]: the callback is the body of a coroutine that never
    suspends *)
Definition call_soon (s : world) (c : nat) : res (nat * world) :=
  let '(k, s) := new_coro s (CUser c) in
  ' (n, s) <- call_soon_work s (W (Some k) None) ;;
  Ok (length (w_handles s), set_handles s (w_handles s ++ [n])).
(** asyncio.codon:246-248 [call_soon_threadsafe]: takes the lock of the loop twice *)
Definition call_soon_threadsafe (s : world) (c : nat) : res (nat * world) := Undef.

(** asyncio.codon:250-260 [_call_later], [call_later], with the deadline *)
Definition call_later (s : world) (deadline : Z) (c : nat) : res (nat * world) :=
  let '(k, s) := new_coro s (CUser c) in
  t <- timers_push (w_timers s) (Timer (W (Some k) None) deadline) ;;
  Ok (length (ts_objs (w_timers s)), set_timers s t).

(** asyncio.codon:500-514 [Future.__init__], 727-738 [Task.__init__], 491-496 [create_task] *)
Definition new_future (s : world) (task : option nat) : nat * world :=
  (length (w_futs s), set_futs s (w_futs s ++ [Fut Pending [] 0 task None None])).
Definition create_task (s : world) (c : nat) : res (nat * world) :=
  let '(k, s) := new_coro s (CUser c) in
  let '(t, s) := new_future s (Some k) in
  ' (_, s) <- call_soon_work s (W (Some k) (Some t)) ;;
  Ok (t, s).

Definition is_done (f : future) : bool := match f_state f with Pending => false | _ => true end.
Definition get_fut (s : world) (i : nat) : res future := read (w_futs s) i.
Definition set_fut (s : world) (i : nat) (f : future) : world := set_futs s (upd (w_futs s) i f).

(** asyncio.codon:528-556 [_add_done_callback] of a future that is not done *)
Definition push_callback (s : world) (i : nat) (w : work) : res world :=
  f <- get_fut s i ;;
  let n := length (f_cbs f) in
  let m := f_cap f in
  let m := if m =? 0 then 1 else if m <=? n then m * 2 else m in
  if n <? m then
    Ok (set_fut s i (Fut (f_state f) (f_cbs f ++ [w]) m (f_task f) (f_wait_task f) (f_wait_lock f)))
  else Undef.
(** asyncio.codon:524-556 [add_done_callback] *)
Definition add_done_callback (s : world) (i : nat) (c : codeptr) : res world :=
  f <- get_fut s i ;;
  let '(k, s) := new_coro s c in
  if is_done f then ' (_, s) <- call_soon_work s (W (Some k) None) ;; Ok s
  else push_callback s i (W (Some k) None).

(** asyncio.codon:558-570 [_schedule_callbacks] of the future [i] *)
Fixpoint schedule_callbacks (s : world) (i : nat) (cbs : list work) : res world :=
  match cbs with
  | [] => Ok s
  | w :: cbs =>
      match w_task w with
      | None => ' (_, s) <- call_soon_work s w ;; schedule_callbacks s i cbs
      | Some t =>
          f <- get_fut s t ;;
          if match f_wait_lock f with Some l => l =? i | None => false end then
            let s := set_fut s t (Fut (f_state f) (f_cbs f) (f_cap f) (f_task f) None None) in
            ' (_, s) <- call_soon_work s w ;; schedule_callbacks s i cbs
          else schedule_callbacks s i cbs
      end
  end.

(** asyncio.codon:584-698: a pending future becomes done, its callbacks are
    scheduled *)
Definition resolve (s : world) (i : nat) (st : fstate) : res world :=
  f <- get_fut s i ;;
  let s := set_fut s i (Fut st [] 0 (f_task f) (f_wait_task f) (f_wait_lock f)) in
  schedule_callbacks s i (f_cbs f).

(** asyncio.codon:572-582 [result] *)
Definition result_of (f : future) : resp :=
  match f_state f with
  | Cancelled => RErr ECancelled
  | Failed e => RErr e
  | Pending => RErr EInvalidState
  | Finished v => RVal v
  end.

(** asyncio.codon:681-698 [Future.cancel], 776-788 [Task.cancel]; [held] are the locks this
    thread holds.  A task stays locked while the task it waits on is cancelled. *)
Fixpoint cancel_future (fuel : nat) (held : list nat) (s : world) (i : nat) : res (bool * world) :=
  match fuel with
  | O => NoFuel
  | S fuel =>
      if existsb (Nat.eqb i) held then Undef
      else
        f <- get_fut s i ;;
        if is_done f then Ok (false, s)
        else
          s <- resolve s i Cancelled ;;
          match f_task f with
          | None => Ok (true, s)
          | Some c =>
              f <- get_fut s i ;;
              s <- (match f_wait_task f with
                    | None => Ok s
                    | Some j =>
                        ' (_, s) <- cancel_future fuel (i :: held) s j ;;
                        f <- get_fut s i ;;
                        Ok (set_fut s i (Fut (f_state f) (f_cbs f) (f_cap f) (f_task f) None None))
                    end) ;;
              s <- call_soon_no_duplicate s (W (Some c) (Some i)) ;;
              Ok (true, s)
          end
  end.

(** asyncio.codon:952-972 [gather] of futures ([ensure_future] makes a task of a coroutine
    first) *)
Fixpoint add_gather_callbacks (s : world) (g k : nat) (fs : list nat) : res world :=
  match fs with
  | [] => Ok s
  | i :: fs => s <- add_done_callback s i (CGather g k) ;; add_gather_callbacks s g (S k) fs
  end.
Definition start_gather (s : world) (fs : list nat) : res (nat * world) :=
  let '(outer, s) := new_future s None in
  match fs with
  | [] => s <- resolve s outer (Finished (VTuple [])) ;; Ok (outer, s)
  | _ =>
      let g := length (w_gathers s) in
      let s := set_gathers s (w_gathers s ++
                 [G outer fs (map (fun _ => VUninit) fs) (Z.of_nat (length fs))]) in
      s <- add_gather_callbacks s g 0 fs ;;
      s <- add_done_callback s outer (CGatherCancel g) ;;
      Ok (outer, s)
  end.

Definition fuel_of (s : world) : nat := S (S (length (w_futs s))).

(** An API call: the answer and the new state.  [AAwait], [AReturn] and [ARaise] are below. *)
Definition call (s : world) (a : act) : res (resp * world) :=
  let with_fut i (k : future -> res (resp * world)) :=
    match nth_error (w_futs s) i with Some f => k f | None => Ok (RErr EValue, s) end in
  match a with
  | ACallSoon c => ' (n, s) <- call_soon s c ;; Ok (RId n, s)
  | ACallLater d c => ' (n, s) <- call_later s d c ;; Ok (RId n, s)
  | ACancelHandle n =>
      (* asyncio.codon:64-71 [Handle.cancel] *)
      match nth_error (w_handles s) n with
      | None => Ok (RErr EValue, s)
      | Some k =>
          nd <- get_node (w_queue s) k ;;
          match w_coro (n_work nd) with
          | Some _ =>
              ' (q, err) <- cancel_node (w_queue s) k ;;
              Ok (if (err : bool) then RErr EValue else RUnit, set_queue s q)
          | None => Ok (RUnit, s)
          end
      end
  | ACancelTimer t =>
      (* asyncio.codon:78-85 [TimerHandle.cancel] *)
      match nth_error (ts_objs (w_timers s)) t with
      | None => Ok (RErr EValue, s)
      | Some x =>
          match w_coro (t_work x) with
          | None => Ok (RUnit, s)
          | Some _ => t <- cancel_timer (w_timers s) t ;; Ok (RUnit, set_timers s t)
          end
      end
  | AFuture => let '(i, s) := new_future s None in Ok (RId i, s)
  | ASpawn c => ' (t, s) <- create_task s c ;; Ok (RId t, s)
  | ASetResult i v =>
      with_fut i (fun f => if is_done f then Ok (RErr EInvalidState, s)
                           else s <- resolve s i (Finished v) ;; Ok (RUnit, s))
  | ASetException i e =>
      with_fut i (fun f => if is_done f then Ok (RErr EInvalidState, s)
                           else s <- resolve s i (Failed e) ;; Ok (RUnit, s))
  | ACancel i =>
      with_fut i (fun f => ' (b, s) <- cancel_future (fuel_of s) [] s i ;; Ok (RBool b, s))
  | AAddCallback i c => with_fut i (fun f => s <- add_done_callback s i (CUser c) ;; Ok (RUnit, s))
  | AResult i => with_fut i (fun f => Ok (result_of f, s))
  | ADone i => with_fut i (fun f => Ok (RBool (is_done f), s))
  | AGather fs =>
      if forallb (fun i => i <? length (w_futs s)) fs then
        ' (i, s) <- start_gather s fs ;; Ok (RId i, s)
      else Ok (RErr EValue, s)
  | AStop => Ok (RUnit, set_stop s true)
  | _ => Ok (RErr EValue, s)
  end.

(** The task of a work item is cancelled: asyncio.codon:834-840 [_cancel_checkpoint] raises *)
Definition cancelled_task (s : world) (w : work) : res bool :=
  match w_task w with
  | None => Ok false
  | Some t => f <- get_fut s t ;; Ok (match f_state f with Cancelled => true | _ => false end)
  end.

Definition get_coro (s : world) (c : nat) : res coro := read (w_coros s) c.
Definition set_coro (s : world) (c : nat) (x : coro) : world := set_coros s (upd (w_coros s) c x).
Definition answer (s : world) (c : nat) (r : resp) : res world :=
  x <- get_coro s c ;; Ok (set_coro s c (Coro (c_code x) (c_hist x ++ [r]) (c_at x))).
Definition move (s : world) (c : nat) (p : point) : res world :=
  x <- get_coro s c ;; Ok (set_coro s c (Coro (c_code x) (c_hist x) p)).

(** asyncio.codon:793-810 [_wait_on]: [true] when the work item was added to the callbacks *)
Definition wait_on (s : world) (i : nat) : res (bool * world) :=
  match w_curr s with
  | None => Ok (false, s)
  | Some w =>
      f <- get_fut s i ;;
      if is_done f then Ok (false, s)
      else
        s <- push_callback s i w ;;
        match w_task w with
        | None => Ok (true, s)
        | Some t =>
            g <- get_fut s t ;;
            let waiting := match f_task f with Some _ => Some i | None => f_wait_task g end in
            Ok (true, set_fut s t (Fut (f_state g) (f_cbs g) (f_cap g) (f_task g) waiting (Some i)))
        end
  end.

(** asyncio.codon:290-295 [g.__resume__()] up to the next thing the body does; await.cpp:50-55
    for a coroutine suspended in [await] *)
Definition resume (s : world) (w : work) (c : nat) : res world :=
  x <- get_coro s c ;;
  match c_at x with
  | Start => move s c Active
  | AtAwait i =>
      s <- move s c Active ;;
      b <- cancelled_task s w ;;
      f <- get_fut s i ;;
      answer s c (if (b : bool) then RErr ECancelled else result_of f)
  | _ => Undef
  end.

(** asyncio.codon:307-329, the end of [_step]: [exc] is the exception caught, [ret] the value
    if the coroutine is done *)
Definition finish_step (s : world) (target : option nat) (w : work) (exc : option pyexn) (ret : option val) : res world :=
  s <- (match w_task w with
        | None => Ok s
        | Some t =>
            f <- get_fut s t ;;
            if is_done f then Ok s
            else match exc, ret with
                 | Some e, _ => resolve s t (Failed e)
                 | None, Some v => resolve s t (Finished v)
                 | None, None => Ok s
                 end
        end) ;;
  Ok (set_mode (set_curr s None) (Between target)).

(** asyncio.codon:269-273 [_enqueue_timers] *)
Fixpoint enqueue_timers (fuel : nat) (s : world) (now : Z) : res world :=
  match fuel with
  | O => NoFuel
  | S fuel =>
      if 0 <? ts_len (w_timers s) then
        d <- when (ts_objs (w_timers s)) (ts_arr (w_timers s)) 0 ;;
        if (d <=? now)%Z then
          ' (k, t) <- timers_pop (w_timers s) ;;
          let s := set_timers s t in
          x <- read (ts_objs t) k ;;
          match w_coro (t_work x) with
          | None => enqueue_timers fuel s now
          | Some _ => ' (_, s) <- call_soon_work s (t_work x) ;; enqueue_timers fuel s now
          end
        else Ok s
      else Ok s
  end.

(** asyncio.codon:275-295 the beginning of [_step] at the time [now] *)
Definition begin_step (s : world) (target : option nat) (now : Z) : res world :=
  s <- enqueue_timers (S (ts_len (w_timers s))) s now ;;
  ' (work, s) <- (if negb (work_empty (w_queue s)) then
                    ' (w, q) <- dequeue (w_queue s) ;;
                    Ok (Some w, set_curr (set_queue s q) (Some w))
                  else Ok (None, s)) ;;
  if w_stop s then Ok (set_mode (set_running s false) Outside)
  else
    match work with
    | None => Ok s
    | Some w =>
        match w_coro w with
        | None => Undef
        | Some c => resume (set_mode (set_ran s (w :: w_ran s)) (Inside target w)) w c
        end
    end.

Definition resolve_if_not_done (s : world) (i : nat) (st : fstate) : res world :=
  f <- get_fut s i ;; if is_done f then Ok s else resolve s i st.
Fixpoint cancel_all (s : world) (fs : list nat) : res world :=
  match fs with [] => Ok s | i :: fs => ' (_, s) <- cancel_future (fuel_of s) [] s i ;; cancel_all s fs end.

(** asyncio.codon:925-940 [GatherCallback.__call__]; the lock of the future is held while the
    outer one gets an exception *)
Definition gather_callback (s : world) (g i : nat) : res world :=
  x <- read (w_gathers s) g ;;
  k <- read (g_futs x) i ;;
  f <- get_fut s k ;;
  match f_state f with
  | Failed e => if g_outer x =? k then Undef else resolve_if_not_done s (g_outer x) (Failed e)
  | st =>
      let results := match st with Finished v => upd (g_results x) i v | _ => g_results x end in
      let s := set_gathers s (upd (w_gathers s) g (G (g_outer x) (g_futs x) results (g_remaining x - 1))) in
      if (g_remaining x =? 1)%Z then resolve_if_not_done s (g_outer x) (Finished (VTuple results)) else Ok s
  end.
(** asyncio.codon:942-950 [CancelCallback.__call__] *)
Definition gather_cancel (s : world) (g : nat) : res world :=
  x <- read (w_gathers s) g ;;
  f <- get_fut s (g_outer x) ;;
  match f_state f with Cancelled => cancel_all s (g_futs x) | _ => Ok s end.

Section Code.
Context (code : nat -> list resp -> act).

(** The running body of user code does its next action *)
Definition user_step (s : world) (target : option nat) (w : work) (c : nat) (a : act) : res world :=
  match a with
  | AReturn v => s <- move s c Returned ;; finish_step s target w None (Some v)
  | ARaise e =>
      s <- move s c Broken ;;
      match e with
      | ECancelled => finish_step s target w None None
      | ESystemExit | EAssertion =>
          (* asyncio.codon:298-303: [_step] and the run function raise; [_running] stays *)
          Ok (set_mode (set_curr s None) Outside)
      | _ => finish_step s target w (Some e) None
      end
  | AAwait i =>
      match w_task w, nth_error (w_futs s) i with
      | Some _, Some f =>
          (* await.cpp:46-60 *)
          b <- cancelled_task s w ;;
          if (b : bool) then answer s c (RErr ECancelled)
          else
            ' (added, s) <- wait_on s i ;;
            if (added : bool) then s <- move s c (AtAwait i) ;; finish_step s target w None None
            else f <- get_fut s i ;; answer s c (result_of f)
      | _, _ => answer s c (RErr EValue)
      end
  | a => ' (r, s) <- call s a ;; answer s c r
  end.
Definition body_step (s : world) (target : option nat) (w : work) : res world :=
  match w_coro w with
  | None => Undef
  | Some c =>
      x <- get_coro s c ;;
      match c_code x with
      | CUser n => user_step s target w c (code n (c_hist x))
      | CGather g i =>
          s <- gather_callback s g i ;; s <- move s c Returned ;; finish_step s target w None None
      | CGatherCancel g =>
          s <- gather_cancel s g ;; s <- move s c Returned ;; finish_step s target w None None
      end
  end.

(** What happens next: a call made outside the loop, the start of [run_forever] or of
    [run_until_complete], a turn of the loop at some time, or an action of the running body *)
Inductive label := LCall (a : act) | LRun (target : option nat) | LTurn (now : Z) | LBody.

Definition target_done (s : world) (target : option nat) : bool :=
  match target with
  | None => false
  | Some i => match nth_error (w_futs s) i with Some f => is_done f | None => true end
  end.

(** asyncio.codon:343-369 [run_forever], [run_until_complete] *)
Definition exec (s : world) (l : label) : res world :=
  match w_mode s, l with
  | Outside, LCall a => ' (_, s) <- call s a ;; Ok s
  | Outside, LRun target =>
      if w_running s then Ok s
      else Ok (set_mode (set_stop (set_running s true) false) (Between target))
  | Between target, LTurn now =>
      if target_done s target then Ok (set_mode (set_running s false) Outside)
      else begin_step s target now
  | Inside target w, LBody => body_step s target w
  | _, _ => Ok s
  end.

Fixpoint run (s : world) (ls : list label) : res world :=
  match ls with [] => Ok s | l :: ls => s <- exec s l ;; run s ls end.
End Code.
