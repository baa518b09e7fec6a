(** What the theorems about the event loop talk about. *)
From Coq Require Import List ZArith Bool.
From Verif.Common Require Import Result.
From Verif.Async Require Import Model.
Import ListNotations.

(** The work waiting to run, first the one that runs next *)
Fixpoint follow (fuel : nat) (q : queue) (i : option nat) : list work :=
  match fuel, i with
  | S fuel, Some i =>
      match nth_error (q_nodes q) i with Some n => n_work n :: follow fuel q (n_next n) | None => [] end
  | _, _ => []
  end.
Definition waiting (q : queue) : list work := follow (length (q_nodes q)) q (q_head q).
Definition ready (s : world) : list work := waiting (w_queue s).
(** The work that was run, in the order it was started *)
Definition started (s : world) : list work := rev (w_ran s).

(** The timers that have not expired *)
Definition pending_timers (s : world) : list nat := firstn (ts_len (w_timers s)) (ts_arr (w_timers s)).
Definition deadline (s : world) (k : nat) : option Z := option_map t_when (nth_error (ts_objs (w_timers s)) k).
(** The callback of a timer, unless it was cancelled *)
Definition timer_work (objs : list timer) (k : nat) : list work :=
  match nth_error objs k with
  | Some t => match w_coro (t_work t) with Some _ => [t_work t] | None => [] end
  | None => []
  end.

Inductive subseq {A} : list A -> list A -> Prop :=
| sub_nil : subseq [] []
| sub_keep x l l' : subseq l l' -> subseq (x :: l) (x :: l')
| sub_drop x l l' : subseq l l' -> subseq l (x :: l').

(** States that programs reach *)
Definition reach (code : nat -> list resp -> act) (s : world) : Prop := exists ls, run code new_loop ls = Ok s.

(** The action a label stands for *)
Definition action (code : nat -> list resp -> act) (s : world) (l : label) : option act :=
  match w_mode s, l with
  | Outside, LCall a => Some a
  | Inside _ w, LBody =>
      match w_coro w with
      | Some c => match nth_error (w_coros s) c with
                  | Some x => match c_code x with CUser n => Some (code n (c_hist x)) | _ => None end
                  | None => None
                  end
      | None => None
      end
  | _, _ => None
  end.

(** The nodes of the work that waits, in the same order; handles name nodes *)
Fixpoint follow_nodes (fuel : nat) (q : queue) (i : option nat) : list nat :=
  match fuel, i with
  | S fuel, Some i =>
      match nth_error (q_nodes q) i with Some n => i :: follow_nodes fuel q (n_next n) | None => [] end
  | _, _ => []
  end.
Definition line (s : world) : list nat := follow_nodes (length (q_nodes (w_queue s))) (w_queue s) (q_head (w_queue s)).
Definition work_at (s : world) (i : nat) : option work := option_map n_work (nth_error (q_nodes (w_queue s)) i).

(** Every action of a run satisfies [ok] *)
Fixpoint only (ok : world -> act -> Prop) (code : nat -> list resp -> act) (s : world) (ls : list label) : Prop :=
  match ls with
  | [] => True
  | l :: ls =>
      match action code s l with Some a => ok s a | None => True end /\
      match exec code s l with Ok s1 => only ok code s1 ls | _ => True end
  end.
Definition no_stop (_ : world) (a : act) : Prop := a <> AStop.
Definition no_stop_no_cancel (_ : world) (a : act) : Prop := a <> AStop /\ forall n, a <> ACancelHandle n.

(** Work that belongs to no task: callbacks of the loop, of timers and of futures *)
Definition callback (w : work) : bool := match w_task w with None => true | Some _ => false end.
(** What the timers [ks] add to the queue *)
Definition expired (s : world) (ks : list nat) : list work := concat (map (timer_work (ts_objs (w_timers s))) ks).
Definition due_at (s : world) (now : Z) (k : nat) : Prop := exists d, deadline s k = Some d /\ (d <= now)%Z.
Definition later_than (s : world) (now : Z) (k : nat) : Prop := exists d, deadline s k = Some d /\ (now < d)%Z.
Definition not_later (s : world) (a b : nat) : Prop :=
  exists d e, deadline s a = Some d /\ deadline s b = Some e /\ (d <= e)%Z.

(** The work item the loop is running *)
Definition running (s : world) : list work := match w_mode s with Inside _ w => [w] | _ => [] end.
(** Programs that do not stop the loop and cancel no task and no future that [gather] returned;
    other futures, handles and timers may be cancelled *)
Definition tame (s : world) (a : act) : Prop :=
  match a with
  | AStop => False
  | ACancel i => (forall f, nth_error (w_futs s) i = Some f -> f_task f = None) /\ (forall g x, nth_error (w_gathers s) g = Some x -> g_outer x <> i)
  | _ => True
  end.
Definition tame_reach (code : nat -> list resp -> act) (s : world) : Prop :=
  exists ls, only tame code new_loop ls /\ run code new_loop ls = Ok s.
Definition once {A} (x : A) (l : list A) : Prop := exists a b, l = a ++ x :: b /\ ~ In x (a ++ b).
(** Besides, the future that [gather] returned is completed by the loop only *)
Definition clean (s : world) (a : act) : Prop :=
  tame s a /\
  match a with
  | ASetResult i _ | ASetException i _ => forall g x, nth_error (w_gathers s) g = Some x -> g_outer x <> i
  | _ => True
  end.
Definition clean_reach (code : nat -> list resp -> act) (s : world) : Prop :=
  exists ls, only clean code new_loop ls /\ run code new_loop ls = Ok s.
