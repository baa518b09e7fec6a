(** Model of the list-addition optimisation:
    /repo/codon/cir/transform/pythonic/list.cpp and its run-time helpers
    /repo/stdlib/internal/types/collections/list.codon:484-523.

    Operand expressions are abstracted to what the transformation distinguishes: a
    list expression, a slice of a list expression, or a list literal.  Evaluating an
    operand may have effects on existing list objects, given by a function on the heap
    of list objects; the list it denotes is named by its index in that heap. *)
From Coq Require Import List ZArith Lia Bool.
From Verif.Common Require Import Result Int64 Arr.
From Verif.List Require Import SliceSpec SliceModel ListModel.
Import ListNotations.
Local Open Scope Z_scope.
Local Open Scope res_scope.

Section Model.
Context {A : Type}.
Notation lst := (lst A).

Definition heap := list lst.
Definition effect := heap -> res heap.

(** list.cpp:56-181: what the three handlers recognise *)
Inductive operand :=
| ODefault (eff : effect) (id : nat)
| OSlice (eff : effect) (id : nat) (s : slice)
| OLiteral (eff : effect) (xs : list A).

(** The source expression: additions of operands, in any association. *)
Inductive expr := Leaf (o : operand) | Add (a b : expr).

Definition fetch (h : heap) (id : nat) : res lst :=
  match nth_error h id with Some l => Ok l | None => Undef end.

Inductive value := Ref (id : nat) | Tmp (l : lst).
Definition deref (h : heap) (v : value) : res lst :=
  match v with Ref id => fetch h id | Tmp l => Ok l end.

(** ** Before: ordinary evaluation, left to right, [__add__] at every node *)
Fixpoint eval (e : expr) (h : heap) : res (heap * value) :=
  match e with
  | Leaf (ODefault eff id) => h1 <- eff h ;; Ok (h1, Ref id)
  | Leaf (OSlice eff id s) =>
      h1 <- eff h ;; l <- fetch h1 id ;; r <- getslice l s ;; Ok (h1, Tmp r)
  | Leaf (OLiteral eff xs) => h1 <- eff h ;; l <- list_new ;; r <- extend l xs ;; Ok (h1, Tmp r)
  | Add a b =>
      '(h1, va) <- eval a h ;;
      '(h2, vb) <- eval b h1 ;;
      x <- deref h2 va ;;
      y <- deref h2 vb ;;
      r <- add x y ;;
      Ok (h2, Tmp r)
  end.

(** ** After *)

(** list.cpp:198-214 [inspect] *)
Fixpoint inspect (e : expr) : list operand :=
  match e with Leaf o => [o] | Add a b => inspect a ++ inspect b end.

(** list.codon:486-487, 495-499 and list.cpp:148: length of an operand *)
Definition opd_len (h : heap) (o : operand) : res Z :=
  match o with
  | ODefault _ id => v <- fetch h id ;; Ok (len v)
  | OSlice _ id s =>
      v <- fetch h id ;;
      if full_slice s then Ok (len v)
      else '(start, stop, step, length) <- adjust_indices s (len v) ;; Ok length
  | OLiteral _ xs => Ok (zlen xs)
  end.

(** list.codon:514-516: for i in range(start, stop, step): ans.arr.ptr[ans.len] = v._get(i) *)
Definition slice_append_body (v : lst) (stop step : Z) (s : lst * Z) : res (lst * Z + lst) :=
  let '(ans, i) := s in
  if (if 0 <? step then i <? stop else stop <? i) then
    x <- get_ v i ;;
    a1 <- set_ ans (len ans) x ;;
    Ok (inl (L (cells a1) (len a1 + 1), w64 (i + step)))
  else Ok (inr ans).

(** list.codon:489-493, 505-506, 510-511: memcpy [n] elements at the end of [ans] *)
Definition memcpy_append (ans v : lst) (start n : Z) : res lst :=
  c <- memmove (cells ans) (len ans) (cells v) start n ;; Ok (L c (len ans + n)).

(** list.codon:501-516 [_list_add_opt_slice_append] *)
Definition slice_append (ans v : lst) (s : slice) : res lst :=
  if full_slice s then memcpy_append ans v 0 (len v)
  else match sl_step s with
  | None =>
      '(start, stop, step, length) <- adjust_indices s (len v) ;;
      memcpy_append ans v start (stop - start)
  | Some _ =>
      '(start, stop, step, length) <- adjust_indices s (len v) ;;
      loop (S (Z.to_nat (len v))) (slice_append_body v stop step) (ans, start)
  end.

(** list.codon:518-520 [_list_add_opt_literal_append], once per element (list.cpp:159-161) *)
Fixpoint literal_append (ans : lst) (xs : list A) : res lst :=
  match xs with
  | [] => Ok ans
  | x :: xs => a1 <- set_ ans (len ans) x ;; literal_append (L (cells a1) (len a1 + 1)) xs
  end.

Definition opd_append (h : heap) (ans : lst) (o : operand) : res lst :=
  match o with
  | ODefault _ id => v <- fetch h id ;; memcpy_append ans v 0 (len v)
  | OSlice _ id s => v <- fetch h id ;; slice_append ans v s
  | OLiteral _ xs => literal_append ans xs
  end.

Definition opd_setup (o : operand) : effect :=
  match o with ODefault e _ => e | OSlice e _ _ => e | OLiteral e _ => e end.

Fixpoint setup (os : list operand) (h : heap) : res heap :=
  match os with [] => Ok h | o :: os => h1 <- opd_setup o h ;; setup os h1 end.

Fixpoint lengths (h : heap) (os : list operand) (n : Z) : res Z :=
  match os with [] => Ok n | o :: os => k <- opd_len h o ;; lengths h os (n + k) end.

Fixpoint appends (h : heap) (os : list operand) (ans : lst) : res lst :=
  match os with [] => Ok ans | o :: os => a1 <- opd_append h ans o ;; appends h os a1 end.

(** list.cpp:216-249 [optimize]: all the setups, then all the lengths, then all the appends *)
Definition fused (e : expr) (h : heap) : res (heap * lst) :=
  let os := inspect e in
  h1 <- setup os h ;;
  n <- lengths h1 os 0 ;;
  ans <- list_new_cap n ;;
  r <- appends h1 os ans ;;
  Ok (h1, r).

End Model.
Arguments operand : clear implicits.
Arguments expr : clear implicits.
Arguments value : clear implicits.
Arguments heap : clear implicits.
Arguments effect : clear implicits.
