(** Model of the entry points [list.sort] and [sorted]:
    /repo/stdlib/internal/sort.codon:9-85 and the list reversal it uses. *)
From Coq Require Import List ZArith Lia Bool.
From Verif.Common Require Import Result Arr.
From Verif.Sort Require Import Model QModel TModel.
Import ListNotations.
Local Open Scope Z_scope.
Local Open Scope res_scope.

(** The values of the [algorithm] argument accepted by sort.codon:44-58. *)
Inductive algo := Auto | Tim | Pdq | Insertion | Heap | Quick.

Section Model.
Context {A : Type} (lt ge eq : A -> A -> bool).

(** /repo/stdlib/internal/types/collections/list.codon:363-370 [reverse]; state (arr, i). *)
Definition list_reverse (arr : list A) (len : Z) : res (list A) :=
  loop (S (Z.to_nat len)) (fun s : list A * Z =>
    let '(arr, i) := s in
    if i <? len / 2 then
      let j := len - i - 1 in
      x <- aget arr i ;; y <- aget arr j ;;
      arr1 <- aset arr i y ;; arr2 <- aset arr1 j x ;;
      Ok (inl (arr2, i + 1))
    else Ok (inr arr)) (arr, 0).

(** sort.codon:43-58 [_sort_list] *)
Definition sort_list (a : algo) (arr : list A) (len : Z) : res (list A) :=
  match a with
  | Auto | Tim => tim_sort_array lt ge arr len
  | Pdq => pdq_sort_array lt arr len
  | Insertion => insertion_sort_array lt arr len
  | Heap => heap_sort_array lt arr len
  | Quick => qsort_array lt eq arr len
  end.

(** sort.codon:60-85 [List.sort].  [has_key]: a key function was given;
    [compat]: the element type satisfies [_is_pdq_compatible] (sort.codon:24-41). *)
Definition list_sort (a : algo) (has_key compat reverse : bool) (arr : list A) (len : Z)
  : res (list A) :=
  arr1 <- (if has_key then sort_list a arr len
           else match a with
                | Auto => if 0 <? len then
                            if compat then pdq_sort_array lt arr len
                            else tim_sort_array lt ge arr len
                          else Ok arr
                | _ => sort_list a arr len
                end) ;;
  if reverse then list_reverse arr1 len else Ok arr1.

(** sort.codon:9-22 [sorted]: sorts a fresh list built from the iterable. *)
Definition sorted_fn (a : algo) (has_key compat reverse : bool) (v : list A) : res (list A) :=
  list_sort a has_key compat reverse v (zlen v).

End Model.
