(** Model of reading compressed files by lines: [gzFile] and [bzFile] of
    stdlib/internal/file.codon (lines 122-252 and 254-399).

    Simplified: a file is its decompressed contents [rest] not yet read, and whether it is damaged
    ([bad]): the decompressor reports an error when everything before the damage has been
    delivered. Sizes are unbounded integers but for the conversions to [i32] in the code. A buffer is
    a list of cells, [None] for a byte never written; accesses outside the buffer and reads of
    such bytes are undefined. The null pointer is the empty buffer. *)
From Coq Require Import List ZArith Bool.
From Verif.Common Require Import Result Arr.
Import ListNotations.
Local Open Scope Z_scope.
Local Open Scope res_scope.

Record file : Type := { sz : Z; buf : list (option Z); rest : list Z; bad : bool }.
Definition i32 (x : Z) : Z := (x + 2 ^ 31) mod 2 ^ 32 - 2 ^ 31.
(** [p[i]] of a byte pointer *)
Definition cell (b : list (option Z)) (i : Z) : res Z :=
  c <- aget b i ;; match c with Some x => Ok x | None => Undef end.
(** [memcpy(b + off, bs, len(bs))] *)
Fixpoint put (b : list (option Z)) (off : Z) (bs : list Z) : res (list (option Z)) :=
  match bs with [] => Ok b | x :: bs => b <- aset b off (Some x) ;; put b (off + 1) bs end.
Definition alloc (n : Z) : list (option Z) := repeat None (Z.to_nat n).
(** [realloc(p, newsz, oldsz)]: gc.codon:84-85 *)
Definition grow (b : list (option Z)) (newsz oldsz : Z) : list (option Z) := firstn (Z.to_nat oldsz) b ++ alloc (newsz - oldsz).
(** [str(p, n)], read at once *)
Fixpoint str_of (b : list (option Z)) (i : Z) (n : nat) : res (list Z) :=
  match n with O => Ok [] | S n => x <- cell b i ;; l <- str_of b (i + 1) n ;; Ok (x :: l) end.

(** At most [n] bytes, up to the first newline. *)
Fixpoint take_line (n : Z) (l : list Z) : list Z * list Z :=
  match l with
  | [] => ([], [])
  | x :: l' =>
      if n <=? 0 then ([], l)
      else if x =? 10 then ([x], l')
      else let (p, r) := take_line (n - 1) l' in (x :: p, r)
  end.
(** zlib's [gzgets(file, b + off, len)]: [None] is the null pointer. A zero byte ends what was read. *)
Definition gzgets (b : list (option Z)) (l : list Z) (off len : Z) : res (option (list (option Z) * list Z)) :=
  if len <? 1 then Ok None
  else
    let (p, r) := take_line (len - 1) l in
    match p with [] => Ok None | _ => b <- put b off (p ++ [0]) ;; Ok (Some (b, r)) end.
(** C's [strlen(b + i)] *)
Fixpoint strlen (fuel : nat) (b : list (option Z)) (i : Z) : res Z :=
  match fuel with
  | O => NoFuel
  | S fuel => c <- cell b i ;; if c =? 0 then Ok 0 else n <- strlen fuel b (i + 1) ;; Ok (n + 1)
  end.
(** [_gz_errcheck] (file.codon:122-126) *)
Definition gz_failed (f : file) : bool := bad f && match rest f with [] => true | _ => false end.

(** [gzFile._getline] (file.codon:143-165): -1 at the end, else the length of the line at the
    start of the buffer. *)
Fixpoint gz_loop (fuel : nat) (f : file) (offset : Z) : res (Z * file) :=
  match fuel with
  | O => NoFuel
  | S fuel =>
      r <- gzgets (buf f) (rest f) offset (i32 (sz f - offset)) ;;
      match r with
      | None => if gz_failed f then Raise OtherError else if offset =? 0 then Ok (-1, f) else Ok (offset, f)
      | Some (b, r) =>
          n <- strlen (S (length b)) b offset ;;
          let offset := offset + n in
          c <- cell b (offset - 1) ;;
          if c =? 10 then Ok (offset, {| sz := sz f; buf := b; rest := r; bad := bad f |})
          else
            let oldsz := sz f in
            let newsz := oldsz * 2 in
            gz_loop fuel {| sz := newsz; buf := grow b newsz oldsz; rest := r; bad := bad f |} offset
      end
  end.
Definition with_buffer (f : file) : file :=
  match buf f with [] => {| sz := 128; buf := alloc 128; rest := rest f; bad := bad f |} | _ => f end.
Definition gz_getline (fuel : nat) (f : file) : res (Z * file) := gz_loop fuel (with_buffer f) 0.

(** [bzFile._gets(b + off, n)] (file.codon:379-399); -1 if the library reports an error *)
Fixpoint bz_gets_loop (damaged : bool) (l : list Z) (b : list (option Z)) (off n i : Z) : res (Z * list (option Z) * list Z) :=
  if i <? n - 1 then
    match l with
    | [] => if damaged then Ok (-1, b, l) else Ok (i, b, l)
    | x :: l =>
        b <- aset b (off + i) (Some x) ;;
        let i := i + 1 in
        if x =? 10 then Ok (i, b, l) else bz_gets_loop damaged l b off n i
    end
  else Ok (i, b, l).
Definition bz_gets (damaged : bool) (l : list Z) (b : list (option Z)) (off n : Z) : res (Z * list (option Z) * list Z) :=
  if n <=? 0 then Ok (0, b, l) else bz_gets_loop damaged l b off n 0.
(** [bzFile._getline] (file.codon:275-302); after -1, [_bz_errcheck] raises. *)
Fixpoint bz_loop (fuel : nat) (f : file) (offset : Z) : res (Z * file) :=
  match fuel with
  | O => NoFuel
  | S fuel =>
      ' (m, b, r) <- bz_gets (bad f) (rest f) (buf f) offset (sz f - offset) ;;
      if m =? 0 then
        if offset =? 0 then Ok (-1, {| sz := sz f; buf := b; rest := r; bad := bad f |})
        else Ok (offset, {| sz := sz f; buf := b; rest := r; bad := bad f |})
      else if m <? 0 then Raise OtherError
      else
        let offset := offset + m in
        c <- cell b (offset - 1) ;;
        if c =? 10 then Ok (offset, {| sz := sz f; buf := b; rest := r; bad := bad f |})
        else
          let oldsz := sz f in
          let newsz := oldsz * 2 in
          bz_loop fuel {| sz := newsz; buf := grow b newsz oldsz; rest := r; bad := bad f |} offset
  end.
Definition bz_getline (fuel : nat) (f : file) : res (Z * file) := bz_loop fuel (with_buffer f) 0.

(** [__iter__]/[_iter] and [_iter_trim_newline] (file.codon:167-169, 226-245 and 304-306,
    351-370): the strings yielded, and how the iteration ends. *)
Fixpoint iter (getline : nat -> file -> res (Z * file)) (trim : bool) (fuel : nat) (f : file) : list (list Z) * res file :=
  match fuel with
  | O => ([], NoFuel)
  | S n =>
      match getline fuel f with
      | Ok (rd, f) =>
          if rd =? -1 then ([], Ok f)
          else
            match (rd <- (if trim then c <- cell (buf f) (rd - 1) ;; Ok (if c =? 10 then rd - 1 else rd) else Ok rd) ;;
                   str_of (buf f) 0 (Z.to_nat rd)) with
            | Ok s => let (l, e) := iter getline trim n f in (s :: l, e)
            | Raise e => ([], Raise e)
            | Undef => ([], Undef)
            | NoFuel => ([], NoFuel)
            end
      | Raise e => ([], Raise e)
      | Undef => ([], Undef)
      | NoFuel => ([], NoFuel)
      end
  end.
(** [read()] (file.codon:197-204, 334-341) *)
Definition read_all (getline : nat -> file -> res (Z * file)) (fuel : nat) (f : file) : res (list Z) :=
  let (l, e) := iter getline false fuel f in _ <- e ;; Ok (concat l).
(** A file just opened *)
Definition opened (contents : list Z) (damaged : bool) : file := {| sz := 0; buf := []; rest := contents; bad := damaged |}.
