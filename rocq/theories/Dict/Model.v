(** Model of Codon's hash tables: /repo/stdlib/internal/khash.codon,
    /repo/stdlib/internal/types/collections/dict.codon and set.codon.

    Simplifications:
    - [__hash__] and [__eq__] of keys are pure functions [hash] and [eqb], and
      [!=] is the negation of [==];
    - [Ptr[T](n)] and [gc.realloc] succeed; blocks are counted in elements; a fresh slot
      is uninitialised ([None]) and reading it is [Undef]; the null pointer is [[]];
    - set.codon's [_kh_*] functions are textually those of dict.codon without the lines
      on [_vals]; sets are modelled as dicts with values of type [unit]. *)
From Coq Require Import List ZArith Lia Bool SpecFloat.
From Verif.Common Require Import Result Int64 Arr.
Import ListNotations.
Local Open Scope Z_scope.
Local Open Scope res_scope.

(** ** khash.codon: two flag bits per bucket, 16 buckets per u32 *)

(** Conversion to [u32]. *)
Definition u32 (z : Z) : Z := z mod 2^32.

(** khash.codon:3-4, 6-7, 9-10: int(flag[i >> 4] >> u32((i & 0xF) << 1)) & m *)
Definition flag_bits (flag : list Z) (i m : Z) : res Z :=
  w <- aget flag (Z.shiftr i 4) ;;
  Ok (Z.land (Z.shiftr w (u32 (Z.shiftl (Z.land i 15) 1))) m).
Definition isempty flag i := flag_bits flag i 2.
Definition isdel flag i := flag_bits flag i 1.
Definition iseither flag i := flag_bits flag i 3.

(** khash.codon:12-13, 15-16, 18-19: flag[i >> 4] &= u32(~(m << ((i & 0xF) << 1))) *)
Definition clear_bits (flag : list Z) (i m : Z) : res (list Z) :=
  w <- aget flag (Z.shiftr i 4) ;;
  aset flag (Z.shiftr i 4) (Z.land w (u32 (Z.lnot (Z.shiftl m (Z.shiftl (Z.land i 15) 1))))).
Definition set_isdel_false flag i := clear_bits flag i 1.
Definition set_isempty_false flag i := clear_bits flag i 2.
Definition set_isboth_false flag i := clear_bits flag i 3.

(** khash.codon:21-22 *)
Definition set_isdel_true (flag : list Z) (i : Z) : res (list Z) :=
  w <- aget flag (Z.shiftr i 4) ;;
  aset flag (Z.shiftr i 4) (Z.lor w (u32 (Z.shiftl 1 (Z.shiftl (Z.land i 15) 1)))).

(** khash.codon:24-25 *)
Definition fsize (m : Z) : Z := if m <? 16 then 1 else Z.shiftr m 4.

(** ** Floats: int(n * 0.77 + 0.5) in binary64 *)

Definition f64_of_Z (n : Z) : spec_float := binary_normalize 53 1024 n 0 false.
(** [int(x)] for a finite float: truncation. *)
Definition f64_trunc (x : spec_float) : Z :=
  match x with
  | S754_finite s m e =>
      let v := if 0 <=? e then Zpos m * 2 ^ e else Zpos m / 2 ^ (- e) in
      if s then - v else v
  | _ => 0
  end.
(** The literal 0.77, nearest double 0x1.8a3d70a3d70a4p-1; 0.5. *)
Definition f77 : spec_float := S754_finite false 6935543426150564 (-53).
Definition fhalf : spec_float := S754_finite false 4503599627370496 (-53).
(** dict.codon:322, 391: int(new_n_buckets * HASH_UPPER + 0.5) *)
Definition upper (n : Z) : Z :=
  f64_trunc (SFadd 53 1024 (SFmul 53 1024 (f64_of_Z n) f77) fhalf).

(** dict.codon:309-320: round up to a power of two, at least 4 *)
Definition smear (s n : Z) : Z := Z.lor n (Z.shiftr n s).
Definition round_up (n : Z) : Z :=
  let n := w64 (n - 1) in
  let n := smear 1 n in
  let n := smear 2 n in
  let n := smear 4 n in
  let n := smear 8 n in
  let n := smear 16 n in
  let n := smear 32 n in
  let n := w64 (n + 1) in
  if n <? 4 then 4 else n.

(** dict.codon:7-9 [_dict_hash] *)
Definition mix (k : Z) : Z := Z.lxor (Z.lxor (Z.shiftr k 33) k) (w64 (Z.shiftl k 11)).

Section Model.
Context {K V : Type} (eqb : K -> K -> bool) (hash : K -> Z).

(** dict.codon:11-22 *)
Record tbl := T {
  nb : Z; sz : Z; nocc : Z; ub : Z;
  flags : list Z; keys : list (option K); vals : list (option V) }.

(** dict.codon:26-33 [_init] *)
Definition new : tbl := T 0 0 0 0 [] [] [].

Definition rd {X} (p : list (option X)) (i : Z) : res X :=
  c <- aget p i ;; match c with Some x => Ok x | None => Undef end.
Definition wr {X} (p : list (option X)) (i : Z) (x : X) : res (list (option X)) :=
  aset p i (Some x).

Definition grow {X} (p : list (option X)) (n : Z) : res (list (option X)) :=
  if n <? 0 then Undef
  else Ok (firstn (Z.to_nat n) p ++ repeat None (Z.to_nat n - length p)).

(** dict.codon:251-259 [_kh_clear]; the loop writes 0xAAAAAAAA to the [fsize] words *)
Definition kh_clear (t : tbl) : res tbl :=
  match flags t with
  | [] => Ok t
  | _ =>
      if zlen (flags t) <? fsize (nb t) then Undef
      else Ok (T (nb t) 0 0 (ub t)
                 (repeat 2863311530 (Z.to_nat (fsize (nb t))) ++
                  skipn (Z.to_nat (fsize (nb t))) (flags t)) (keys t) (vals t))
  end.

(** dict.codon:268-270, 385-387: the loop condition
    [not isempty(flags, i) and (isdel(flags, i) or keys[i] != key)] *)
Definition occupied_other (fl : list Z) (ks : list (option K)) (key : K) (i : Z) : res bool :=
  e <- isempty fl i ;;
  if negb (e =? 0) then Ok false
  else
    d <- isdel fl i ;;
    if negb (d =? 0) then Ok true
    else k <- rd ks i ;; Ok (negb (eqb k key)).

(** dict.codon:268-274; state (i, step) *)
Definition get_body (t : tbl) (key : K) (mask last : Z) (s : Z * Z) : res (Z * Z + Z) :=
  let '(i, step) := s in
  c <- occupied_other (flags t) (keys t) key i ;;
  if (c : bool) then
    let step := step + 1 in
    let i := Z.land (i + step) mask in
    if i =? last then Ok (inr (nb t)) else Ok (inl (i, step))
  else
    e <- iseither (flags t) i ;;
    Ok (inr (if negb (e =? 0) then nb t else i)).

(** dict.codon:261-277 [_kh_get] *)
Definition kh_get (t : tbl) (key : K) : res Z :=
  if nb t =? 0 then Ok 0
  else
    let mask := nb t - 1 in
    let i := Z.land (mix (hash key)) mask in
    loop (S (Z.to_nat (nb t))) (get_body t key mask i) (i, 0).

(** dict.codon:333-335: first empty bucket of the new table; state (i, step) *)
Definition probe_body (nfl : list Z) (mask : Z) (s : Z * Z) : res (Z * Z + Z) :=
  let '(i, step) := s in
  e <- isempty nfl i ;;
  if e =? 0 then
    let step := step + 1 in Ok (inl (Z.land (i + step) mask, step))
  else Ok (inr i).

(** dict.codon:328-348, kick-out loop; state (old flags, new flags, keys, vals, key, val) *)
Definition kick_body (n newn : Z)
  (s : list Z * list Z * list (option K) * list (option V) * K * V)
  : res (list Z * list Z * list (option K) * list (option V) * K * V +
         list Z * list Z * list (option K) * list (option V)) :=
  let '(fl, nfl, ks, vs, key, val) := s in
  let mask := newn - 1 in
  i <- loop (S (Z.to_nat newn)) (probe_body nfl mask) (Z.land (mix (hash key)) mask, 0) ;;
  nfl <- set_isempty_false nfl i ;;
  live <- (if i <? n then e <- iseither fl i ;; Ok (e =? 0) else Ok false) ;;
  if (live : bool) then
    k' <- rd ks i ;; ks <- wr ks i key ;;
    v' <- rd vs i ;; vs <- wr vs i val ;;
    fl <- set_isdel_true fl i ;;
    Ok (inl (fl, nfl, ks, vs, k', v'))
  else
    ks <- wr ks i key ;; vs <- wr vs i val ;;
    Ok (inr (fl, nfl, ks, vs)).

(** dict.codon:321-349, main rehash loop; state (old flags, new flags, keys, vals, j) *)
Definition rehash_body (n newn : Z)
  (s : list Z * list Z * list (option K) * list (option V) * Z)
  : res (list Z * list Z * list (option K) * list (option V) * Z +
         list Z * list (option K) * list (option V)) :=
  let '(fl, nfl, ks, vs, j) := s in
  if negb (j =? n) then
    e <- iseither fl j ;;
    if e =? 0 then
      key <- rd ks j ;; val <- rd vs j ;;
      fl <- set_isdel_true fl j ;;
      '(fl, nfl, ks, vs) <- loop (S (Z.to_nat n)) (kick_body n newn) (fl, nfl, ks, vs, key, val) ;;
      Ok (inl (fl, nfl, ks, vs, j + 1))
    else Ok (inl (fl, nfl, ks, vs, j + 1))
  else Ok (inr (nfl, ks, vs)).

(** dict.codon:279-366 [_kh_resize] *)
Definition kh_resize (t : tbl) (new_n_buckets : Z) : res tbl :=
  let newn := round_up new_n_buckets in
  if upper newn <=? sz t then Ok t
  else
    let nfl := repeat 2863311530 (Z.to_nat (fsize newn)) in
    ks <- (if nb t <? newn then grow (keys t) newn else Ok (keys t)) ;;
    vs <- (if nb t <? newn then grow (vals t) newn else Ok (vals t)) ;;
    '(nfl, ks, vs) <- loop (S (Z.to_nat (nb t))) (rehash_body (nb t) newn) (flags t, nfl, ks, vs, 0) ;;
    ks <- (if newn <? nb t then grow ks newn else Ok ks) ;;
    vs <- (if newn <? nb t then grow vs newn else Ok vs) ;;
    Ok (T newn (sz t) (sz t) (upper newn) nfl ks vs).

(** dict.codon:384-394; state (i, step, site); result (i, site, x) *)
Definition put_body (t : tbl) (key : K) (mask last : Z) (s : Z * Z * Z)
  : res (Z * Z * Z + Z * Z * Z) :=
  let '(i, step, site) := s in
  c <- occupied_other (flags t) (keys t) key i ;;
  if (c : bool) then
    d <- isdel (flags t) i ;;
    let site := if negb (d =? 0) then i else site in
    let step := step + 1 in
    let i := Z.land (i + step) mask in
    if i =? last then Ok (inr (i, site, site)) else Ok (inl (i, step, site))
  else Ok (inr (i, site, nb t)).

(** dict.codon:368-415 [_kh_put]: new table, ret, x *)
Definition kh_put (t : tbl) (key : K) : res (tbl * Z * Z) :=
  t <- (if ub t <=? nocc t then
          if 2 * sz t <? nb t then kh_resize t (nb t - 1) else kh_resize t (nb t + 1)
        else Ok t) ;;
  let mask := nb t - 1 in
  let i := Z.land (mix (hash key)) mask in
  e <- isempty (flags t) i ;;
  x <- (if negb (e =? 0) then Ok i
        else
          '(i, site, x) <- loop (S (Z.to_nat (nb t))) (put_body t key mask i) (i, 0, nb t) ;;
          if x =? nb t then
            e <- isempty (flags t) i ;;
            Ok (if negb (e =? 0) && negb (site =? nb t) then site else i)
          else Ok x) ;;
  e <- isempty (flags t) x ;;
  if negb (e =? 0) then
    ks <- wr (keys t) x key ;;
    fl <- set_isboth_false (flags t) x ;;
    Ok (T (nb t) (sz t + 1) (nocc t + 1) (ub t) fl ks (vals t), 1, x)
  else
    d <- isdel (flags t) x ;;
    if negb (d =? 0) then
      ks <- wr (keys t) x key ;;
      fl <- set_isboth_false (flags t) x ;;
      Ok (T (nb t) (sz t + 1) (nocc t) (ub t) fl ks (vals t), 2, x)
    else Ok (t, 0, x).

(** dict.codon:417-420 [_kh_del] *)
Definition kh_del (t : tbl) (x : Z) : res tbl :=
  if negb (x =? nb t) then
    e <- iseither (flags t) x ;;
    if e =? 0 then
      fl <- set_isdel_true (flags t) x ;;
      Ok (T (nb t) (sz t - 1) (nocc t) (ub t) fl (keys t) (vals t))
    else Ok t
  else Ok t.

(** ** Dict operations *)

Definition set_val (t : tbl) (x : Z) (v : V) : res tbl :=
  vs <- wr (vals t) x v ;; Ok (T (nb t) (sz t) (nocc t) (ub t) (flags t) (keys t) vs).

(** dict.codon:70-74 [__getitem__] *)
Definition getitem (t : tbl) (key : K) : res V :=
  x <- kh_get t key ;; if negb (x =? nb t) then rd (vals t) x else Raise KeyError.

(** dict.codon:76-78 [__setitem__] *)
Definition setitem (t : tbl) (key : K) (val : V) : res tbl :=
  '(t, _, x) <- kh_put t key ;; set_val t x val.

(** dict.codon:80-85 [__delitem__] *)
Definition delitem (t : tbl) (key : K) : res tbl :=
  x <- kh_get t key ;; if negb (x =? nb t) then kh_del t x else Raise KeyError.

(** dict.codon:87-88 [__contains__] *)
Definition contains (t : tbl) (key : K) : res bool :=
  x <- kh_get t key ;; Ok (negb (x =? nb t)).

(** dict.codon:171-173 [get] without a default *)
Definition get (t : tbl) (key : K) : res (option V) :=
  x <- kh_get t key ;;
  if negb (x =? nb t) then v <- rd (vals t) x ;; Ok (Some v) else Ok None.

(** dict.codon:175-180 [setdefault] *)
Definition setdefault (t : tbl) (key : K) (val : V) : res (tbl * V) :=
  '(t, ret, x) <- kh_put t key ;;
  if negb (ret =? 0) then t <- set_val t x val ;; Ok (t, val)
  else v <- rd (vals t) x ;; Ok (t, v).

(** dict.codon:182-187 [increment]; [plus v by] is [+=] on the values *)
Definition increment (plus : V -> V -> V) (t : tbl) (key : K) (by_ : V) : res tbl :=
  '(t, ret, x) <- kh_put t key ;;
  if negb (ret =? 0) then set_val t x by_
  else v <- rd (vals t) x ;; set_val t x (plus v by_).

(** dict.codon:189-194 [__dict_do_op_throws__]; [op] is the operator already applied to
    its second argument; it may raise *)
Definition do_op_throws (t : tbl) (key : K) (op : V -> res V) : res tbl :=
  x <- kh_get t key ;;
  if x =? nb t then Raise KeyError
  else v <- rd (vals t) x ;; w <- op v ;; set_val t x w.

(** dict.codon:196-198 [__dict_do_op__]: the key is inserted before [op] runs, so the
    table is returned together with the exception [op] may raise *)
Definition do_op (t : tbl) (key : K) (dflt : V) (op : V -> res V) : res (tbl * option exn) :=
  '(t, ret, x) <- kh_put t key ;;
  v <- (if negb (ret =? 0) then Ok dflt else rd (vals t) x) ;;
  match op v with
  | Ok w => t <- set_val t x w ;; Ok (t, None)
  | Raise e => Ok (t, Some e)
  | Undef => Undef
  | NoFuel => NoFuel
  end.

(** dict.codon:212-218 [pop] *)
Definition pop (t : tbl) (key : K) : res (tbl * V) :=
  x <- kh_get t key ;;
  if negb (x =? nb t) then v <- rd (vals t) x ;; t <- kh_del t x ;; Ok (t, v)
  else Raise KeyError.

(** dict.codon:228-233 [items], run to the end: the entries from bucket [i] on *)
Fixpoint items_from (fuel : nat) (t : tbl) (i : Z) : res (list (K * V)) :=
  match fuel with
  | O => NoFuel
  | S fuel =>
      if i <? nb t then
        e <- iseither (flags t) i ;;
        if e =? 0 then
          k <- rd (keys t) i ;; v <- rd (vals t) i ;;
          rest <- items_from fuel t (i + 1) ;; Ok ((k, v) :: rest)
        else items_from fuel t (i + 1)
      else Ok []
  end.
Definition items (t : tbl) : res (list (K * V)) := items_from (S (Z.to_nat (nb t))) t 0.

(** dict.codon:220-223 [popitem]: the first key of the iteration *)
Definition popitem (t : tbl) : res (tbl * (K * V)) :=
  its <- items t ;;
  match its with
  | [] => Raise KeyError
  | (k, _) :: _ => '(t, v) <- pop t k ;; Ok (t, (k, v))
  end.

(** dict.codon:208-210 [update] from another dict (given by the items it yields), and
    62-65 [__init__] from a generator *)
Fixpoint update (t : tbl) (its : list (K * V)) : res tbl :=
  match its with
  | [] => Ok t
  | (k, v) :: its => t <- setitem t k v ;; update t its
  end.

(** dict.codon:116-135 [__copy__] *)
Definition copy (t : tbl) : res tbl :=
  if sz t =? 0 then Ok new
  else
    if (zlen (flags t) <? fsize (nb t)) || (zlen (keys t) <? nb t) || (zlen (vals t) <? nb t)
    then Undef
    else Ok (T (nb t) (sz t) (nocc t) (ub t)
              (firstn (Z.to_nat (fsize (nb t))) (flags t))
              (firstn (Z.to_nat (nb t)) (keys t)) (firstn (Z.to_nat (nb t)) (vals t))).

(** dict.codon:35-56, 67-68 [__init__] from a dict ([_init_from]) *)
Definition init_from (t : tbl) : res tbl :=
  if nb t =? 0 then Ok new
  else
    if (zlen (flags t) <? fsize (nb t)) || (zlen (keys t) <? nb t) || (zlen (vals t) <? nb t)
    then Undef
    else Ok (T (nb t) (sz t) (nocc t) (ub t)
              (firstn (Z.to_nat (fsize (nb t))) (flags t))
              (firstn (Z.to_nat (nb t)) (keys t)) (firstn (Z.to_nat (nb t)) (vals t))).

(** dict.codon:105-108 [__or__] *)
Definition dict_or (t o : tbl) : res tbl :=
  c <- copy t ;; its <- items o ;; update c its.

(** dict.codon:90-96 [__eq__]; [veq] is [==] on values *)
Fixpoint eq_loop (veq : V -> V -> bool) (o : tbl) (its : list (K * V)) : res bool :=
  match its with
  | [] => Ok true
  | (k, v) :: its =>
      c <- contains o k ;;
      if negb c then Ok false
      else w <- getitem o k ;; if negb (veq w v) then Ok false else eq_loop veq o its
  end.
Definition dict_eq (veq : V -> V -> bool) (t o : tbl) : res bool :=
  if negb (sz t =? sz o) then Ok false
  else its <- items t ;; eq_loop veq o its.

End Model.
Arguments tbl : clear implicits.
