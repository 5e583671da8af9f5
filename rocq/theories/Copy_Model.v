(** Model of the array copying functions: Array.copy/copyVec (Array.mlp), ArraySlice.slice/subslice/copy
    (ArraySlice.sml), Array2.copy (Array2.sml), blit_string (runtime/str.c) and memmov (runtime/misc.c).
    Arrays live in a store, so that source and destination may be the same array. *)
From Verif Require Import Base ArrayLib Hash_Model.

(** ML integer addition (interp.c SMLADDINT; see Arith_Model.v) *)
Definition iadd (x y : Z) : outcome Z := if in_intb (x + y) then Ret (x + y) else Raise Overflow.

Section Store.
Context {A : Type}.
(** all mutable arrays, by number *)
Definition store := list (list A).
(** the array with a given number; ML arrays always exist *)
Definition deref (st : store) (id : Z) : outcome (list A) :=
  match zget st id with Some a => Ret a | None => UB end.
(** the primitive get_vect_item without bounds check: Array.mlp 23 *)
Definition sub_ (st : store) (id i : Z) : outcome A := do a <- deref st id; sub_raw a i.
(** the primitive set_vect_item without bounds check: Array.mlp 25 *)
Definition update_ (st : store) (id i : Z) (v : A) : outcome store :=
  do a <- deref st id; do a' <- update_raw a i v;
  match zset st id a' with Some st' => Ret st' | None => UB end.

(** the loops hi2lo (Array.mlp 101-104 with i1 = 0, ArraySlice.sml 77-80); fuel = number of
    iterations + 1.  The sums i2+j and i1+j are below the array lengths, so they do not overflow. *)
Fixpoint hi2lo (fuel : nat) (st : store) (a1 i1 a2 i2 j : Z) : outcome store :=
  match fuel with
  | O => Diverge
  | S fuel =>
    if j >=? 0 then
      do v <- sub_ st a1 (i1 + j);
      do st <- update_ st a2 (i2 + j) v;
      hi2lo fuel st a1 i1 a2 i2 (j - 1)
    else Ret st
  end.
(** the loops lo2hi (ArraySlice.sml 83-86) *)
Fixpoint lo2hi (fuel : nat) (st : store) (a1 i1 a2 i2 j n : Z) : outcome store :=
  match fuel with
  | O => Diverge
  | S fuel =>
    if j <? n then
      do v <- sub_ st a1 (i1 + j);
      do st <- update_ st a2 (i2 + j) v;
      lo2hi fuel st a1 i1 a2 i2 (j + 1) n
    else Ret st
  end.

(** Array.mlp 93-106 *)
Definition array_copy (st : store) (src dst di : Z) : outcome store :=
  do a1 <- deref st src;
  do a2 <- deref st dst;
  let n := zlen a1 in
  if di <? 0 then Raise Subscript
  else
    do e <- iadd di n;
    if e >? zlen a2 then Raise Subscript
    else hi2lo (S (length a1)) st src 0 dst di (n - 1).

(** Array.mlp 115-118: the source is an immutable vector *)
Fixpoint vec_lo2hi (fuel : nat) (st : store) (v : list A) (i1 dst i2 j n : Z) : outcome store :=
  match fuel with
  | O => Diverge
  | S fuel =>
    if j <? n then
      do x <- sub_raw v (i1 + j);
      do st <- update_ st dst (i2 + j) x;
      vec_lo2hi fuel st v i1 dst i2 (j + 1) n
    else Ret st
  end.
(** Array.mlp 108-120 *)
Definition array_copyVec (st : store) (src : list A) (dst di : Z) : outcome store :=
  do a2 <- deref st dst;
  let n := zlen src in
  if di <? 0 then Raise Subscript
  else
    do e <- iadd di n;
    if e >? zlen a2 then Raise Subscript
    else vec_lo2hi (S (length src)) st src 0 dst di 0 n.

(** ArraySlice.sml 23: array, start, length *)
Record slice := Slice { s_arr : Z; s_start : Z; s_len : Z }.
(** ArraySlice.sml 40-48; alen - i does not overflow as 0 <= i, alen when it is evaluated *)
Definition mk_slice (st : store) (a i : Z) (len : option Z) : outcome slice :=
  do arr <- deref st a;
  let alen := zlen arr in
  match len with
  | None => if (0 <=? i) && (i <=? alen) then Ret (Slice a i (alen - i)) else Raise Subscript
  | Some n => if (0 <=? i) && (0 <=? n) && (n <=? alen - i) then Ret (Slice a i n) else Raise Subscript
  end.
(** ArraySlice.sml 52-57 *)
Definition subslice (s : slice) (i' : Z) (len : option Z) : outcome slice :=
  match len with
  | None => if (0 <=? i') && (i' <=? s_len s) then Ret (Slice (s_arr s) (s_start s + i') (s_len s - i')) else Raise Subscript
  | Some n' => if (0 <=? i') && (0 <=? n') && (n' <=? s_len s - i') then Ret (Slice (s_arr s) (s_start s + i') n')
               else Raise Subscript
  end.
(** ArraySlice.sml 71-88 *)
Definition slice_copy (st : store) (src : slice) (dst di : Z) : outcome store :=
  do a1 <- deref st (s_arr src);
  do a2 <- deref st dst;
  if di <? 0 then Raise Subscript
  else
    do e <- iadd di (s_len src);
    if e >? zlen a2 then Raise Subscript
    else if s_start src <? di then
      hi2lo (S (Z.to_nat (s_len src))) st (s_arr src) (s_start src) dst di (s_len src - 1)
    else
      lo2hi (S (Z.to_nat (s_len src))) st (s_arr src) (s_start src) dst di 0 (s_len src).

(** Array2.sml 9: a matrix is a vector of arrays (rows) and its dimensions; the dimensions and the
    vector never change after creation *)
Record matrix := Mat { rows : list Z; nr : Z; nc : Z }.
(** Array2.sml 30-31: m new arrays of n elements; (m, n within Array.maxLen, else Size is raised before) *)
Definition new_matrix (st : store) (m n : Z) (x : A) : outcome (store * matrix) :=
  if (m <? 0) || (m >? maxLen) || (n <? 0) || (n >? maxLen) then Raise Size
  else Ret (st ++ repeat (repeat x (Z.to_nat n)) (Z.to_nat m), Mat (map (fun k => zlen st + Z.of_nat k) (seq 0 (Z.to_nat m))) m n).
(** Array2.sml 59 *)
Definition mat_sub (st : store) (M : matrix) (i j : Z) : outcome A :=
  do id <- sub_chk (rows M) i; do a <- deref st id; sub_chk a j.
(** Array2.sml 81-86 *)
Definition stop (len i : Z) (n : option Z) : outcome Z :=
  match n with
  | None => if (i <? 0) || (i >? len) then Raise Subscript else Ret len
  | Some n =>
    if (i <? 0) || (n <? 0) then Raise Subscript
    else do e <- iadd i n; if e >? len then Raise Subscript else Ret e
  end.
(** Vector.sub *)
Definition row_id (M : matrix) (r : Z) : outcome Z := sub_chk (rows M) r.
(** the body of both loops: Array2.sml 139-142 = 147-150 *)
Definition copy_row (st : store) (src dst : matrix) (src_col dst_col : Z) (ncols : option Z) (from_row to_row : Z) : outcome store :=
  do a <- row_id src from_row;
  do sl <- mk_slice st a src_col ncols;
  do d <- row_id dst to_row;
  slice_copy st sl d dst_col.
(** Array2.sml 136-143 *)
Fixpoint bottomUp (fuel : nat) (st : store) (src dst : matrix) (src_row src_col dst_col : Z) (ncols : option Z) (from_row to_row : Z)
  : outcome store :=
  match fuel with
  | O => Diverge
  | S fuel =>
    if from_row <? src_row then Ret st
    else do st <- copy_row st src dst src_col dst_col ncols from_row to_row;
         bottomUp fuel st src dst src_row src_col dst_col ncols (from_row - 1) (to_row - 1)
  end.
(** Array2.sml 144-151 *)
Fixpoint topDown (fuel : nat) (st : store) (src dst : matrix) (stoprow src_col dst_col : Z) (ncols : option Z) (from_row to_row : Z)
  : outcome store :=
  match fuel with
  | O => Diverge
  | S fuel =>
    if from_row >=? stoprow then Ret st
    else do st <- copy_row st src dst src_col dst_col ncols from_row to_row;
         topDown fuel st src dst stoprow src_col dst_col ncols (from_row + 1) (to_row + 1)
  end.
(** Array2.sml 132-158; stoprow-1+dst_row is computed with overflow check, the rest is in range *)
Definition array2_copy (st : store) (src : matrix) (src_row src_col : Z) (nrows ncols : option Z)
  (dst : matrix) (dst_row dst_col : Z) : outcome store :=
  do stoprow <- stop (nr src) src_row nrows;
  if src_row <=? dst_row then
    do t <- iadd (stoprow - 1) dst_row;
    bottomUp (S (Z.to_nat (nr src))) st src dst src_row src_col dst_col ncols (stoprow - 1) (t - src_row)
  else
    topDown (S (Z.to_nat (nr src))) st src dst stoprow src_col dst_col ncols src_row dst_row.

(** (int)x in C: str.c 50 uses Int_val(len), mlvalues.h 68 *)
Definition to_int32 (x : Z) : Z := (x + 2147483648) mod 4294967296 - 2147483648.
(** str.c 46-52 on byte strings in a store, with bcopy = memmove (config.h 21-23): a negative length
    is a huge size_t; a range outside one of the strings is undefined behaviour *)
Definition blit_string (st : store) (s1 o1 s2 o2 len : Z) : outcome store :=
  let n := to_int32 len in
  do a1 <- deref st s1;
  do a2 <- deref st s2;
  if (n <? 0) || (o1 <? 0) || (o2 <? 0) || (o1 + n >? zlen a1) || (o2 + n >? zlen a2) then UB
  else
    (* memmove copies through a temporary: C11 7.24.2.2 *)
    let tmp := firstn (Z.to_nat n) (skipn (Z.to_nat o1) a1) in
    let a2' := firstn (Z.to_nat o2) a2 ++ tmp ++ skipn (Z.to_nat (o2 + n)) a2 in
    match zset st s2 a2' with Some st' => Ret st' | None => UB end.
End Store.
Arguments store : clear implicits.

(** ** memmov (misc.c 61-129), used where the C library has none of memmove, bcopy, memcpy.
    Memory is a total function from addresses to bytes; that all accesses are to the two ranges is
    part of the theorem about it.  sizeof(long) = 8. *)
Section Mem.
Context {B : Type}.
Definition mem := Z -> B.
Definition put (m : mem) (a : Z) (x : B) : mem := fun b => if b =? a then x else m b.
(** a long is read before it is written *)
Definition copy_word (m : mem) (dst src : Z) : mem :=
  fun b => if (dst <=? b) && (b <? dst + 8) then m (src + (b - dst)) else m b.

(** for (; i != 0; i--) *dst++ = *src++; *)
Fixpoint up_bytes (i : nat) (m : mem) (dst src : Z) : mem :=
  match i with O => m | S i => up_bytes i (put m dst (m src)) (dst + 1) (src + 1) end.
(** for (; i > 0; i--) { copy long; dst += 8; src += 8; } *)
Fixpoint up_words (i : nat) (m : mem) (dst src : Z) : mem :=
  match i with O => m | S i => up_words i (copy_word m dst src) (dst + 8) (src + 8) end.
(** for (; i > 0; i--) *--dst = *--src; *)
Fixpoint down_bytes (i : nat) (m : mem) (dst src : Z) : mem :=
  match i with O => m | S i => down_bytes i (put m (dst - 1) (m (src - 1))) (dst - 1) (src - 1) end.
(** for (; i > 0; i--) { dst -= 8; src -= 8; copy long; } *)
Fixpoint down_words (i : nat) (m : mem) (dst src : Z) : mem :=
  match i with O => m | S i => down_words i (copy_word m (dst - 8) (src - 8)) (dst - 8) (src - 8) end.

(** misc.c 61-129 *)
Definition memmov (m : mem) (dst src length : Z) : mem :=
  if dst <=? src then
    if negb ((src - dst) mod 8 =? 0) then up_bytes (Z.to_nat length) m dst src
    else
      let i := dst mod 8 in
      let i := if negb (i =? 0) then Z.min (8 - i) length else 0 in
      let m := up_bytes (Z.to_nat i) m dst src in
      let dst := dst + i in let src := src + i in let length := length - i in
      let w := length / 8 in
      let m := up_words (Z.to_nat w) m dst src in
      let dst := dst + 8 * w in let src := src + 8 * w in
      up_bytes (Z.to_nat (length mod 8)) m dst src
  else
    let src := src + length in let dst := dst + length in
    if negb ((dst - src) mod 8 =? 0) then down_bytes (Z.to_nat length) m dst src
    else
      let i := Z.min (dst mod 8) length in
      let m := down_bytes (Z.to_nat i) m dst src in
      let dst := dst - i in let src := src - i in let length := length - i in
      let w := length / 8 in
      let m := down_words (Z.to_nat w) m dst src in
      let dst := dst - 8 * w in let src := src - 8 * w in
      down_bytes (Z.to_nat (length mod 8)) m dst src.
End Mem.
