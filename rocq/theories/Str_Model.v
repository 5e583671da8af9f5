(** Model of ML strings in memory: runtime/alloc.c alloc_string, copy_string, runtime/str.c
    string_length, create_string, compare_strings, blit_string, fill_string, runtime/interp.c
    GETSTRINGCHAR, SETSTRINGCHAR, runtime/mosml.c sml_concat and the string cases of sml_equal_aux
    and of compare_val (compare.c), on a 64-bit little-endian machine (sizeof(value) = 8).
    A string block is the list of its bytes (0..255), a multiple of 8 of them; its header gives their
    number.  Accesses outside the block are [UB].  Where the block comes from (minor heap or
    alloc_shr) is not modelled here: freshly allocated memory has arbitrary contents [junk]. *)
From Verif Require Import Base ArrayLib.

Notation block := (list Z) (only parsing).

(** (char) read as a signed number: mlvalues.h Byte is a char, signed on the usual compilers *)
Definition schar (x : Z) : Z := if x <? 128 then x else x - 256.
(** mlvalues.h Bosize_val: number of bytes of the block *)
Definition bosize (b : block) : Z := zlen b.
(** memory of n bytes with arbitrary contents *)
Definition fresh (junk : nat -> Z) (n : Z) : block := List.map (fun k => junk k mod 256) (seq 0 (Z.to_nat n)).

(** memmove/bcopy of n bytes (config.h 21-31): the source range is read before the destination is
    written; n is a size_t *)
Definition bcopy (src : list Z) (o1 : Z) (dst : list Z) (o2 n : Z) : outcome (list Z) :=
  if (n <? 0) || (o1 <? 0) || (o2 <? 0) || (o1 + n >? zlen src) || (o2 + n >? zlen dst) then UB
  else Ret (firstn (Z.to_nat o2) dst ++ firstn (Z.to_nat n) (skipn (Z.to_nat o1) src)
            ++ skipn (Z.to_nat (o2 + n)) dst).

(** alloc.c 31-47.  [len] is unsigned; sizes above Max_wosize are refused by alloc_shr (memory.c),
    here [Raise Size] stands for its out_of_memory *)
Definition alloc_string (junk : nat -> Z) (len : Z) : outcome block :=
  let len := u64 len in
  let wosize := u64 (len + 8) / 8 in
  if wosize >? 18014398509481983 then Raise Size
  else
    let result := fresh junk (8 * wosize) in
    do result <- bcopy (repeat 0 8) 0 result (8 * (wosize - 1)) 8;
    let offset_index := 8 * wosize - 1 in
    update_raw result offset_index ((offset_index - len) mod 256).

(** str.c 10-16; mlsize_t is unsigned *)
Definition string_length (s : block) : outcome Z :=
  let temp := u64 (bosize s - 1) in
  do x <- sub_raw s temp;
  Ret (u64 (temp - schar x)).

(** str.c 18-21 *)
Definition create_string (junk : nat -> Z) (len : Z) : outcome block := alloc_string junk len.

(** interp.c 1021-1029; Int_val(accu) is stored into an unsigned char *)
Definition get_nth_char (s : block) (i : Z) : outcome Z := sub_raw s i.
Definition set_nth_char (s : block) (i c : Z) : outcome block := update_raw s i (c mod 256).

(** (int)x *)
Definition int32 (x : Z) : Z := (x + 2147483648) mod 4294967296 - 2147483648.

(** str.c 46-52; the length is Int_val(len) *)
Definition blit_string (s1 : block) (o1 : Z) (s2 : block) (o2 len : Z) : outcome block :=
  bcopy s1 o1 s2 o2 (int32 len).

(** str.c 54-66; n is unsigned; fuel = number of bytes *)
Fixpoint fill_loop (n : nat) (s : block) (p c : Z) : outcome block :=
  match n with
  | O => Ret s
  | S n => do s <- update_raw s p c; fill_loop n s (p + 1) c
  end.
Definition fill_string (s : block) (offset len init : Z) : outcome block :=
  fill_loop (Z.to_nat (u64 len)) s offset (init mod 256).

(** alloc.c 65-75: the characters before the final NUL of a C string; int len = strlen(s).  An int
    given to alloc_string becomes an unsigned long *)
Definition copy_string (junk : nat -> Z) (cs : list Z) : outcome block :=
  let len := int32 (zlen cs) in
  do res <- alloc_string junk (u64 len);
  bcopy cs 0 res 0 (u64 len).

(** str.c 31-37: the loop of compare_strings; None: the first [n] bytes agree.  The indices stand
    for the pointers p1 and p2. *)
Fixpoint compare_loop (n : nat) (s1 s2 : block) (p : Z) : outcome (option (Z * Z)) :=
  match n with
  | O => Ret None
  | S n =>
    do a <- sub_raw s1 p;
    do b <- sub_raw s2 p;
    if negb (a =? b) then Ret (Some (a, b)) else compare_loop n s1 s2 (p + 1)
  end.
(** str.c 23-44, without the Val_long *)
Definition compare_strings (s1 s2 : block) : outcome Z :=
  do len1 <- string_length s1;
  do len2 <- string_length s2;
  let len := if len1 <=? len2 then len1 else len2 in
  do r <- compare_loop (Z.to_nat len) s1 s2 0;
  match r with
  | Some (a, b) => Ret (if a <? b then -1 else 1)
  | None => Ret (if len1 =? len2 then 0 else if len1 <? len2 then -2 else 2)
  end.

(** compare.c 26-38: string case of compare_val; the difference of the unsigned lengths is
    returned as a long *)
Definition compare_val_string (s1 s2 : block) : outcome Z :=
  do len1 <- string_length s1;
  do len2 <- string_length s2;
  let len := if len1 <=? len2 then len1 else len2 in
  do r <- compare_loop (Z.to_nat len) s1 s2 0;
  match r with
  | Some (a, b) => Ret (a - b)
  | None => Ret (s64 (len1 - len2))
  end.

(** mosml.c 71-84: string case of sml_equal_aux; register int len; the comparison len != ... is
    made on unsigned longs *)
Definition sml_equal_string (s1 s2 : block) : outcome bool :=
  do len1 <- string_length s1;
  let len := int32 len1 in
  do len2 <- string_length s2;
  if negb (u64 len =? len2) then Ret false
  else
    do r <- compare_loop (Z.to_nat len) s1 s2 0;
    Ret (match r with None => true | Some _ => false end).

(** mosml.c 371-394; SYS__EXN_SIZE *)
Definition sml_concat (junk : nat -> Z) (s1 s2 : block) : outcome block :=
  do len1 <- string_length s1;
  if len1 =? 0 then Ret s2
  else
    do len2 <- string_length s2;
    if len2 =? 0 then Ret s1
    else
      let len := u64 (len1 + len2) in
      if u64 (len + 8) / 8 >? 18014398509481983 then Raise Size
      else
        do s <- alloc_string junk len;
        do s <- bcopy s1 0 s 0 len1;
        bcopy s2 0 s len1 len2.
