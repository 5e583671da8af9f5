(** Model of the conversions from real to int in runtime/mosml.c.  A double is its 64 bits.
    Only the variant of sml_round for systems with rint (mosml.c 208-213) is modelled. *)
From Verif Require Import Base Arith_Model Value_Model.

(** *** IEEE 754 doubles, as C uses them *)
Definition dexp (d : Z) : Z := d / 2 ^ 52 mod 2048.
Definition dfrac (d : Z) : Z := d mod 2 ^ 52.
(** significand and exponent: the magnitude is dsig * 2^(dex - 1075), also for denormalised numbers *)
Definition dsig (d : Z) : Z := if dexp d =? 0 then dfrac d else 2 ^ 52 + dfrac d.
Definition dex (d : Z) : Z := Z.max 1 (dexp d).
Definition dneg (d : Z) : bool := two63 <=? d.

(** C's <= on doubles *)
Definition dle (d1 d2 : Z) : bool := dlt d1 d2 || deq d1 d2.

(** the integer part of the magnitude *)
Definition dint (d : Z) : Z :=
  if 1075 <=? dex d then dsig d * 2 ^ (dex d - 1075) else dsig d / 2 ^ (1075 - dex d).
(** (long) d: truncation; undefined for values that a long cannot hold, infinity and NaN *)
Definition long_of (d : Z) : outcome Z :=
  if dexp d =? 2047 then UB
  else
    let i := if dneg d then - dint d else dint d in
    if in_longb i then Ret i else UB.

(** division of m by 2^k, to nearest, ties to even *)
Definition near (m k : Z) : Z :=
  let q := m / 2 ^ k in
  let r := m mod 2 ^ k in
  if (2 ^ k <? 2 * r) || ((2 * r =? 2 ^ k) && Z.odd q) then q + 1 else q.
(** (double) i: the nearest double, ties to even.  A carry out of the significand goes into the exponent. *)
Definition of_long (i : Z) : Z :=
  let m := Z.abs i in
  if m =? 0 then 0
  else
    let k := Z.log2 m in
    let q := if k <=? 52 then m * 2 ^ (52 - k) else near m (k - 52) in
    (if i <? 0 then two63 else 0) + (k + 1023) * 2 ^ 52 + (q - 2 ^ 52).
(** rint: nearest integral double, ties to even, sign kept *)
Definition rint (d : Z) : Z :=
  if 1075 <=? dex d then d
  else (if dneg d then two63 else 0) + of_long (near (dsig d) (1075 - dex d)).

(** mlvalues.h 65-66 *)
Definition Max_long : Z := two62 - 1.
Definition Min_long : Z := - two62.
Definition dzero : Z := 0.

(** mosml.c 136-158.  (double) Max_long + 1 is a sum of doubles: the nearest double to the exact sum *)
Definition sml_floor (r : Z) : outcome Z :=
  do i <-
    (if dle dzero r then
       (do m <- long_of (of_long Max_long);
        if dle (of_long (m + 1)) r then Raise Overflow else long_of r)
     else if dlt r (of_long Min_long) then Raise Overflow
     else
       do i <- long_of r;
       if dlt r (of_long i) then csub i 1 else Ret i);
  let v := Val_long i in
  if negb (Long_val v =? i) then Raise Overflow else Ret v.

(** mosml.c 160-181 *)
Definition sml_ceil (r : Z) : outcome Z :=
  do i <-
    (if dle dzero r then
       if dlt (of_long Max_long) r then Raise Overflow
       else
         do i <- long_of r;
         if dlt (of_long i) r then cadd i 1 else Ret i
     else
       do m <- csub Min_long 1;
       if dle r (of_long m) then Raise Overflow else long_of r);
  let v := Val_long i in
  if negb (Long_val v =? i) then Raise Overflow else Ret v.

(** mosml.c 191-220 *)
Definition sml_round (f : Z) : outcome Z :=
  let r := rint f in
  if dlt (of_long Max_long) r || dlt r (of_long Min_long) then Raise Overflow
  else do i <- long_of r; Ret (Val_long i).

(** mosml.c 222-236 *)
Definition sml_trunc (r : Z) : outcome Z :=
  do a <- cadd Max_long 1;
  do b <- csub Min_long 1;
  if dle (of_long a) r || dle r (of_long b) then Raise Overflow
  else do i <- long_of r; Ret (Val_long i).
