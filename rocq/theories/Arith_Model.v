(** Model of the integer and word arithmetic of the abstract machine.
    Source: /repo/src/runtime/interp.c (opcodes), mlvalues.h (tagging),
    /repo/src/mosmllib/Word.mlp and Int.mlp (library wrappers).

    A [value] is a C [long] (64 bits): here a [Z] in the range of [in_long].
    Signed additions, subtractions, negations and multiplications on C longs that
    leave the range of [long] are undefined behaviour: outcome [UB].
    Simplification: left shifts of signed longs (in [Val_long] and SHIFTLEFTINT), which
    ISO C leaves undefined on overflow, are taken to be the two's complement shift
    produced by the compilers the runtime is built with.  Right shifts of negative
    longs are arithmetic.  The stack operand [*sp++] is the first argument, the
    accumulator [accu] the second. *)
From Verif Require Import Base.

(** mlvalues.h:63  [#define Val_long(x) (((long)(x) << 1) + 1)] *)
Definition Val_long (x : Z) : Z := s64 (x * 2) + 1.
(** mlvalues.h:64  [#define Long_val(x) ((x) >> 1)] *)
Definition Long_val (v : Z) : Z := Z.shiftr v 1.

(** C signed arithmetic on [long] with undefined behaviour on overflow. *)
Definition ck (z : Z) : outcome Z := if in_longb z then Ret z else UB.
Definition cneg (x : Z) := ck (- x).
Definition cadd (x y : Z) := ck (x + y).
Definition csub (x y : Z) := ck (x - y).
Definition cmul (x y : Z) := ck (x * y).
(** C division truncates towards zero; division by zero and LONG_MIN / -1 are undefined *)
Definition cquot (x y : Z) := if y =? 0 then UB else ck (Z.quot x y).
Definition crem (x y : Z) :=
  if y =? 0 then UB else if in_longb (Z.quot x y) then ck (Z.rem x y) else UB.

(** interp.c:1406-1409: common tail
    [accu = Val_long(tmp); if (Long_val(accu) != tmp) goto raise_overflow;] *)
Definition box_checked (tmp : Z) : outcome Z :=
  let accu := Val_long tmp in
  if negb (Long_val accu =? tmp) then Raise Overflow else Ret accu.

(** interp.c:1405-1413 SMLNEGINT *)
Definition SMLNEGINT (accu : Z) : outcome Z :=
  do tmp <- cneg (Long_val accu); box_checked tmp.
(** interp.c:1415-1420 SMLSUCCINT *)
Definition SMLSUCCINT (accu : Z) : outcome Z :=
  do tmp <- cadd (Long_val accu) 1; box_checked tmp.
(** interp.c:1421-1426 SMLPREDINT *)
Definition SMLPREDINT (accu : Z) : outcome Z :=
  do tmp <- csub (Long_val accu) 1; box_checked tmp.
(** interp.c:1427-1432 SMLADDINT *)
Definition SMLADDINT (sp accu : Z) : outcome Z :=
  do tmp <- cadd (Long_val sp) (Long_val accu); box_checked tmp.
(** interp.c:1433-1438 SMLSUBINT *)
Definition SMLSUBINT (sp accu : Z) : outcome Z :=
  do tmp <- csub (Long_val sp) (Long_val accu); box_checked tmp.

(** interp.c:1440-1441: ChunkLen = 4*sizeof(value)-1 = 31, MaxChunk = (1L<<31)-1 *)
Definition ChunkLen : Z := 31.
Definition MaxChunk : Z := 2147483647.

(** interp.c:1443-1466 SMLMULINT.  Names follow the C variables. *)
Definition SMLMULINT (sp accu : Z) : outcome Z :=
  let x := Long_val sp in
  let y := Long_val accu in
  do xn <- (if x <? 0 then do x' <- cneg x; Ret (x', true) else Ret (x, false));
  let '(x, isNegative) := xn in
  do yn <- (if y <? 0 then do y' <- cneg y; Ret (y', negb isNegative) else Ret (y, isNegative));
  let '(y, isNegative) := yn in
  let '(x, y) := if y >? x then (y, x) else (x, y) in
  if y >? MaxChunk then Raise Overflow
  else if x <=? MaxChunk then
    do p <- cmul x y;
    do r <- (if isNegative : bool then cneg p else Ret p);
    Ret (Val_long r)
  else
    do tmp <- cmul (Z.shiftr x ChunkLen) y;
    if tmp >? MaxChunk + 1 then Raise Overflow
    else
      do hi <- ck (Z.shiftl tmp ChunkLen);
      do lo <- cmul (Z.land x MaxChunk) y;
      do tmp <- cadd hi lo;
      do tmp <- (if isNegative : bool then cneg tmp else Ret tmp);
      box_checked tmp.

(** interp.c:1468-1488 SMLDIVINT *)
Definition SMLDIVINT (sp accu : Z) : outcome Z :=
  let tmp := Long_val accu in
  let accu := Long_val sp in
  if tmp =? 0 then Raise Div
  else
    do at_ <- (if tmp <? 0 then do a <- cneg accu; do t <- cneg tmp; Ret (a, t)
               else Ret (accu, tmp));
    let '(accu, tmp) := at_ in
    do tmp <-
      (if accu >=? 0 then cquot accu tmp
       else
         do accu <- cneg accu;
         do r <- crem accu tmp;
         do q <- cquot accu tmp;
         if r =? 0 then cneg q else do nq <- cneg q; csub nq 1);
    box_checked tmp.

(** interp.c:1490-1512 SMLMODINT *)
Definition SMLMODINT (sp accu : Z) : outcome Z :=
  let y := Long_val accu in
  let tmp := y in
  let accu := Long_val sp in
  if tmp =? 0 then Raise Div
  else
    do at_ <- (if tmp <? 0 then do a <- cneg accu; do t <- cneg tmp; Ret (a, t)
               else Ret (accu, tmp));
    let '(accu, tmp) := at_ in
    do tmp <-
      (if accu >=? 0 then crem accu tmp
       else
         do na <- cneg accu;
         do accu <- crem na tmp;
         if accu =? 0 then Ret 0 else csub tmp accu);
    do tmp <- (if y <? 0 then cneg tmp else Ret tmp);
    box_checked tmp.

(** interp.c:1538-1548 SMLQUOTINT *)
Definition SMLQUOTINT (sp accu : Z) : outcome Z :=
  do tmp <- csub accu 1;
  if tmp =? 0 then Raise Div
  else
    do n <- csub sp 1;
    do tmp <- cquot n tmp;
    box_checked tmp.

(** interp.c:1549-1556 SMLREMINT *)
Definition SMLREMINT (sp accu : Z) : outcome Z :=
  do tmp <- csub accu 1;
  if tmp =? 0 then Raise Div
  else
    do n <- csub sp 1;
    do r <- crem n tmp;
    cadd 1 r.

(** ** Unsigned word operations (interp.c:1210-1252).  The result of an expression of type
    [unsigned long] is assigned to the signed [accu]: [s64 (u64 _)]. *)

(** interp.c:1212-1214 ADDINT.  [accu - 1] is computed on signed longs. *)
Definition ADDINT (sp accu : Z) : outcome Z :=
  do a <- csub accu 1; Ret (s64 (u64 (u64 sp + u64 a))).
(** interp.c:1215-1217 SUBINT *)
Definition SUBINT (sp accu : Z) : outcome Z :=
  do a <- csub accu 1; Ret (s64 (u64 (u64 sp - u64 a))).
(** interp.c:1218-1220 MULINT *)
Definition MULINT (sp accu : Z) : outcome Z :=
  do a <- csub accu 1; Ret (s64 (u64 (1 + u64 (u64 (Z.shiftr sp 1) * u64 a)))).
(** interp.c:1221-1229 DIVINT *)
Definition DIVINT (sp accu : Z) : outcome Z :=
  do tmp <- csub accu 1;
  if tmp =? 0 then Raise Div
  else do n <- csub sp 1; Ret (Val_long (s64 (u64 n / u64 tmp))).
(** interp.c:1231-1239 MODINT *)
Definition MODINT (sp accu : Z) : outcome Z :=
  do tmp <- csub accu 1;
  if tmp =? 0 then Raise Div
  else do n <- csub sp 1; Ret (s64 (u64 (1 + u64 n mod u64 tmp))).
(** interp.c:1241-1242 ANDINT *)
Definition ANDINT (sp accu : Z) : outcome Z := Ret (Z.land accu sp).
(** interp.c:1243-1244 ORINT *)
Definition ORINT (sp accu : Z) : outcome Z := Ret (Z.lor accu sp).
(** interp.c:1245-1246 XORINT *)
Definition XORINT (sp accu : Z) : outcome Z := cadd 1 (Z.lxor accu sp).
(** A C shift count outside 0..63 is undefined. *)
Definition shift_ok (k : Z) : bool := (0 <=? k) && (k <? 64).
(** interp.c:1247-1248 SHIFTLEFTINT *)
Definition SHIFTLEFTINT (sp accu : Z) : outcome Z :=
  if shift_ok (Long_val accu) then
    do n <- csub sp 1; cadd 1 (s64 (Z.shiftl n (Long_val accu)))
  else UB.
(** interp.c:1249-1250 SHIFTRIGHTINTSIGNED *)
Definition SHIFTRIGHTINTSIGNED (sp accu : Z) : outcome Z :=
  if shift_ok (Long_val accu) then
    do n <- csub sp 1; Ret (Z.lor 1 (Z.shiftr n (Long_val accu)))
  else UB.
(** interp.c:1251-1252 SHIFTRIGHTINTUNSIGNED *)
Definition SHIFTRIGHTINTUNSIGNED (sp accu : Z) : outcome Z :=
  if shift_ok (Long_val accu) then
    do n <- csub sp 1; Ret (s64 (Z.lor 1 (Z.shiftr (u64 n) (Long_val accu))))
  else UB.

(** interp.c:1254-1267 inttest: EQ NEQ LTINT GTINT LEINT GEINT compare the tagged longs *)
Definition LTINT (sp accu : Z) : bool := sp <? accu.
Definition GTINT (sp accu : Z) : bool := sp >? accu.
Definition LEINT (sp accu : Z) : bool := sp <=? accu.
Definition GEINT (sp accu : Z) : bool := sp >=? accu.
Definition EQINT (sp accu : Z) : bool := sp =? accu.
(** interp.c:1273-1283 unsigntest *)
Definition LTUNSIGN (sp accu : Z) : bool := u64 sp <? u64 accu.
Definition GTUNSIGN (sp accu : Z) : bool := u64 sp >? u64 accu.
Definition LEUNSIGN (sp accu : Z) : bool := u64 sp <=? u64 accu.
Definition GEUNSIGN (sp accu : Z) : bool := u64 sp >=? u64 accu.
Definition EQUNSIGN (sp accu : Z) : bool := u64 sp =? u64 accu.

(** ** Library wrappers, Word.mlp.  [toInt]/[fromInt] inside the [local] are the primitive
    "identity", so they do not change the tagged value. *)

(** tagged literal [fromInt n] *)
Definition lit (n : Z) : Z := 2 * n + 1.

(** Word.mlp:55 *)
Definition word_notb (w : Z) : outcome Z := XORINT w (lit (-1)).
(** Word.mlp:57  [val ~ = fn w => fromInt(~(toInt w))], [~] on int is SMLNEGINT *)
Definition word_neg (w : Z) : outcome Z := SMLNEGINT w.
(** Word.mlp:17 WORDSIZE *)
Definition WORDSIZE : Z := 63.
Definition word_count_out (k : Z) : bool := GEINT k (lit WORDSIZE) || LTINT k (lit 0).
(** Word.mlp:59-61 *)
Definition word_shl (w k : Z) : outcome Z :=
  if word_count_out k then Ret (lit 0) else SHIFTLEFTINT w k.
(** Word.mlp:63-65 *)
Definition word_shr (w k : Z) : outcome Z :=
  if word_count_out k then Ret (lit 0) else SHIFTRIGHTINTUNSIGNED w k.
(** Word.mlp:67-74 *)
Definition word_asr (w k : Z) : outcome Z :=
  if word_count_out k then
    (if GEINT w (lit 0) then Ret (lit 0) else Ret (lit (-1)))
  else SHIFTRIGHTINTSIGNED w k.
(** Word.mlp:18 MAXPOS, 170-172 toInt *)
Definition MAXPOS : Z := lit (two62 - 1).
Definition word_toInt (w : Z) : outcome Z :=
  if GTUNSIGN w MAXPOS then Raise Overflow else Ret w.
