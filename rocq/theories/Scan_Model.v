(** Model of Int.fmt, Int.scan, Int.fromString, Int.toString (Int.mlp), Word.fmt, Word.scan,
    Word.fromString (Word.mlp), StringCvt.dropl, skipWS and scanString (StringCvt.sml), and of the
    conversions used for literals: scandec, scanhex, sml_int_of_string, sml_int_of_hex,
    sml_word_of_dec, sml_word_of_hex, sml_hexstring_of_word, sml_string_of_int (runtime/mosml.c).
    A character is its code, 0..255; a string is the list of its characters.
    An ML integer is a Z in the range [in_int]; the arithmetic goes through the machine opcodes of
    Arith_Model.v.  An ML word is kept as the tagged machine value. *)
From Verif Require Import Base Arith_Model.

(** integer arithmetic of the abstract machine on untagged integers (interp.c, Arith_Model.v) *)
Definition unbox (r : outcome Z) : outcome Z := do v <- r; Ret (Long_val v).
Definition iadd (x y : Z) := unbox (SMLADDINT (Val_long x) (Val_long y)).
Definition isub (x y : Z) := unbox (SMLSUBINT (Val_long x) (Val_long y)).
Definition imul (x y : Z) := unbox (SMLMULINT (Val_long x) (Val_long y)).
Definition idiv (x y : Z) := unbox (SMLDIVINT (Val_long x) (Val_long y)).
Definition imod (x y : Z) := unbox (SMLMODINT (Val_long x) (Val_long y)).
Definition ineg (x : Z) := unbox (SMLNEGINT (Val_long x)).

(** StringCvt.sml 19 *)
Inductive radix := BIN | OCT | DEC | HEX.
Definition radix_eqb (r s : radix) : bool :=
  match r, s with BIN, BIN | OCT, OCT | DEC, DEC | HEX, HEX => true | _, _ => false end.

(** Char.sml 16 *)
Definition chr (i : Z) : outcome Z := if (i <? 0) || (i >? 255) then Raise Chr else Ret i.
(** Char.sml 63, 55, 57-59 *)
Definition isSpace (c : Z) : bool := (c =? 32) || ((9 <=? c) && (c <=? 13)).
Definition isDigit (c : Z) : bool := (48 <=? c) && (c <=? 57).
Definition isHexDigit (c : Z) : bool :=
  ((48 <=? c) && (c <=? 57)) || ((97 <=? c) && (c <=? 102)) || ((65 <=? c) && (c <=? 70)).
(** Int.mlp 52-57 and Word.mlp 109-114: the digit test and factor of a radix *)
Definition radix_digit (r : radix) : Z -> bool :=
  match r with
  | BIN => fun c => (48 <=? c) && (c <=? 49)
  | OCT => fun c => (48 <=? c) && (c <=? 55)
  | DEC => isDigit
  | HEX => isHexDigit
  end.
Definition radix_factor (r : radix) : Z :=
  match r with BIN => 2 | OCT => 8 | DEC => 10 | HEX => 16 end.

Section Reader.
(** a character source: StringCvt.sml 28 *)
Context {S : Type}.
Variable getc : S -> option (Z * S).

(** StringCvt.sml 39-44 dropl; fuel = number of characters read.  Also skipWS (47-55), which is
    dropl with the same test written out. *)
Fixpoint dropl (p : Z -> bool) (fuel : nat) (src : S) : outcome S :=
  match fuel with
  | O => Diverge
  | Datatypes.S fuel =>
    match getc src with
    | None => Ret src
    | Some (c, rest) => if p c then dropl p fuel rest else Ret src
    end
  end.

(** Int.mlp 29-31 *)
Definition hexval (c : Z) : outcome Z :=
  if (48 <=? c) && (c <=? 57) then isub c 48
  else do d <- isub c 55; imod d 32.
(** Int.mlp 60-62: the accumulation step, selected by the sign *)
Definition next_val (factor sgn res hv : Z) : outcome Z :=
  if sgn =? 1 then do m <- imul factor res; iadd m hv
  else do m <- imul factor res; isub m hv.
(** Int.mlp 63-70 *)
Fixpoint digr (r : radix) (sgn : Z) (fuel : nat) (res : Z) (src : S) : outcome (option (Z * S)) :=
  match fuel with
  | O => Diverge
  | Datatypes.S fuel =>
    match getc src with
    | None => Ret (Some (res, src))
    | Some (c, rest) =>
      if radix_digit r c then
        do hv <- hexval c;
        do res <- next_val (radix_factor r) sgn res hv;
        digr r sgn fuel res rest
      else Ret (Some (res, src))
    end
  end.
(** Int.mlp 58-71 *)
Definition dig1 (r : radix) (fuel : nat) (sgn : Z) (inp : option (Z * S)) : outcome (option (Z * S)) :=
  match inp with
  | None => Ret None
  | Some (c, rest) =>
    if radix_digit r c then
      do hv <- hexval c; do v <- imul sgn hv; digr r sgn fuel v rest
    else Ret None
  end.
(** Int.mlp 72-75 *)
Definition getdigs (r : radix) (fuel : nat) (sgn : Z) (after0 : S) (inp : option (Z * S))
  : outcome (option (Z * S)) :=
  do res <- dig1 r fuel sgn inp;
  match res with
  | None => Ret (Some (0, after0))
  | Some _ => Ret res
  end.
(** Int.mlp 76-85; 48 = "0", 120 = "x", 88 = "X" *)
Definition hexopt (r : radix) (fuel : nat) (sgn : Z) (inp : option (Z * S)) : outcome (option (Z * S)) :=
  match inp with
  | None => Ret None
  | Some (c, after0) =>
    if c =? 48 then
      if negb (radix_eqb r HEX) then getdigs r fuel sgn after0 (getc after0)
      else
        match getc after0 with
        | None => Ret (Some (0, after0))
        | Some (c, rest) =>
          if (c =? 120) || (c =? 88) then getdigs r fuel sgn after0 (getc rest)
          else getdigs r fuel sgn after0 (Some (c, rest))
        end
    else dig1 r fuel sgn inp
  end.
(** Int.mlp 86-90; 126 = "~", 45 = "-", 43 = "+" *)
Definition sign (r : radix) (fuel : nat) (inp : option (Z * S)) : outcome (option (Z * S)) :=
  match inp with
  | None => Ret None
  | Some (c, rest) =>
    if c =? 126 then hexopt r fuel (-1) (getc rest)
    else if c =? 45 then hexopt r fuel (-1) (getc rest)
    else if c =? 43 then hexopt r fuel 1 (getc rest)
    else hexopt r fuel 1 inp
  end.
(** Int.mlp 33, 50-91; the fuel bounds the number of characters read by each loop *)
Definition int_scan (r : radix) (fuel : nat) (source : S) : outcome (option (Z * S)) :=
  do src <- dropl isSpace fuel source;
  sign r fuel (getc src).

(** *** Word.mlp: words are tagged machine values *)

(** Word.mlp 88-92 *)
Definition w_hexval (c : Z) : outcome Z :=
  if (48 <=? c) && (c <=? 57) then SUBINT (Val_long c) (lit 48)
  else do d <- SUBINT (Val_long c) (lit 55); MODINT d (lit 32).
(** Word.mlp 117-124 *)
Fixpoint w_digr (r : radix) (fuel : nat) (res : Z) (src : S) : outcome (option (Z * S)) :=
  match fuel with
  | O => Diverge
  | Datatypes.S fuel =>
    match getc src with
    | None => Ret (Some (res, src))
    | Some (c, rest) =>
      if radix_digit r c then
        do m <- MULINT (lit (radix_factor r)) res;
        do hv <- w_hexval c;
        do res <- ADDINT m hv;
        w_digr r fuel res rest
      else Ret (Some (res, src))
    end
  end.
(** Word.mlp 115-128 *)
Definition w_dig1 (r : radix) (fuel : nat) (inp : option (Z * S)) : outcome (option (Z * S)) :=
  match inp with
  | None => Ret None
  | Some (c1, src1) =>
    if radix_digit r c1 then do hv <- w_hexval c1; w_digr r fuel hv src1 else Ret None
  end.
(** Word.mlp 129-132 *)
Definition w_getdigs (r : radix) (fuel : nat) (after0 src : S) : outcome (option (Z * S)) :=
  do res <- w_dig1 r fuel (getc src);
  match res with
  | None => Ret (Some (lit 0, after0))
  | Some _ => Ret res
  end.
(** Word.mlp 133-140 *)
Definition hexprefix (r : radix) (fuel : nat) (after0 src : S) : outcome (option (Z * S)) :=
  if negb (radix_eqb r HEX) then w_getdigs r fuel after0 src
  else
    match getc src with
    | Some (c, rest) =>
      if (c =? 120) || (c =? 88) then w_getdigs r fuel after0 rest
      else w_getdigs r fuel after0 src
    | None => Ret (Some (lit 0, after0))
    end.
(** Word.mlp 106-150; 119 = "w" *)
Definition word_scan (r : radix) (fuel : nat) (source : S) : outcome (option (Z * S)) :=
  do source <- dropl isSpace fuel source;
  match getc source with
  | Some (c, after0) =>
    if c =? 48 then
      match getc after0 with
      | Some (c, src2) =>
        if c =? 119 then hexprefix r fuel after0 src2 else hexprefix r fuel after0 after0
      | None => Ret (Some (lit 0, after0))
      end
    else w_dig1 r fuel (getc source)
  | None => Ret None
  end.
End Reader.

(** StringCvt.sml 30-37: the source is an index into the string.  The fuel is the length of the
    string, which bounds the number of characters read. *)
Definition string_getc (s : list Z) (i : Z) : option (Z * Z) :=
  if i >=? Z.of_nat (length s) then None else Some (nth (Z.to_nat i) s 0, i + 1).
Definition scanString {A} (scan : (Z -> option (Z * Z)) -> nat -> Z -> outcome (option (A * Z)))
  (s : list Z) : outcome (option A) :=
  do r <- scan (string_getc s) (Datatypes.S (length s)) 0;
  Ret (match r with None => None | Some (res, _) => Some res end).
(** Int.mlp 101, Word.mlp 158 *)
Definition int_fromString := scanString (fun getc => int_scan getc DEC).
Definition word_fromString := scanString (fun getc => word_scan getc HEX).

(** *** Formatting *)

(** Int.mlp 32 *)
Definition prhex (i : Z) : outcome Z :=
  if i <? 10 then do j <- iadd i 48; chr j else do j <- iadd i 55; chr j.
(** Int.mlp 36-37.  The argument is divided by the radix at each step: 63 steps suffice for the
    radix 2, and the fuel of [fmt] is 64. *)
Fixpoint conv_h (fuel : nat) (radix n : Z) (res : list Z) : outcome (list Z) :=
  match fuel with
  | O => Diverge
  | S fuel =>
    if n =? 0 then Ret res
    else
      do q <- idiv n radix;
      do m <- imod n radix;
      do c <- prhex m;
      conv_h fuel radix q (c :: res)
  end.
(** Int.mlp 35-48 *)
Definition conv (radix i : Z) : outcome (list Z) :=
  if i <? 0 then
    do nr <- ineg radix;
    do m <- imod i nr;
    do last <- ineg m;
    do first <- idiv i nr;
    do c <- prhex last;
    do ds <- conv_h 64 radix first [c];
    Ret (126 :: ds)
  else
    do q <- idiv i radix;
    do m <- imod i radix;
    do c <- prhex m;
    conv_h 64 radix q [c].
(** Int.mlp 93-96 *)
Definition int_fmt (r : radix) (i : Z) : outcome (list Z) := conv (radix_factor r) i.

(** Word.mlp 94-96 *)
Definition w_prhex (i : Z) : outcome Z :=
  if LTINT i (lit 10) then do j <- ADDINT i (lit 48); chr (Long_val j)
  else do j <- ADDINT i (lit 55); chr (Long_val j).
(** Word.mlp 99-101 *)
Fixpoint w_conv_h (fuel : nat) (radix n : Z) (res : list Z) : outcome (list Z) :=
  match fuel with
  | O => Diverge
  | S fuel =>
    if EQINT n (lit 0) then Ret res
    else
      do q <- DIVINT n radix;
      do m <- MODINT n radix;
      do c <- w_prhex m;
      w_conv_h fuel radix q (c :: res)
  end.
(** Word.mlp 98-103 *)
Definition w_conv (radix i : Z) : outcome (list Z) :=
  do q <- DIVINT i radix;
  do m <- MODINT i radix;
  do c <- w_prhex m;
  w_conv_h 64 radix q [c].
(** Word.mlp 152-155, 157 *)
Definition word_fmt (r : radix) (w : Z) : outcome (list Z) := w_conv (lit (radix_factor r)) w.
Definition word_toString (w : Z) : outcome (list Z) := w_conv (lit 16) w.

(** *** Literals: runtime/mosml.c *)

(** the characters of a C string: those of the ML string up to the first NUL.  ML strings are
    followed by at least one NUL byte (alloc.c alloc_string), so the end of the list acts as NUL. *)
Definition cchar (p : list Z) : Z := match p with [] => 0 | c :: _ => c end.
Definition cnext (p : list Z) : list Z := tl p.

(** mosml.c 302-319 (scandec) and 327-341 (scanhex) share this loop; [dig] recognises a digit.
    [res] is an unsigned long: the two tests keep 10*res+d below [max]. *)
Fixpoint scan_loop (dig : Z -> option Z) (base max : Z) (p : list Z) (res : Z) {struct p} : outcome Z :=
  match dig (cchar p) with
  | None => if negb (cchar p =? 0) then Raise FailExn else Ret res
  | Some d =>
    if (res >? max / base) || ((res =? max / base) && (max mod base <=? d)) then Raise FailExn
    else
      match p with
      | [] => UB (* not reachable: NUL is not a digit *)
      | _ :: p => scan_loop dig base max p (u64 (base * res + d))
      end
  end.
(** mosml.c 301-304 *)
Definition dec_digit (c : Z) : option Z := if (48 <=? c) && (c <=? 57) then Some (c - 48) else None.
(** toupper in the C locale *)
Definition toupper (c : Z) : Z := if (97 <=? c) && (c <=? 122) then c - 32 else c.
(** mosml.c 326-331 *)
Definition hex_digit (c : Z) : option Z :=
  let c := toupper c in
  if (48 <=? c) && (c <=? 57) then Some (c - 48)
  else if (65 <=? c) && (c <=? 70) then Some (c + (10 - 65)) else None.
(** mosml.c 296-319 *)
Definition scandec (p : list Z) (max : Z) : outcome Z := scan_loop dec_digit 10 max p 0.
(** mosml.c 321-346 *)
Definition scanhex (p : list Z) (max : Z) : outcome Z := scan_loop hex_digit 16 max p 0.
(** mlvalues.h 66, converted to unsigned long *)
Definition Min_long_u : Z := u64 (- two62).
(** the tail of mosml.c 359-364 and 1211-1216: [res = sign * scan...] is an unsigned product assigned
    to a long, then boxed and checked *)
Definition int_literal (sign res : Z) : outcome Z :=
  let res := s64 (u64 (u64 sign * res)) in
  let v := Val_long res in
  if negb (Long_val v =? res) then Raise FailExn else Ret v.
(** mosml.c 348-369 *)
Definition sml_int_of_string (s : list Z) : outcome Z :=
  let '(sign, p) := if cchar s =? 126 then (-1, cnext s) else (1, s) in
  do n <- scandec p Min_long_u; int_literal sign n.
(** mosml.c 1194-1221; the two characters "0x" are skipped unread *)
Definition sml_int_of_hex (s : list Z) : outcome Z :=
  let '(sign, p) := if cchar s =? 126 then (-1, cnext s) else (1, s) in
  do n <- scanhex (cnext (cnext p)) Min_long_u; int_literal sign n.
(** mosml.c 1222-1236 *)
Definition sml_word_of_hex (s : list Z) : outcome Z :=
  do n <- scanhex (cnext (cnext (cnext s))) (u64 (2 * Min_long_u)); Ret (Val_long (s64 n)).
(** mosml.c 1238-1251 *)
Definition sml_word_of_dec (s : list Z) : outcome Z :=
  do n <- scandec (cnext (cnext s)) (u64 (2 * Min_long_u)); Ret (Val_long (s64 n)).

(** *** Printing through the C library *)

(** [sprintf] with "%ld" and "%lX" is C library code, not part of /repo: its result is taken to be
    the one prescribed by the C standard, the digits without superfluous zeros, preceded by "-" for
    a negative argument of "%ld". *)
Fixpoint digits_acc (fuel : nat) (base n : Z) (acc : list Z) : list Z :=
  match fuel with
  | O => acc
  | S fuel =>
    let d := n mod base in
    let acc := (if d <? 10 then d + 48 else d + 55) :: acc in
    if n <? base then acc else digits_acc fuel base (n / base) acc
  end.
Definition sprintf_ld (n : Z) : list Z :=
  if n <? 0 then 45 :: digits_acc 64 10 (- n) [] else digits_acc 64 10 n [].
Definition sprintf_lX (n : Z) : list Z := digits_acc 64 16 n [].

(** mosml.c 466-486; [justafterexp] is the flag; the result is written over the argument *)
Fixpoint mkSMLMinus_loop (p : list Z) (justafterexp : bool) : list Z :=
  match p with
  | [] => []
  | c :: p =>
    if c =? 43 then mkSMLMinus_loop p justafterexp
    else if c =? 45 then 126 :: mkSMLMinus_loop p justafterexp
    else if c =? 101 then 69 :: mkSMLMinus_loop p true
    else if c =? 48 then
      (if negb justafterexp then 48 :: mkSMLMinus_loop p false else mkSMLMinus_loop p false)
    else c :: mkSMLMinus_loop p false
  end.
(** mosml.c 488-495; the longest text, for the least integer, has 20 characters: it fits in the
    buffer of 32 bytes *)
Definition sml_string_of_int (arg : Z) : list Z := mkSMLMinus_loop (sprintf_ld (Long_val arg)) false.
(** mosml.c 1253-1259; the argument is shifted as an unsigned long *)
Definition sml_hexstring_of_word (arg : Z) : list Z := [48; 119; 120] ++ sprintf_lX (Z.shiftr (u64 arg) 1).
