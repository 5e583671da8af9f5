(** Model of Word8 (/repo/src/mosmllib/Word8.sml).  A word8 is a tagged machine value; the
    primitives are those of Arith_Model.v, as for Word; the int operations of scan and fmt are
    those of Scan_Model.v.  Word8.sml's [toInt], [fromInt_], [toLarge], [largeWordToWord_],
    [word2int] are the primitive "identity".  div, mod and the comparisons on word8 are those of
    word (compiler/Ovlres.sml 96-107). *)
From Verif Require Import Base Arith_Model Scan_Model.

(** Word8.sml 23 *)
Definition norm (w : Z) : outcome Z := ANDINT w (lit 255).
(** Word8.sml 28-31, 41-44 *)
Definition b_toIntX (w : Z) : outcome Z :=
  if LTINT w (lit 128) then Ret w else ORINT w (lit (-256)).
Definition b_toLargeX (w : Z) : outcome Z :=
  if LTINT w (lit 128) then Ret w else ORINT w (lit (-256)).
(** Word8.sml 32, 45 *)
Definition b_fromInt (i : Z) : outcome Z := norm i.
Definition b_fromLarge (w : Z) : outcome Z := norm w.
(** Word8.sml 52-55 *)
Definition b_orb (x y : Z) : outcome Z := ORINT x y.
Definition b_andb (x y : Z) : outcome Z := ANDINT x y.
Definition b_xorb (x y : Z) : outcome Z := XORINT x y.
Definition b_notb (x : Z) : outcome Z := do y <- XORINT x (lit (-1)); norm y.
(** Word8.sml 57 *)
Definition b_neg (w : Z) : outcome Z := do n <- SMLNEGINT w; b_fromInt n.
(** Word8.sml 59-76 *)
Definition b_count_out (k : Z) : bool := GEINT k (lit 8) || LTINT k (lit 0).
Definition b_shl (w k : Z) : outcome Z :=
  if b_count_out k then Ret (lit 0) else do x <- SHIFTLEFTINT w k; norm x.
Definition b_shr (w k : Z) : outcome Z :=
  if b_count_out k then Ret (lit 0) else SHIFTRIGHTINTUNSIGNED w k.
Definition b_asr (w k : Z) : outcome Z :=
  if LTINT w (lit 128) then
    if b_count_out k then Ret (lit 0) else SHIFTRIGHTINTUNSIGNED w k
  else if b_count_out k then norm (lit (-1))
  else do x <- ORINT w (lit (-256)); do y <- SHIFTRIGHTINTSIGNED x k; norm y.
(** Word8.sml 156-160 *)
Definition b_add (x y : Z) : outcome Z := do z <- ADDINT x y; norm z.
Definition b_sub (x y : Z) : outcome Z := do z <- SUBINT x y; norm z.
Definition b_mul (x y : Z) : outcome Z := do z <- MULINT x y; norm z.
Definition b_div (x y : Z) : outcome Z := DIVINT x y.
Definition b_mod (x y : Z) : outcome Z := MODINT x y.
(** Word8.sml 162-165 *)
Definition b_min (x y : Z) : Z := if GTUNSIGN x y then y else x.
Definition b_max (x y : Z) : Z := if GTUNSIGN x y then x else y.
Definition b_compare (x y : Z) : comparison :=
  if LTUNSIGN x y then Lt else if GTUNSIGN x y then Gt else Eq.

Section Reader.
Context {S : Type}.
Variable getc : S -> option (Z * S).
(** Word8.sml 109-111 *)
Definition b_return (res : Z) (src : S) : outcome (option (Z * S)) :=
  if res <? 256 then Ret (Some (Val_long res, src)) else Raise Overflow.
(** Word8.sml 115-122 *)
Fixpoint b_digr (r : radix) (fuel : nat) (res : Z) (src : S) : outcome (option (Z * S)) :=
  match fuel with
  | O => Diverge
  | Datatypes.S fuel =>
    match getc src with
    | None => b_return res src
    | Some (c, rest) =>
      if radix_digit r c then
        do m <- imul (radix_factor r) res;
        do hv <- hexval c;
        do res <- iadd m hv;
        b_digr r fuel res rest
      else b_return res src
    end
  end.
(** Word8.sml 112-125 *)
Definition b_dig1 (r : radix) (fuel : nat) (inp : option (Z * S)) : outcome (option (Z * S)) :=
  match inp with
  | None => Ret None
  | Some (c, rest) =>
    if radix_digit r c then do hv <- hexval c; b_digr r fuel hv rest else Ret None
  end.
(** Word8.sml 126-129 *)
Definition b_getdigs (r : radix) (fuel : nat) (after0 src : S) : outcome (option (Z * S)) :=
  do res <- b_dig1 r fuel (getc src);
  match res with
  | None => b_return 0 after0
  | Some _ => Ret res
  end.
(** Word8.sml 130-137 *)
Definition b_hexprefix (r : radix) (fuel : nat) (after0 src : S) : outcome (option (Z * S)) :=
  if negb (radix_eqb r HEX) then b_getdigs r fuel after0 src
  else
    match getc src with
    | Some (c, rest) =>
      if (c =? 120) || (c =? 88) then b_getdigs r fuel after0 rest
      else b_getdigs r fuel after0 src
    | None => b_return 0 after0
    end.
(** Word8.sml 100-147 *)
Definition b_scan (r : radix) (fuel : nat) (source : S) : outcome (option (Z * S)) :=
  do source <- dropl getc isSpace fuel source;
  match getc source with
  | Some (c, after0) =>
    if c =? 48 then
      match getc after0 with
      | Some (c, src2) =>
        if c =? 119 then b_hexprefix r fuel after0 src2 else b_hexprefix r fuel after0 after0
      | None => b_return 0 after0
      end
    else b_dig1 r fuel (getc source)
  | None => Ret None
  end.
End Reader.
(** Word8.sml 154 *)
Definition b_fromString := scanString (fun getc => b_scan getc HEX).

(** Word8.sml 89-97, 149-153: [h] is that of Int.mlp *)
Definition b_conv (radix w : Z) : outcome (list Z) :=
  let n := Long_val w in
  do q <- idiv n radix;
  do m <- imod n radix;
  do c <- prhex m;
  conv_h 64 radix q [c].
Definition b_fmt (r : radix) (w : Z) : outcome (list Z) := b_conv (radix_factor r) w.
Definition b_toString (w : Z) : outcome (list Z) := b_conv 16 w.
