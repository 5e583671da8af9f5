(** Model of mosmllib/Buffer.sml on 64-bit machines.  A buffer is the record of its two reference
    cells and its initial size; the internal string is never shared (contents copies it), so a
    buffer is passed by value.  Strings made by create_ hold arbitrary bytes: every operation gets a
    function giving them. *)
From Verif Require Import Base ArrayLib Copy_Model.

(** String.maxSize: Strbase.mlp 12 (64 bits): (2^54 - 1) * 8 - 1 *)
Definition maxSize : Z := 144115188075855863.
Notation byte := Z (only parsing).
(** Buffer.sml 6-8 *)
Record buf := Buf { elts : list byte; bsize : Z; initial : Z }.

(** create_string (str.c 18-21): n bytes with arbitrary contents *)
Definition create_ (junk : nat -> byte) (n : Z) : list byte := List.map junk (seq 0 (Z.to_nat n)).
(** blit_string (str.c 46-52) between two different strings *)
Definition blit_ (src : list byte) (o1 : Z) (dst : list byte) (o2 len : Z) : outcome (list byte) :=
  do st <- blit_string [src; dst] 0 o1 1 o2 len;
  match st with [_; dst] => Ret dst | _ => UB end.
(** Buffer.sml 16-21 *)
Definition new (junk : nat -> byte) (bufSize : Z) : outcome buf :=
  if (bufSize >? 0) && (bufSize <=? maxSize) then Ret (Buf (create_ junk bufSize) 0 bufSize) else Raise Size.
(** Buffer.sml 23 *)
Definition clear (b : buf) : buf := Buf (elts b) 0 (initial b).
(** Buffer.sml 25 *)
Definition size (b : buf) : Z := bsize b.
(** Buffer.sml 27-29 *)
Definition reset (junk : nat -> byte) (b : buf) : buf := Buf (create_ junk (initial b)) 0 (initial b).
(** Buffer.sml 31-33 *)
Definition contents (junk : nat -> byte) (b : buf) : outcome (list byte) :=
  blit_ (elts b) 0 (create_ junk (bsize b)) 0 (bsize b).
(** Buffer.sml 38-40; 2*new raises Overflow beyond an int (C01); the value doubles, so 64
    iterations are enough *)
Fixpoint roundUp (fuel : nat) (newSize new : Z) : outcome Z :=
  match fuel with
  | O => Diverge
  | S fuel =>
    if new <? newSize then (if in_intb (2 * new) then roundUp fuel newSize (2 * new) else Raise Overflow)
    else if new >? maxSize then Ret maxSize
    else Ret new
  end.
(** Buffer.sml 35-46.  s + more does not overflow: both are at most maxSize. *)
Definition resize (junk : nat -> byte) (b : buf) (more : Z) : outcome buf :=
  let newSize := bsize b + more in
  if newSize >? maxSize then Raise Size
  else
    let len := zlen (elts b) in
    do newLen <- (match (if in_intb (2 * len) then roundUp 64 newSize (2 * len) else Raise Overflow) with
                  | Raise Overflow => Ret maxSize
                  | r => r
                  end);
    do arr' <- blit_ (elts b) 0 (create_ junk newLen) 0 (bsize b);
    Ret (Buf arr' (bsize b) (initial b)).
(** Buffer.sml 49-53 *)
Definition addChar (junk : nat -> byte) (b : buf) (c : byte) : outcome buf :=
  do b <- (if bsize b =? zlen (elts b) then resize junk b 1 else Ret b);
  do e <- update_raw (elts b) (bsize b) c;
  Ret (Buf e (bsize b + 1) (initial b)).
(** Buffer.sml 55-60; a substring is (string, offset, length), Substring.base 57 *)
Definition addSubString (junk : nat -> byte) (b : buf) (x : list byte * Z * Z) : outcome buf :=
  let '(ss, off, len) := x in
  let newSize := bsize b + len in
  do b <- (if newSize >=? zlen (elts b) then resize junk b len else Ret b);
  do e <- blit_ ss off (elts b) (bsize b) len;
  Ret (Buf e newSize (initial b)).
(** Buffer.sml 62-67 *)
Definition addString (junk : nat -> byte) (b : buf) (x : list byte) : outcome buf :=
  let len := zlen x in
  let newSize := bsize b + len in
  do b <- (if newSize >=? zlen (elts b) then resize junk b len else Ret b);
  do e <- blit_ x 0 (elts b) (bsize b) len;
  Ret (Buf e newSize (initial b)).
