(** Model of the character escapes of mosmllib/Strbase.mlp (lines 104-337), of String.fromString,
    toString, fromCString, toCString (String.sml 177-193) and of Char.fromString, toString,
    fromCString, toCString (Char.sml 77-101); Unix (macintosh not defined).
    The functions fromMLescape and fromCescape take a character reader; it is always the same one
    (String.sml 178, Char.sml 80 and 91, Strbase.mlp 307): [getc s] at an index of the string s.
    Only the code of hexadecimal escapes can become large: its arithmetic goes through the opcodes
    (Scan_Model.v); the other sums are below 1000 and are plain. *)
From Verif Require Import Base ArrayLib Arith_Model Buffer_Model Scan_Model Substring_Model.

(** String.sml 178, Char.sml 80, 91, Strbase.mlp 307 *)
Definition getc (s : str) (i : Z) : outcome (option (Z * Z)) :=
  if i <? zlen s then do c <- sub_raw s i; Ret (Some (c, i + 1)) else Ret None.
(** Strbase.mlp 111 *)
Definition chr (i : Z) : outcome Z := if (i <? 0) || (i >? 255) then Raise BadEscape else Ret i.
(** Strbase.mlp 115-123 *)
Definition decval (c : Z) : Z := c - 48.
Definition digit (n : Z) : Z := 48 + n.
Definition hexval (c : Z) : Z := if (48 <=? c) && (c <=? 57) then c - 48 else (c - 55) mod 32.
Definition isOctDigit (c : Z) : bool := (48 <=? c) && (c <=? 55).
Definition isHexDigit (c : Z) : bool :=
  ((48 <=? c) && (c <=? 57)) || ((97 <=? c) && (c <=? 102)) || ((65 <=? c) && (c <=? 70)).
(** exp handle BadEscape => NONE (Strbase.mlp 175-176) *)
Definition handle_bad {A} (m : outcome A) : outcome (option A) :=
  match m with
  | Ret a => Ret (Some a)
  | Raise BadEscape => Ret None
  | Raise e => Raise e | UB => UB | Diverge => Diverge
  end.

(** Strbase.mlp 127-132 *)
Definition decimal {A} (cont : Z -> Z -> outcome A) (s : str) (src code : Z) : outcome A :=
  do r <- getc s src;
  match r with
  | None => Raise BadEscape
  | Some (c, rest) =>
    if (48 <=? c) && (c <=? 57) then cont rest (code * 10 + c - 48) else Raise BadEscape
  end.
(** Strbase.mlp 133-134 *)
Definition from3Dec (s : str) : Z -> Z -> outcome (Z * Z) :=
  decimal (decimal (decimal (fun src code => do c <- chr code; Ret (c, src)) s) s) s.
(** Strbase.mlp 126-177; [skip] tells whether we are in skipform (135-146) or in the main case
    (148-176).  fuel: one unit per character read *)
Fixpoint fromMLescape_ (fuel : nat) (skip : bool) (s : str) (source : Z) : outcome (option (Z * Z)) :=
  match fuel with
  | O => Diverge
  | S fuel =>
    do r <- getc s source;
    if skip then
      match r with
      | None => Ret None
      | Some (c, rest) =>
        if c =? 92 then
          do r2 <- getc s rest;
          match r2 with
          | None => Ret None
          | Some (c2, src2) => if c2 =? 92 then fromMLescape_ fuel false s src2 else Ret (Some (c2, src2))
          end
        else if (c =? 32) || ((9 <=? c) && (c <=? 13)) then fromMLescape_ fuel true s rest
        else Ret None
      end
    else
      match r with
      | None => Ret None
      | Some (c, rest) =>
        if c =? 97 then Ret (Some (7, rest))
        else if c =? 98 then Ret (Some (8, rest))
        else if c =? 116 then Ret (Some (9, rest))
        else if c =? 110 then Ret (Some (10, rest))
        else if c =? 114 then Ret (Some (13, rest))
        else if c =? 118 then Ret (Some (11, rest))
        else if c =? 102 then Ret (Some (12, rest))
        else if c =? 34 then Ret (Some (34, rest))
        else if c =? 92 then Ret (Some (92, rest))
        else if c =? 32 then fromMLescape_ fuel true s rest
        else if c =? 10 then fromMLescape_ fuel true s rest
        else if c =? 9 then fromMLescape_ fuel true s rest
        else if c =? 94 then
          do r2 <- getc s rest;
          match r2 with
          | None => Ret None
          | Some (c, rest) => if (64 <=? c) && (c <=? 95) then Ret (Some (c - 64, rest)) else Ret None
          end
        else handle_bad (from3Dec s source 0)
      end
  end.
Definition fromMLescape (s : str) (source : Z) : outcome (option (Z * Z)) :=
  fromMLescape_ (S (length s)) false s source.

(** Strbase.mlp 24-26 and 186-194, 209-216, 244-252: a fresh string filled character by character *)
Definition chars (junk : nat -> Z) (cs : list Z) : outcome str := init (create_ junk (zlen cs)) cs 0.
(** Strbase.mlp 179-216; the string constants are literals *)
Definition toMLescape (junk : nat -> Z) (c : Z) : outcome str :=
  if c =? 92 then Ret [92; 92]
  else if c =? 34 then Ret [92; 34]
  else if 32 <=? c then
    if c <=? 126 then chars junk [c]
    else chars junk [92; digit (c / 100); digit ((c / 10) mod 10); digit (c mod 10)]
  else if c =? 7 then Ret [92; 97]
  else if c =? 8 then Ret [92; 98]
  else if c =? 9 then Ret [92; 116]
  else if c =? 10 then Ret [92; 110]
  else if c =? 13 then Ret [92; 114]
  else if c =? 11 then Ret [92; 118]
  else if c =? 12 then Ret [92; 102]
  else chars junk [92; 94; c + 64].
(** Strbase.mlp 222-252 *)
Definition toCescape (junk : nat -> Z) (c : Z) : outcome str :=
  if c =? 92 then Ret [92; 92]
  else if c =? 63 then Ret [92; 63]
  else if c =? 39 then Ret [92; 39]
  else if c =? 34 then Ret [92; 34]
  else if (32 <=? c) && (c <=? 126) then chars junk [c]
  else if c =? 10 then Ret [92; 110]
  else if c =? 13 then Ret [92; 114]
  else if c =? 9 then Ret [92; 116]
  else if c =? 11 then Ret [92; 118]
  else if c =? 8 then Ret [92; 98]
  else if c =? 12 then Ret [92; 102]
  else if c =? 7 then Ret [92; 97]
  else chars junk [92; digit (c / 64); digit ((c / 8) mod 8); digit (c mod 8)].

(** Strbase.mlp 255-260 *)
Fixpoint fromHex (fuel : nat) (s : str) (src code : Z) : outcome (Z * Z) :=
  match fuel with
  | O => Diverge
  | S fuel =>
    do r <- getc s src;
    match r with
    | None => do c <- chr code; Ret (c, src)
    | Some (c, rest) =>
      if isHexDigit c then
        do m <- Scan_Model.imul code 16; do code <- Scan_Model.iadd m (hexval c); fromHex fuel s rest code
      else do c <- chr code; Ret (c, src)
    end
  end.
(** Strbase.mlp 261-269 *)
Definition octalOpt (cont : Z -> Z -> outcome (Z * Z)) (s : str) (src code : Z) : outcome (Z * Z) :=
  do r <- getc s src;
  match r with
  | None => do c <- chr code; Ret (c, src)
  | Some (c, rest) =>
    if (48 <=? c) && (c <=? 55) then cont rest (code * 8 + c - 48) else do c <- chr code; Ret (c, src)
  end.
Definition fromOct (s : str) : Z -> Z -> outcome (Z * Z) :=
  octalOpt (octalOpt (fun src code => do c <- chr code; Ret (c, src)) s) s.
(** Strbase.mlp 254-298 *)
Definition fromCescape' (s : str) (src : Z) : outcome (Z * Z) :=
  do r <- getc s src;
  match r with
  | None => Raise BadEscape
  | Some (c, src1) =>
    if c =? 110 then Ret (10, src1)
    else if c =? 114 then Ret (13, src1)
    else if c =? 116 then Ret (9, src1)
    else if c =? 118 then Ret (11, src1)
    else if c =? 98 then Ret (8, src1)
    else if c =? 102 then Ret (12, src1)
    else if c =? 97 then Ret (7, src1)
    else if c =? 92 then Ret (92, src1)
    else if c =? 63 then Ret (63, src1)
    else if c =? 39 then Ret (39, src1)
    else if c =? 34 then Ret (34, src1)
    else if c =? 120 then
      do r2 <- getc s src1;
      match r2 with
      | None => Raise BadEscape
      | Some (c, src2) =>
        if isHexDigit c then fromHex (S (length s)) s src2 (hexval c) else Raise BadEscape
      end
    else if isOctDigit c then fromOct s src1 (decval c)
    else Raise BadEscape
  end.
(** handle BadEscape => NONE | Overflow => NONE (Strbase.mlp 302-304, 334-336) *)
Definition handle_both {A} (m : outcome A) : outcome (option A) :=
  match m with
  | Ret a => Ret (Some a)
  | Raise BadEscape => Ret None
  | Raise Overflow => Ret None
  | Raise e => Raise e | UB => UB | Diverge => Diverge
  end.
(** Strbase.mlp 300-304 *)
Definition fromCescape (s : str) (src : Z) : outcome (option (Z * Z)) := handle_both (fromCescape' s src).

(** Strbase.mlp 310-323: the buffer (max, tmp), passed along; realloc and addchar *)
Definition addchar (junk : nat -> Z) (max : Z) (tmp : str) (len c : Z) : outcome (Z * str) :=
  do (max, tmp) <-
    (if len >=? max then
       do newmax <- Scan_Model.imul 2 max;
       do newtmp <- blit_ tmp 0 (create_ junk newmax) 0 max;
       Ret (newmax, newtmp)
     else Ret (max, tmp));
  do tmp <- update_raw tmp len c;
  Ret (max, tmp).
(** Strbase.mlp 321-331; each round reads at least one character *)
Fixpoint fromCString_h (fuel : nat) (junk : nat -> Z) (s : str) (max : Z) (tmp : str) (len src : Z) : outcome str :=
  match fuel with
  | O => Diverge
  | S fuel =>
    do r <- getc s src;
    match r with
    | None => blit_ tmp 0 (create_ junk len) 0 len
    | Some (c, src1) =>
      do (c, src2) <- (if c =? 92 then fromCescape' s src1 else Ret (c, src1));
      do (max, tmp) <- addchar junk max tmp len c;
      fromCString_h fuel junk s max tmp (len + 1) src2
    end
  end.
(** Strbase.mlp 306-337 *)
Definition fromCString (junk : nat -> Z) (s : str) : outcome (option str) :=
  handle_both (fromCString_h (S (length s)) junk s 1 (create_ junk 1) 0 0).

(** String.sml 179-186 *)
Fixpoint fromString_h (fuel : nat) (junk : nat -> Z) (s : str) (src : Z) (res : list Z) : outcome (option str) :=
  match fuel with
  | O => Diverge
  | S fuel =>
    do r <- getc s src;
    match r with
    | None => do t <- implode junk (rev res); Ret (Some t)
    | Some (c, src1) =>
      if c =? 92 then
        do e <- fromMLescape s src1;
        match e with
        | None => Ret None
        | Some (c, src2) => fromString_h fuel junk s src2 (c :: res)
        end
      else fromString_h fuel junk s src1 (c :: res)
    end
  end.
(** String.sml 177-187 *)
Definition fromString (junk : nat -> Z) (s : str) : outcome (option str) :=
  fromString_h (S (length s)) junk s 0 [].

(** Strbase.mlp 52-56 translate on a whole string (String.sml 189, 193), with a function that
    allocates its result; fuel = number of characters *)
Fixpoint translate_h (fuel : nat) (f : Z -> outcome str) (s : str) (stop j : Z) (res : list str) : outcome (list str) :=
  match fuel with
  | O => Diverge
  | S fuel =>
    if j >=? stop then Ret res
    else do c <- sub_raw s j; do x <- f c; translate_h fuel f s stop (j + 1) (x :: res)
  end.
Definition translate_ (junk : nat -> Z) (f : Z -> outcome str) (s : str) : outcome str :=
  do ps <- translate_h (loop (zlen s)) f s (zlen s) 0 []; revconcat junk ps.
Definition toString (junk : nat -> Z) (s : str) : outcome str := translate_ junk (toMLescape junk) s.
Definition toCString (junk : nat -> Z) (s : str) : outcome str := translate_ junk (toCescape junk) s.

(** Char.sml 77, 79-88, 90-99, 101 *)
Definition char_toString := toMLescape.
Definition char_toCString := toCescape.
Definition char_from (escape : str -> Z -> outcome (option (Z * Z))) (s : str) : outcome (option Z) :=
  do r <- getc s 0;
  match r with
  | None => Ret None
  | Some (c, rest) =>
    if c =? 92 then
      do e <- escape s rest;
      Ret (match e with None => None | Some (c, _) => Some c end)
    else Ret (Some c)
  end.
Definition char_fromString := char_from fromMLescape.
Definition char_fromCString := char_from fromCescape.
