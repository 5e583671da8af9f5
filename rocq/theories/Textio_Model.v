(** Model of src/mosmllib/TextIO.sml: input and output streams, on the channels
    of Io_Model.  BinIO.sml calls the same functions on the same
    representation.

    Not modelled: names of streams and the argument of exception Io (here
    IoExn); opening files other than for reading or writing from the start;
    errors of the operating system (see Io_Model). *)
From Verif Require Import Base ArrayLib Mem Io_Model Buffer_Model.

Section Input.
(** the file, short reads, data ready (Io_Model); [junk n] is the contents of a
    string of length [n] made by create_string_ *)
Variable f : list Z.
Variable amount : Z -> Z -> Z.
Variable ready : Z -> bool.
Variable junk : Z -> list Z.

(** TextIO.sml 128; the name is left out *)
Record instream := mkIn { closed : bool; ic : ichan }.

(** runtime/str.c 46-52, blit_string: the length becomes an int, then an
    unsigned number of bytes *)
Definition blit_string_ (s : list Z) (i : Z) (d : list Z) (j len : Z) : outcome (list Z) :=
  let n := to_int len in
  if n <? 0 then UB else do l <- getn s i n; putn d j l.

(** TextIO.sml 13-16 *)
Definition sub_string_ (s : list Z) (start len : Z) : outcome (list Z) :=
  blit_string_ s start (junk len) 0 len.

(** set_nth_char: no check *)
Definition set_nth_char_ (s : list Z) (i c : Z) : outcome (list Z) := putn s i [c].

(** TextIO.sml 80-83: "input" and "input_nonblocking" store the characters in
    the string; the result is their number *)
Definition fast_input (c : ichan) (s : list Z) (i n : Z) : outcome (Z * list Z * ichan) :=
  do (r, c) <- Io_Model.input f amount ready n false c;
  match r with
  | None => UB
  | Some l => do s <- putn s i l; Ret (zlen l, s, c)
  end.
Definition fast_input_nonblocking (c : ichan) (s : list Z) (i n : Z) : outcome (option Z * list Z * ichan) :=
  do (r, c) <- Io_Model.input f amount ready n true c;
  match r with
  | None => Ret (None, s, c)
  | Some l => do s <- putn s i l; Ret (Some (zlen l), s, c)
  end.

(** TextIO.sml 122-124: input_char_ raises Size at the end (getch) *)
Definition try_input_char_ (c : ichan) : outcome (option Z * ichan) := getch f amount ready c.

(** TextIO.sml 148-151 *)
Definition closeIn (s : instream) : instream :=
  if closed s then s else mkIn true (ic s).

(** TextIO.sml 153-157 *)
Definition input1 (s : instream) : outcome (option Z * instream) :=
  if closed s then Ret (None, s)
  else do (r, c) <- try_input_char_ (ic s); Ret (r, mkIn false c).

(** TextIO.sml 159-165 *)
Definition input (s : instream) : outcome (list Z * instream) :=
  if closed s then Ret ([], s)
  else
    do (m, buff, c) <- fast_input (ic s) (junk 60) 0 60;
    do r <- (if m =? 0 then Ret [] else sub_string_ buff 0 m);
    Ret (r, mkIn false c).

(** TextIO.sml 167-174 *)
Definition inputNoBlock (s : instream) : outcome (option (list Z) * instream) :=
  if closed s then Ret (Some [], s)
  else
    do (m, buff, c) <- fast_input_nonblocking (ic s) (junk 60) 0 60;
    match m with
    | None => Ret (None, mkIn false c)
    | Some m => do r <- (if m =? 0 then Ret [] else sub_string_ buff 0 m); Ret (Some r, mkIn false c)
    end.

(** TextIO.sml 180-186, loop *)
Fixpoint inputN_loop (fuel : nat) (n : Z) (buff : list Z) (k : Z) (c : ichan) : outcome (list Z * ichan) :=
  match fuel with
  | O => Diverge
  | S fuel =>
      if k =? n then Ret (buff, c)
      else
        do (m, buff, c) <- fast_input c buff k (n - k);
        if m =? 0 then do r <- sub_string_ buff 0 k; Ret (r, c)
        else inputN_loop fuel n buff (k + m) c
  end.

(** TextIO.sml 176-186 *)
Definition inputN (s : instream) (n : Z) : outcome (list Z * instream) :=
  if (n <? 0) || (n >? maxSize) then Raise Size
  else if closed s then Ret ([], s)
  else do (r, c) <- inputN_loop (S (Z.to_nat n)) n (junk n) 0 (ic s); Ret (r, mkIn false c).

(** TextIO.sml 192-201 and 288-297, realloc: the new max and tmp *)
Definition realloc (max : Z) (tmp : list Z) : outcome (Z * list Z) :=
  do newmax <- (if max =? maxSize then Raise Size
                else if 2 * max >=? maxSize then Ret maxSize else Ret (2 * max));
  do newtmp <- blit_string_ tmp 0 (junk newmax) 0 max;
  Ret (newmax, newtmp).

(** TextIO.sml 203 *)
Definition chunksize (sz : Z) : Z := if sz >? 4096 then 4096 else sz.

(** TextIO.sml 204-208, h *)
Fixpoint inputAll_h (fuel : nat) (max : Z) (tmp : list Z) (len : Z) (c : ichan) : outcome (list Z * ichan) :=
  match fuel with
  | O => Diverge
  | S fuel =>
      do (m, tmp, c) <- fast_input c tmp len (chunksize (max - len));
      if m =? 0 then do r <- sub_string_ tmp 0 len; Ret (r, c)
      else
        do (max, tmp) <- (if max - (len + m) <? 127 then realloc max tmp else Ret (max, tmp));
        inputAll_h fuel max tmp (len + m) c
  end.

(** TextIO.sml 188-209 *)
Definition inputAll (s : instream) : outcome (list Z * instream) :=
  if closed s then Ret ([], s)
  else do (r, c) <- inputAll_h (S (length f)) 127 (junk 127) 0 (ic s); Ret (r, mkIn false c).

(** TextIO.sml 243-249 *)
Definition lookahead (s : instream) : outcome (option Z * instream) :=
  if closed s then Ret (None, s)
  else
    let pos := pos_in (ic s) in
    do (r, c) <- try_input_char_ (ic s);
    match r with
    | None => Ret (None, mkIn false c)
    | Some ch => do c <- seek_in pos c; Ret (Some ch, mkIn false c)
    end.

(** TextIO.sml 251 *)
Definition endOfStream (s : instream) : outcome (bool * instream) :=
  do (r, s) <- lookahead s;
  Ret (match r with None => true | Some _ => false end, s).

(** TextIO.sml 298-305, h *)
Fixpoint inputLine_h (fuel : nat) (max : Z) (tmp : list Z) (len : Z) (c : ichan) : outcome (list Z * ichan) :=
  match fuel with
  | O => Diverge
  | S fuel =>
      do (max, tmp) <- (if len >=? max then realloc max tmp else Ret (max, tmp));
      do (r, c) <- try_input_char_ c;
      match r with
      | None => do tmp <- set_nth_char_ tmp len 10; do r <- sub_string_ tmp 0 (len + 1); Ret (r, c)
      | Some ch =>
          do tmp <- set_nth_char_ tmp len ch;
          if ch =? 10 then do r <- sub_string_ tmp 0 (len + 1); Ret (r, c)
          else inputLine_h fuel max tmp (len + 1) c
      end
  end.

(** TextIO.sml 284-306 *)
Definition inputLine (s : instream) : outcome (option (list Z) * instream) :=
  if closed s then Ret (None, s)
  else
    do (e, s) <- endOfStream s;
    if e then Ret (None, s)
    else do (r, c) <- inputLine_h (S (length f)) 127 (junk 127) 0 (ic s); Ret (Some r, mkIn false c).

(** ** scanStream (TextIO.sml 211-237)

    The scanner is user code that is parametric in the type of states of the
    character source: what it does is a tree of calls of getc, each on 0 or on
    a state that getc returned, ending with its result and final state. *)
Inductive scanner (R : Type) :=
| ScDone (r : option (R * Z))
| ScGet (charno : Z) (k : option (Z * Z) -> scanner R).
Arguments ScDone {R} r.
Arguments ScGet {R} charno k.

(** getc: TextIO.sml 221-233; buf and read are the variables there *)
Definition getc (cl : bool) (charno : Z) (buf : list Z) (read : Z) (c : ichan)
  : outcome (option (Z * Z) * list Z * Z * ichan) :=
  if charno <? read then
    if charno >=? read - 512 then
      do ch <- sub_raw buf (charno mod 512); Ret (Some (ch, charno + 1), buf, read, c)
    else Raise FailExn
  else if cl then Ret (None, buf, read, c)
  else
    do (r, c) <- try_input_char_ c;
    match r with
    | None => Ret (None, buf, read, c)
    | Some ch =>
        do buf <- putn buf (charno mod 512) [ch];
        Ret (Some (ch, charno + 1), buf, read + 1, c)
    end.

Fixpoint scan_run {R} (sc : scanner R) (cl : bool) (buf : list Z) (read : Z) (c : ichan)
  : outcome (option (R * Z) * ichan) :=
  match sc with
  | ScDone r => Ret (r, c)
  | ScGet charno k =>
      do (r, buf, read, c) <- getc cl charno buf read c;
      scan_run (k r) cl buf read c
  end.

Definition scanStream {R} (sc : scanner R) (s : instream) : outcome (option R * instream) :=
  do (r, c) <- scan_run sc (closed s) (junk 512) 0 (ic s);
  Ret (match r with None => None | Some (x, _) => Some x end, mkIn (closed s) c).

(** the operations of a program and what they return *)
Inductive top := TInput1 | TInput | TInputNoBlock | TInputN (n : Z) | TInputAll | TInputLine
               | TLookahead | TEndOfStream | TCloseIn.
Inductive tres := TrChar (r : option Z) | TrString (l : list Z) | TrOption (r : option (list Z)) | TrBool (b : bool) | TrUnit.
Definition tstep (o : top) (s : instream) : outcome (tres * instream) :=
  match o with
  | TInput1 => do (r, s) <- input1 s; Ret (TrChar r, s)
  | TInput => do (r, s) <- input s; Ret (TrString r, s)
  | TInputNoBlock => do (r, s) <- inputNoBlock s; Ret (TrOption r, s)
  | TInputN n => do (r, s) <- inputN s n; Ret (TrString r, s)
  | TInputAll => do (r, s) <- inputAll s; Ret (TrString r, s)
  | TInputLine => do (r, s) <- inputLine s; Ret (TrOption r, s)
  | TLookahead => do (r, s) <- lookahead s; Ret (TrChar r, s)
  | TEndOfStream => do (r, s) <- endOfStream s; Ret (TrBool r, s)
  | TCloseIn => Ret (TrUnit, closeIn s)
  end.
Fixpoint trun (l : list top) (s : instream) : outcome (list tres * instream) :=
  match l with
  | [] => Ret ([], s)
  | o :: l => do (r, s) <- tstep o s; do (rs, s) <- trun l s; Ret (r :: rs, s)
  end.
End Input.
Arguments ScDone {R} r.
Arguments ScGet {R} charno k.

(** TextIO.sml 144-146, 91: a stream at the start of the file; [b] is the
    buffer of the new channel *)
Definition openIn (b : list Z) : instream := mkIn false (open_in b).

(** ** Output *)
Section Output.
Variable short : Z -> Z -> Z.

Record outstream := mkOut { oclosed : bool; oc : ochan }.

(** TextIO.sml 260-265; [err]: whether the stream is stdErr.  outputSubstr
    (267-275) does the same with the characters of the substring. *)
Definition output (err : bool) (o : outstream) (s : list Z) : outcome outstream :=
  if oclosed o then Raise IoExn
  else
    do c <- Io_Model.output short s (oc o);
    do c <- (if err then flush short c else Ret c);
    Ret (mkOut false c).

(** TextIO.sml 277-282 *)
Definition output1 (err : bool) (o : outstream) (ch : Z) : outcome outstream :=
  if oclosed o then Raise IoExn
  else
    do c <- putch short ch (oc o);
    do c <- (if err then flush short c else Ret c);
    Ret (mkOut false c).

(** TextIO.sml 318-322 *)
Definition flushOut (o : outstream) : outcome outstream :=
  if oclosed o then Raise IoExn else do c <- flush short (oc o); Ret (mkOut false c).

(** TextIO.sml 312-316; io.c 198-207, close_out: flush and close the descriptor, except
    for the descriptors of stdOut and stdErr ([std]), which sys_exit flushes
    (sys.c 90) *)
Definition closeOut (std : bool) (o : outstream) : outcome outstream :=
  if oclosed o then Ret o
  else do c <- (if std then Ret (oc o) else flush short (oc o)); Ret (mkOut true c).

Inductive oop := OOutput (s : list Z) | OOutput1 (c : Z) | OFlushOut.
Definition wstep (err : bool) (w : oop) (o : outstream) : outcome outstream :=
  match w with
  | OOutput s => output err o s
  | OOutput1 c => output1 err o c
  | OFlushOut => flushOut o
  end.
Fixpoint wrun (err : bool) (l : list oop) (o : outstream) : outcome outstream :=
  match l with [] => Ret o | w :: l => do o <- wstep err w o; wrun err l o end.
End Output.

(** TextIO.sml 308-310: the file is truncated *)
Definition openOut (b : list Z) : outstream := mkOut false (open_out b []).
