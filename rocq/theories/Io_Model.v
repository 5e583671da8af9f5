(** Model of src/runtime/io.c and io.h: buffered channels.  A file is the list of its bytes; a
    descriptor has a position.  A write system call writes at least one and at most the given number of
    bytes (oracle [short]), a read call likewise (oracle [amount]); calls that fail or are interrupted are not
    modelled (an interrupted call is repeated).  Counters of system calls ([tick]) serve the oracles. *)
From Verif Require Import Base ArrayLib Mem.

(** io.h 10-12 *)
Definition IO_BUFFER_SIZE : Z := 4096.
(** conversions to unsigned and to int *)
Definition to_unsigned (n : Z) : Z := n mod 4294967296.
Definition to_int (n : Z) : Z := (n + 2147483648) mod 4294967296 - 2147483648.

(** The operating system: the file after writing the bytes [l] at position [p]; a gap is filled with
    zeros, writing nothing changes nothing. *)
Definition write_at (f : list Z) (p : Z) (l : list Z) : list Z :=
  match l with
  | [] => f
  | _ => firstn (Z.to_nat p) (f ++ repeat 0 (Z.to_nat (p - zlen f))) ++ l ++ skipn (Z.to_nat p + length l) f
  end.

(** ** Output *)
(** io.h 14-21: pointers into buff are kept as indices; [end] is IO_BUFFER_SIZE.  The last three fields
    are the operating system's: position of the descriptor, contents of the file, calls made *)
Record ochan := OCh { obuf : list Z; ocur : Z; omax : Z; ooff : Z; ofd : Z; ofile : list Z; otick : Z }.

Section Output.
Variable short : Z -> Z -> Z.

(** write(2) of the bytes [l], not empty: returns the rest *)
Definition sys_write (l : list Z) (c : ochan) : list Z * ochan :=
  let k := short (otick c) (zlen l) in
  let w := firstn (Z.to_nat k) l in
  (skipn (Z.to_nat k) l,
   OCh (obuf c) (ocur c) (omax c) (ooff c) (ofd c + zlen w) (write_at (ofile c) (ofd c) w) (otick c + 1)).
(** io.c 81-98: while n > 0 *)
Fixpoint write_loop (fuel : nat) (l : list Z) (c : ochan) : outcome ochan :=
  match l with
  | [] => Ret c
  | _ =>
      match fuel with
      | O => Diverge
      | S fuel => let '(r, c) := sys_write l c in write_loop fuel r c
      end
  end.
(** n is an int *)
Definition really_write (l : list Z) (c : ochan) : outcome ochan :=
  if to_int (zlen l) <=? 0 then Ret c
  else write_loop (length l) (firstn (Z.to_nat (to_int (zlen l))) l) c.

Definition set_buf (c : ochan) b cur max := OCh b cur max (ooff c) (ofd c) (ofile c) (otick c).
Definition add_off (c : ochan) n := OCh (obuf c) (ocur c) (omax c) (ooff c + n) (ofd c) (ofile c) (otick c).

(** io.c 100-111 *)
Definition flush (c : ochan) : outcome ochan :=
  let n := omax c in
  if 0 <? n then
    do l <- getn (obuf c) 0 n;
    do c <- really_write l c;
    let c := add_off c n in
    Ret (set_buf c (obuf c) 0 0)
  else Ret c.
(** io.h 29-32 *)
Definition putch (ch : Z) (c : ochan) : outcome ochan :=
  do c <- (if ocur c >=? IO_BUFFER_SIZE then flush c else Ret c);
  do b <- putn (obuf c) (ocur c) [ch mod 256];
  let cur := ocur c + 1 in
  Ret (set_buf c b cur (if cur >? omax c then cur else omax c)).
(** io.c 125-131 *)
Definition putword (w : Z) (c : ochan) : outcome ochan :=
  do c <- putch (Z.shiftr w 24) c;
  do c <- putch (Z.shiftr w 16) c;
  do c <- putch (Z.shiftr w 8) c;
  putch w c.
(** io.c 133-137: w becomes a uint32 *)
Definition output_int (w : Z) (c : ochan) : outcome ochan := putword (to_unsigned w) c.
(** io.c 139-167; [p]: the memory from p on *)
Definition putblock (p : list Z) (n : Z) (c : ochan) : outcome ochan :=
  let m := IO_BUFFER_SIZE - ocur c in
  if (ocur c =? 0) && (n >=? m) then
    do l <- getn p 0 n;
    do c <- really_write l c;
    Ret (add_off c n)
  else if n <=? m then
    do l <- getn p 0 n;
    do b <- putn (obuf c) (ocur c) l;
    let cur := ocur c + n in
    Ret (set_buf c b cur (if cur >? omax c then cur else omax c))
  else
    do l <- getn p 0 m;
    do b <- putn (obuf c) (ocur c) l;
    let c := set_buf c b (ocur c) (omax c) in
    let p := skipn (Z.to_nat m) p in
    let n := n - m in
    let m := IO_BUFFER_SIZE in
    do l <- getn (obuf c) 0 m;
    do c <- really_write l c;
    let c := add_off c m in
    if n <=? m then
      do l <- getn p 0 n;
      do b <- putn (obuf c) 0 l;
      Ret (set_buf c b n n)
    else
      do l <- getn p 0 n;
      do c <- really_write l c;
      let c := add_off c n in
      Ret (set_buf c (obuf c) 0 0).
(** io.c 169-175, for the whole string [s] (start = 0; the library passes the range of a string or a
    substring) *)
Definition output (s : list Z) (c : ochan) : outcome ochan := putblock s (to_unsigned (zlen s)) c.
(** io.c 177-191; a negative position is refused by lseek *)
Definition seek_out (dest : Z) (c : ochan) : outcome ochan :=
  if (dest >=? ooff c) && (dest <=? ooff c + omax c) then
    Ret (set_buf c (obuf c) (dest - ooff c) (omax c))
  else
    do c <- flush c;
    if dest <? 0 then Raise IoExn
    else Ret (OCh (obuf c) (ocur c) (omax c) dest dest (ofile c) (otick c)).
(** io.c 193-196 *)
Definition pos_out (c : ochan) : Z := ooff c + ocur c.

(** io.c 42-56: a channel on a descriptor at the start of a file with contents [f]; the buffer is not
    initialized ([b]) *)
Definition open_out (b f : list Z) : ochan := OCh b 0 0 0 0 f 0.

(** the operations of a program *)
Inductive oop := OChar (c : Z) | OInt (w : Z) | OBlock (s : list Z) | OFlush | OSeek (d : Z).
Definition ostep (o : oop) (c : ochan) : outcome ochan :=
  match o with
  | OChar ch => putch ch c
  | OInt w => output_int w c
  | OBlock s => output s c
  | OFlush => flush c
  | OSeek d => seek_out d c
  end.
Fixpoint orun (l : list oop) (c : ochan) : outcome ochan :=
  match l with [] => Ret c | o :: l => do c <- ostep o c; orun l c end.
End Output.

(** ** Input *)
(** the file does not change; [ifd]: position of the descriptor *)
Record ichan := ICh { ibuf : list Z; icur : Z; imax : Z; ioff : Z; ifd : Z; itick : Z }.

Section Input.
Variable f : list Z.
Variable amount : Z -> Z -> Z.
(** whether a non-blocking read finds data *)
Variable ready : Z -> bool.

(** read(2) of at most [n] bytes: the bytes, none at the end of the file *)
Definition sys_read (n : Z) (c : ichan) : list Z * ichan :=
  let avail := Z.min n (zlen f - ifd c) in
  if avail <=? 0 then ([], ICh (ibuf c) (icur c) (imax c) (ioff c) (ifd c) (itick c + 1))
  else
    let k := amount (itick c) avail in
    (firstn (Z.to_nat k) (skipn (Z.to_nat (ifd c)) f),
     ICh (ibuf c) (icur c) (imax c) (ioff c) (ifd c + k) (itick c + 1)).
(** io.c 248-320; [None]: retcode -1 because no data is ready *)
Definition really_read (n : Z) (nonblocking : bool) (c : ichan) : option (list Z) * ichan :=
  if nonblocking && negb (ready (itick c)) then
    (None, ICh (ibuf c) (icur c) (imax c) (ioff c) (ifd c) (itick c + 1))
  else let '(l, c) := sys_read n c in (Some l, c).

Definition iset (c : ichan) b cur max off := ICh b cur max off (ifd c) (itick c).

(** io.c 322-333; [None]: exception Size *)
Definition refill (c : ichan) : outcome (option Z * ichan) :=
  let '(r, c) := really_read IO_BUFFER_SIZE false c in
  match r with
  | None => UB
  | Some l =>
      do b <- putn (ibuf c) 0 l;
      let n := zlen l in
      if n =? 0 then Ret (None, iset c b (icur c) (imax c) (ioff c))
      else
        do ch <- sub_raw b 0;
        Ret (Some ch, iset c b 1 n (ioff c + n))
  end.
(** io.h 34-37 *)
Definition getch (c : ichan) : outcome (option Z * ichan) :=
  if icur c >=? imax c then refill c
  else
    do ch <- sub_raw (ibuf c) (icur c);
    Ret (Some ch, iset c (ibuf c) (icur c + 1) (imax c) (ioff c)).
(** io.c 342-352: [i] characters to go; [None]: exception Size *)
Fixpoint getword (i : nat) (res : Z) (c : ichan) : outcome (option Z * ichan) :=
  match i with
  | O => Ret (Some res, c)
  | S i =>
      do (r, c) <- getch c;
      match r with
      | None => Ret (None, c)
      | Some ch => getword i (to_unsigned (to_unsigned (Z.shiftl res 8) + ch)) c
      end
  end.
(** io.c 354-362 *)
Definition input_int (c : ichan) : outcome (option Z * ichan) :=
  do (r, c) <- getword 4 0 c;
  Ret (match r with None => None | Some w => Some (to_int w) end, c).
(** io.c 364-401: the bytes stored at p; [None]: -1 *)
Definition getblock (n : Z) (nonblocking : bool) (c : ichan) : outcome (option (list Z) * ichan) :=
  let m := imax c - icur c in
  if n <=? m then
    do l <- getn (ibuf c) (icur c) n;
    Ret (Some l, iset c (ibuf c) (icur c + n) (imax c) (ioff c))
  else if m >? 0 then
    do l <- getn (ibuf c) (icur c) m;
    Ret (Some l, iset c (ibuf c) (icur c + m) (imax c) (ioff c))
  else if n <? IO_BUFFER_SIZE then
    let '(r, c) := really_read IO_BUFFER_SIZE nonblocking c in
    match r with
    | None => Ret (None, c)
    | Some bytes =>
        let l := zlen bytes in
        do b <- putn (ibuf c) 0 bytes;
        let n := if n >? l then l else n in
        do res <- getn b 0 n;
        Ret (Some res, iset c b n l (ioff c + l))
    end
  else
    let c := iset c (ibuf c) 0 0 (ioff c) in
    let '(r, c) := really_read n nonblocking c in
    match r with
    | None => Ret (None, c)
    | Some bytes => Ret (Some bytes, iset c (ibuf c) (icur c) (imax c) (ioff c + zlen bytes))
    end.
(** io.c 403-413; [None]: end of file met before *)
Fixpoint really_getblock (fuel : nat) (n : Z) (c : ichan) : outcome (option (list Z) * ichan) :=
  if 0 <? n then
    match fuel with
    | O => Diverge
    | S fuel =>
        do (r, c) <- getblock (to_unsigned n) false c;
        match r with
        | None => UB
        | Some l =>
            if zlen l =? 0 then Ret (None, c)
            else
              do (r, c) <- really_getblock fuel (n - zlen l) c;
              Ret (match r with None => None | Some l' => Some (l ++ l') end, c)
        end
    end
  else Ret (Some [], c).
(** io.c 415-421 (nonblocking = 0), 423-435 (nonblocking = 1) *)
Definition input (n : Z) (nonblocking : bool) (c : ichan) := getblock (to_unsigned n) nonblocking c.
(** io.c 437-451 *)
Definition seek_in (dest : Z) (c : ichan) : outcome ichan :=
  if (dest >=? ioff c - imax c) && (dest <=? ioff c) then
    Ret (iset c (ibuf c) (imax c - (ioff c - dest)) (imax c) (ioff c))
  else if dest <? 0 then Raise IoExn
  else Ret (ICh (ibuf c) 0 0 dest dest (itick c)).
(** io.c 453-456 *)
Definition pos_in (c : ichan) : Z := ioff c - (imax c - icur c).
(** io.c 465-504 from the test on p on *)
Fixpoint scan_loop (fuel : nat) (p : Z) (c : ichan) : outcome (Z * ichan) :=
  match fuel with
  | O => Diverge
  | S fuel =>
      let found (p : Z) (c : ichan) :=
        do ch <- sub_raw (ibuf c) p;
        if ch =? 10 then Ret (p + 1 - icur c, c) else scan_loop fuel (p + 1) c in
      if p >=? imax c then
        do (p, c) <- (if icur c >? 0 then
                        do l <- getn (ibuf c) (icur c) (imax c - icur c);
                        do b <- putn (ibuf c) 0 l;
                        let n := icur c in
                        Ret (p - n, iset c b (icur c - n) (imax c - n) (ioff c))
                      else Ret (p, c));
        if imax c >=? IO_BUFFER_SIZE then Ret (- (imax c - icur c), c)
        else
          let '(r, c) := really_read (IO_BUFFER_SIZE - imax c) false c in
          match r with
          | None => UB
          | Some l =>
              do b <- putn (ibuf c) (imax c) l;
              let n := zlen l in
              if n =? 0 then Ret (- (imax c - icur c), iset c b (icur c) (imax c) (ioff c))
              else found p (iset c b (icur c) (imax c + n) (ioff c + n))
          end
      else found p c
  end.
Definition input_scan_line (c : ichan) : outcome (Z * ichan) :=
  scan_loop (S (Z.to_nat IO_BUFFER_SIZE)) (icur c) c.

(** io.c 42-56: a channel on a descriptor at the start of the file *)
Definition open_in (b : list Z) : ichan := ICh b 0 0 0 0 0.

(** the operations of a program and what they return *)
Inductive iop := IChar | IInt | IBlock (n : Z) | INoBlock (n : Z) | IReally (n : Z) | ILine | ISeek (d : Z) | IPos.
Inductive ires := RChar (c : Z) | RInt (w : Z) | RBytes (l : list Z) | RNoData | REof | RLine (r : Z) | RUnit | RPos (p : Z).
Definition istep (o : iop) (c : ichan) : outcome (ires * ichan) :=
  match o with
  | IChar => do (r, c) <- getch c; Ret (match r with None => REof | Some ch => RChar ch end, c)
  | IInt => do (r, c) <- input_int c; Ret (match r with None => REof | Some w => RInt w end, c)
  | IBlock n => do (r, c) <- input n false c; match r with None => UB | Some l => Ret (RBytes l, c) end
  | INoBlock n => do (r, c) <- input n true c; Ret (match r with None => RNoData | Some l => RBytes l end, c)
  | IReally n => do (r, c) <- really_getblock (S (Z.to_nat n)) n c; Ret (match r with None => REof | Some l => RBytes l end, c)
  | ILine => do (r, c) <- input_scan_line c; Ret (RLine r, c)
  | ISeek d => do c <- seek_in d c; Ret (RUnit, c)
  | IPos => Ret (RPos (pos_in c), c)
  end.
Fixpoint irun (l : list iop) (c : ichan) : outcome (list ires * ichan) :=
  match l with
  | [] => Ret ([], c)
  | o :: l => do (r, c) <- istep o c; do (rs, c) <- irun l c; Ret (r :: rs, c)
  end.
End Input.
