(** Model of src/runtime/externcp.c and interncp.c: structured output and input in the compact format
    (64-bit little-endian).  Memory, tags and the table of objects are those of Extern_Model.  The channel
    is the sequence of the bytes written or read (see C19 and C20 for channels). *)
From Verif Require Import Base ArrayLib Mem Io_Model Extern_Model.

(** intext.h 37-50 *)
Definition PREFIX_SMALL_BLOCK : Z := 0x80.
Definition PREFIX_SMALL_INT : Z := 0x40.
Definition PREFIX_SMALL_STRING : Z := 0x20.
Definition CODE_INT8 : Z := 0x0.
Definition CODE_INT16 : Z := 0x1.
Definition CODE_INT32 : Z := 0x2.
Definition CODE_INT64 : Z := 0x3.
Definition CODE_SHARED8 : Z := 0x4.
Definition CODE_SHARED16 : Z := 0x5.
Definition CODE_SHARED32 : Z := 0x6.
Definition CODE_BLOCK32 : Z := 0x8.
Definition CODE_STRING8 : Z := 0x9.
Definition CODE_STRING32 : Z := 0xA.
Definition CODE_DOUBLE : Z := 0xB.

(** mlvalues.h 63-64: Val_long, Long_val on words 0 .. 2^64-1 *)
Definition Val_long (n : Z) : Z := u64 (2 * n + 1).
Definition Long_val (v : Z) : Z := s64 v / 2.

(** ** Output *)
(** externcp.c 17: the [n] low bytes, most significant first *)
Fixpoint be_bytes (n : nat) (val : Z) : list Z :=
  match n with O => [] | S n => (val / 2 ^ (8 * Z.of_nat n)) mod 256 :: be_bytes n val end.
(** externcp.c 13-18: output_number *)
Definition output_number (code val : Z) (nbytes : nat) : list Z := code mod 256 :: be_bytes nbytes val.
Definition putch_bytes (c : Z) : list Z := [c mod 256].

(** the table, obj_counter, size_32, size_64, the bytes written *)
Record cst := C { ctab : list (Z * Z); ccnt : Z; c32 : Z; c64 : Z; cout : list Z }.
Definition put (bs : list Z) (s : cst) : cst := C (ctab s) (ccnt s) (c32 s) (c64 s) (cout s ++ bs).
Definition grow (n32 n64 : Z) (s : cst) : cst := C (ctab s) (ccnt s) (c32 s + n32) (c64 s + n64) (cout s).

(** externcp.c 28-40: an integer *)
Definition emit_int (n : Z) : list Z :=
  if (n >=? 0) && (n <? 0x40) then putch_bytes (PREFIX_SMALL_INT + n)
  else if (n >=? -128) && (n <? 128) then output_number CODE_INT8 n 1
  else if (n >=? -32768) && (n <? 32768) then output_number CODE_INT16 n 2
  else if (n <? -2147483648) || (n >=? 2147483648) then output_number CODE_INT64 n 8
  else output_number CODE_INT32 n 4.
(** externcp.c 60-67: a reference to an earlier object *)
Definition emit_shared (d : Z) : list Z :=
  if d <? 0x100 then output_number CODE_SHARED8 d 1
  else if d <? 0x10000 then output_number CODE_SHARED16 d 2
  else output_number CODE_SHARED32 d 4.
(** externcp.c 115-119: the header of a block *)
Definition emit_header (hd tag sz : Z) : list Z :=
  if (tag <? 16) && (sz <? 8) then putch_bytes (PREFIX_SMALL_BLOCK + tag + 16 * sz)
  else output_number CODE_BLOCK32 hd 4.
(** externcp.c 79-86: the length of a string *)
Definition emit_len (len : Z) : list Z :=
  if len <? 0x20 then putch_bytes (PREFIX_SMALL_STRING + len)
  else if len <? 0x100 then output_number CODE_STRING8 len 1
  else output_number CODE_STRING32 len 4.

(** externcp.c 122-124: the fields in order ([emit] for each); the tail call for the last field is a call here *)
Fixpoint each_field (m : memory) (emit : Z -> cst -> outcome cst) (n : nat) (a : Z) (s : cst) : outcome cst :=
  match n with
  | O => Ret s
  | S n => do v <- ld m a; do s <- emit v s; each_field m emit n (a + 8) s
  end.
(** externcp.c 24-129.  [fuel]: the depth of nesting; C stack overflow is not modelled.  Invalid_argument is
    FailExn *)
Fixpoint emit_compact (m : memory) (fuel : nat) (v : Z) (s : cst) : outcome cst :=
  match fuel with
  | O => Diverge
  | S fuel =>
      if is_long v then Ret (put (emit_int (Long_val v)) s)
      else
        do hd <- ld m (v - 8);
        let tag := Tag_hd hd in
        let sz := Wosize_hd hd in
        if sz =? 0 then
          Ret (put (if tag <? 16 then putch_bytes (PREFIX_SMALL_BLOCK + tag) else output_number CODE_BLOCK32 hd 4) s)
        else
          do tab <- (if 2 * ccnt s >=? zlen (ctab s) then resize_table (ctab s) else Ret (ctab s));
          do (h, found) <- find (length tab) tab (hash (zlen tab) v) v;
          match found with
          | Some ofs => Ret (C tab (ccnt s) (c32 s) (c64 s) (cout s ++ emit_shared (ccnt s - ofs)))
          | None =>
              do tab <- update_raw tab h (v, ccnt s);
              let s := C tab (ccnt s + 1) (c32 s) (c64 s) (cout s) in
              if tag =? String_tag then
                do ws <- load m v (Z.to_nat sz);
                let b := concat (map le_bytes ws) in
                do len <- string_length b;
                do chars <- getn b 0 len;
                Ret (grow (1 + (len + 4) / 4) (1 + (len + 8) / 8) (put (emit_len len ++ chars) s))
              else if tag =? Double_tag then
                do w <- ld m v;
                Ret (grow 3 2 (put (putch_bytes CODE_DOUBLE ++ rev (le_bytes w)) s))
              else if (tag =? Abstract_tag) || (tag =? Final_tag) then Raise FailExn
              else if tag =? Closure_tag then Raise FailExn
              else
                each_field m (emit_compact m fuel) (Z.to_nat sz) v
                  (grow (1 + sz) (1 + sz) (put (emit_header hd tag sz) s))
          end
  end.
Definition Compact_magic_number : Z := 0x8495A6B9 + 4.
(** externcp.c 131-161: the bytes written; the three words written first as zeros and overwritten at the end
    are shown with their final contents *)
Definition extern_compact_val (m : memory) (fuel : nat) (v : Z) : outcome (list Z) :=
  do s <- emit_compact m fuel v (C (alloc_table 2039) 0 0 0 []);
  if (c32 s >=? 2 ^ 32) || (c64 s >=? 2 ^ 32) then Raise FailExn           (* object too big *)
  else Ret (word_bytes Compact_magic_number ++ word_bytes (ccnt s) ++ word_bytes (c32 s) ++ word_bytes (c64 s) ++ cout s).

(** ** Input *)
(** io.h 34-37, io.c 322-333: getch *)
Definition get_ch (inp : list Z) : outcome (Z * list Z) :=
  match inp with [] => Raise IoExn | c :: r => Ret (c, r) end.
(** interncp.c 26-28 *)
Fixpoint more_bytes (n : nat) (res : Z) (inp : list Z) : outcome (Z * list Z) :=
  match n with
  | O => Ret (res, inp)
  | S n => do (c, inp) <- get_ch inp; more_bytes n (s64 (res * 256 + c)) inp
  end.
(** interncp.c 19-29: input_bytes *)
Definition input_bytes (nbytes : nat) (sign_extend : bool) (inp : list Z) : outcome (Z * list Z) :=
  do (c, inp) <- get_ch inp;
  more_bytes (nbytes - 1) (if sign_extend then (if c <? 128 then c else c - 256) else c) inp.

(** the words of the block allocated for the structure, intern_ptr (in words from its start),
    intern_obj_table up to obj_counter, the input *)
Record rst := R { rblk : list Z; rptr : Z; robjs : list Z; rinp : list Z }.

Section Input.
Variables atoms start color : Z.
(** number of objects the table has room for *)
Variable num_objects : Z.
(** intern_obj_table[obj_counter++] = v *)
Definition push_obj (v : Z) (r : rst) : outcome rst :=
  if zlen (robjs r) <? num_objects then Ret (R (rblk r) (rptr r) (robjs r ++ [v]) (rinp r)) else UB.
(** interncp.c 57-59: the fields in order; the last one is a tail call there.  Each value is stored into its
    field after it is read here (before its own fields are read there, when it is a block) *)
Fixpoint read_fields (read : rst -> outcome (Z * rst)) (n : nat) (dest : Z) (r : rst) : outcome rst :=
  match n with
  | O => Ret r
  | S n =>
      do (v, r) <- read r;
      do b <- update_raw (rblk r) dest v;
      read_fields read n (dest + 1) (R b (rptr r) (robjs r) (rinp r))
  end.
(** interncp.c 47-60 *)
Definition read_block (read : rst -> outcome (Z * rst)) (tag size : Z) (r : rst) : outcome (Z * rst) :=
  if size =? 0 then Ret (Atom atoms tag, r)
  else
    let v := start + 8 * (rptr r) + 8 in
    do r <- push_obj v r;
    do b <- update_raw (rblk r) (rptr r) (Make_header size tag color);
    let dest := rptr r + 1 in
    do r <- read_fields read (Z.to_nat size) dest (R b (rptr r + 1 + size) (robjs r) (rinp r));
    Ret (v, r).
(** interncp.c 69-78; a string cut short by the end of the input is not detected *)
Definition read_string (len : Z) (r : rst) : outcome (Z * rst) :=
  let size := (len + 8) / 8 in
  let v := start + 8 * (rptr r) + 8 in
  do r <- push_obj v r;
  do b <- update_raw (rblk r) (rptr r) (Make_header size String_tag color);
  do ws <- getn b (rptr r + 1) size;
  let s := concat (map le_bytes ws) in
  do s <- putn s (8 * (size - 1)) (repeat 0 8);
  let ofs_ind := 8 * size - 1 in
  do s <- putn s ofs_ind [(ofs_ind - len) mod 256];
  do s <- putn s 0 (firstn (Z.to_nat len) (rinp r));
  do b <- putn b (rptr r + 1) (words_of (Z.to_nat size) s);
  Ret (v, R b (rptr r + 1 + size) (robjs r) (skipn (Z.to_nat len) (rinp r))).
(** interncp.c 123-137 *)
Definition read_double (r : rst) : outcome (Z * rst) :=
  let v := start + 8 * (rptr r) + 8 in
  do r <- push_obj v r;
  do b <- update_raw (rblk r) (rptr r) (Make_header 1 Double_tag color);
  do ws <- getn b (rptr r + 1) 1;
  do s <- putn (concat (map le_bytes ws)) 0 (firstn 8 (rinp r));
  do b <- putn b (rptr r + 1) [word_of (rev s)];
  Ret (v, R b (rptr r + 1 + 1) (robjs r) (skipn 8 (rinp r))).
(** interncp.c 102-105 *)
Definition read_shared (ofs : Z) (r : rst) : outcome (Z * rst) :=
  do v <- sub_raw (robjs r) (zlen (robjs r) - ofs); Ret (v, r).
Definition with_inp (r : rst) (inp : list Z) : rst := R (rblk r) (rptr r) (robjs r) inp.

(** interncp.c 31-142.  An unknown code (malformed input) stores whatever value was read before; it is taken as
    undefined here *)
Fixpoint read_compact (fuel : nat) (r : rst) : outcome (Z * rst) :=
  match fuel with
  | O => Diverge
  | S fuel =>
      do (code, inp) <- get_ch (rinp r);
      let r := with_inp r inp in
      let number n sign k := do (x, inp) <- input_bytes n sign inp; k x (with_inp r inp) in
      if code >=? PREFIX_SMALL_INT then
        if code >=? PREFIX_SMALL_BLOCK then read_block (read_compact fuel) (code mod 16) (code / 16 mod 8) r
        else Ret (Val_long (code mod 64), r)
      else if code >=? PREFIX_SMALL_STRING then read_string (code mod 32) r
      else if code =? CODE_INT8 then number 1%nat true (fun n r => Ret (Val_long n, r))
      else if code =? CODE_INT16 then number 2%nat true (fun n r => Ret (Val_long n, r))
      else if code =? CODE_INT32 then number 4%nat true (fun n r => Ret (Val_long n, r))
      else if code =? CODE_INT64 then number 8%nat true (fun n r => Ret (Val_long n, r))
      else if code =? CODE_SHARED8 then number 1%nat false read_shared
      else if code =? CODE_SHARED16 then number 2%nat false read_shared
      else if code =? CODE_SHARED32 then number 4%nat false read_shared
      else if code =? CODE_BLOCK32 then
        number 4%nat false (fun hd r => read_block (read_compact fuel) (Tag_hd hd) (Wosize_hd hd) r)
      else if code =? CODE_STRING8 then number 1%nat false read_string
      else if code =? CODE_STRING32 then number 4%nat false read_string
      else if code =? CODE_DOUBLE then read_double r
      else UB
  end.
End Input.

(** interncp.c 144-173, after the magic number (intern.c 551-561).  [alloc] as in Extern_Model, [junk n]: the [n]
    words found in the new block; with no words announced, no block and no table are set up (using them is
    undefined).  [fuel]: every recursive call has consumed a byte *)
Definition intern_compact_val (atoms : Z) (alloc : Z -> option (Z * Z)) (junk : Z -> list Z) (m : memory) (inp : list Z) :
  outcome (Z * memory * list Z) :=
  do (magic, inp) <- get_word inp;
  if negb (magic =? Compact_magic_number) then Raise FailExn
  else
    do (num_objects, inp) <- get_word inp;
    do (_, inp) <- get_word inp;
    do (whsize, inp) <- get_word inp;
    let fuel := S (length inp) in
    if whsize =? 0 then
      do (v, r) <- read_compact atoms 0 0 0 fuel (R [] 0 [] inp);
      Ret (v, m, rinp r)
    else
      match alloc (whsize - 1) with
      | None => Raise OutOfMemory
      | Some (start, color) =>
          do (v, r) <- read_compact atoms start color num_objects fuel (R (junk whsize) 0 [] inp);
          Ret (v, with_region m start (rblk r), rinp r)
      end.
