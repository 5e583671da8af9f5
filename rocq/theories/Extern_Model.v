(** Model of src/runtime/extern.c and intern.c (structured output and input, fast format, 64-bit
    little-endian) and of string_mlval and mlval_string in mosml.c.  Memory is a partial map from word
    addresses to words (0 .. 2^64-1); reading outside is undefined.  The channel is the sequence of the bytes
    written or read (see C19 and C20 for channels). *)
From Verif Require Import Base ArrayLib Mem Io_Model.

Notation memory := (Z -> option Z).
Definition ld (m : memory) (a : Z) : outcome Z := match m a with Some w => Ret w | None => UB end.

(** mlvalues.h 84-85, 127-183: tags and headers; gc.h: Make_header *)
Definition Tag_hd (hd : Z) : Z := hd mod 256.
Definition Wosize_hd (hd : Z) : Z := hd / 1024.
Definition Make_header (sz tag color : Z) : Z := sz * 1024 + color + tag.
Definition White : Z := 0.
Definition Black : Z := 768.
Definition No_scan_tag : Z := 251.
Definition Closure_tag : Z := 249.
Definition Weak_tag : Z := 251.
Definition Abstract_tag : Z := 252.
Definition String_tag : Z := 253.
Definition Double_tag : Z := 254.
Definition Final_tag : Z := 255.
Definition Max_wosize : Z := 18014398509481983.
Definition is_long (v : Z) : bool := Z.odd v.

(** ** The table of objects already emitted: (obj, ofs), obj = 0 when the slot is free *)
(** intext.h 77: Hash, for a table of [n] slots *)
Definition hash (n v : Z) : Z := (v / 8) mod n.
(** h++; if (h >= extern_table_size) h = 0; *)
Definition next (n h : Z) : Z := if h + 1 >=? n then 0 else h + 1.
(** extern.c 37-40, 44-47 *)
Fixpoint find_free (fuel : nat) (t : list (Z * Z)) (h : Z) : outcome Z :=
  match fuel with
  | O => Diverge
  | S fuel =>
      do (obj, _) <- sub_raw t h;
      if obj =? 0 then Ret h else find_free fuel t (next (zlen t) h)
  end.
(** extern.c 69-73: the slot found, with the offset when it holds [v] *)
Fixpoint find (fuel : nat) (t : list (Z * Z)) (h v : Z) : outcome (Z * option Z) :=
  match fuel with
  | O => Diverge
  | S fuel =>
      do (obj, ofs) <- sub_raw t h;
      if obj =? 0 then Ret (h, None)
      else if obj =? v then Ret (h, Some ofs)
      else find fuel t (next (zlen t) h) v
  end.
(** extern.c 14-22; the offsets of free slots are not initialized *)
Definition alloc_table (n : Z) : list (Z * Z) := repeat (0, 0) (Z.to_nat n).
(** extern.c 33-43: the loop over the old table *)
Fixpoint rehash (old t : list (Z * Z)) : outcome (list (Z * Z)) :=
  match old with
  | [] => Ret t
  | (obj, ofs) :: old =>
      do h <- find_free (length t) t (hash (zlen t) obj);
      do t <- update_raw t h (obj, ofs);
      rehash old t
  end.
(** extern.c 24-45 *)
Definition resize_table (old : list (Z * Z)) : outcome (list (Z * Z)) :=
  rehash old (alloc_table (2 * zlen old)).

(** ** Output *)
(** the table, extern_table_used, the words of extern_block up to extern_pos, extern_size *)
Record xst := X { xtab : list (Z * Z); xused : Z; xblk : list Z; xsize : Z }.

(** extern.c 49-54, 75: while (end_pos >= extern_size) resize_result(); *)
Fixpoint resize_result (fuel : nat) (end_pos size : Z) : outcome Z :=
  if end_pos >=? size then
    match fuel with O => Diverge | S fuel => resize_result fuel end_pos (2 * size) end
  else Ret size.
(** [n] words at address [a] *)
Fixpoint load (m : memory) (a : Z) (n : nat) : outcome (list Z) :=
  match n with
  | O => Ret []
  | S n => do w <- ld m a; do r <- load m (a + 8) n; Ret (w :: r)
  end.
(** extern.c 56-89 *)
Definition emit (m : memory) (v : Z) (s : xst) : outcome (Z * xst) :=
  if is_long v then Ret (v, s)
  else
    do hd <- ld m (v - 8);
    let size := Wosize_hd hd in
    if size =? 0 then Ret (4 * Tag_hd hd + 2, s)
    else
      do tab <- (if 2 * xused s >=? zlen (xtab s) then resize_table (xtab s) else Ret (xtab s));
      do (h, found) <- find (length tab) tab (hash (zlen tab) v) v;
      match found with
      | Some ofs => Ret (ofs, X tab (xused s) (xblk s) (xsize s))
      | None =>
          let pos := zlen (xblk s) in
          let end_pos := pos + 1 + size in
          do xs <- resize_result (Z.to_nat end_pos) end_pos (xsize s);
          if end_pos <=? xs then
            let res := (pos + 1) * 8 in
            do tab <- update_raw tab h (v, res);
            do ws <- load m v (Z.to_nat size);
            Ret (res, X tab (xused s + 1) (xblk s ++ Make_header size (Tag_hd hd) Black :: ws) xs)
          else UB
      end.
(** extern.c 116-121: [sz] fields from [read_pos] on *)
Fixpoint emit_fields (m : memory) (sz : nat) (read_pos : Z) (s : xst) : outcome xst :=
  match sz with
  | O => Ret s
  | S sz =>
      do v <- sub_raw (xblk s) read_pos;
      do (ofs, s) <- emit m v s;
      do b <- update_raw (xblk s) read_pos ofs;
      emit_fields m sz (read_pos + 1) (X (xtab s) (xused s) b (xsize s))
  end.
(** extern.c 101-125; Invalid_argument is an exception FailExn here *)
Fixpoint emit_loop (m : memory) (fuel : nat) (read_pos : Z) (s : xst) : outcome xst :=
  if read_pos <? zlen (xblk s) then
    match fuel with
    | O => Diverge
    | S fuel =>
        do hd <- sub_raw (xblk s) read_pos;
        let read_pos := read_pos + 1 in
        let sz := Wosize_hd hd in
        let tag := Tag_hd hd in
        if (tag =? String_tag) || (tag =? Double_tag) then emit_loop m fuel (read_pos + sz) s
        else if (tag =? Abstract_tag) || (tag =? Final_tag) then Raise FailExn
        else if tag =? Closure_tag then Raise FailExn
        else
          do s <- emit_fields m (Z.to_nat sz) read_pos s;
          emit_loop m fuel (read_pos + sz) s
    end
  else Ret s.
(** extern.c 91-127, 135-142; [fuel] bounds the number of objects *)
Definition emit_all (m : memory) (fuel : nat) (root : Z) : outcome (Z * list Z) :=
  do (res, s) <- emit m root (X (alloc_table 2039) 0 [] 4096);
  do s <- emit_loop m fuel 0 s;
  Ret (res, xblk s).

(** words and bytes in memory *)
Definition le_bytes (w : Z) : list Z :=
  [w mod 256; w / 2 ^ 8 mod 256; w / 2 ^ 16 mod 256; w / 2 ^ 24 mod 256;
   w / 2 ^ 32 mod 256; w / 2 ^ 40 mod 256; w / 2 ^ 48 mod 256; w / 2 ^ 56 mod 256].
Definition word_of (b : list Z) : Z :=
  match b with
  | [b0; b1; b2; b3; b4; b5; b6; b7] =>
      b0 + 2 ^ 8 * b1 + 2 ^ 16 * b2 + 2 ^ 24 * b3 + 2 ^ 32 * b4 + 2 ^ 40 * b5 + 2 ^ 48 * b6 + 2 ^ 56 * b7
  | _ => 0
  end.
(** [n] words stored in the bytes [b] *)
Fixpoint words_of (n : nat) (b : list Z) : list Z :=
  match n with O => [] | S n => word_of (firstn 8 b) :: words_of n (skipn 8 b) end.

(** io.c 125-131: putword *)
Definition word_bytes (w : Z) : list Z :=
  let w := to_unsigned w in [Z.shiftr w 24 mod 256; Z.shiftr w 16 mod 256; Z.shiftr w 8 mod 256; w mod 256].
Definition Extern_magic_number : Z := 0x8495A6B9 + 3.
(** extern.c 129-152: the bytes written.  putblock gets the number of bytes as an unsigned int; from 2^31
    bytes on it writes less than this (C19) *)
Definition extern_val (m : memory) (fuel : nat) (v : Z) : outcome (list Z) :=
  do (res, blk) <- emit_all m fuel v;
  Ret (word_bytes Extern_magic_number ++ word_bytes (zlen blk) ++
       (if zlen blk =? 0 then word_bytes res
        else firstn (Z.to_nat (to_unsigned (8 * zlen blk))) (concat (map le_bytes blk)))).

(** ** Input *)
(** io.c 342-352: getword; the exception at the end of the input is IoExn here *)
Definition get_word (inp : list Z) : outcome (Z * list Z) :=
  match inp with
  | b0 :: b1 :: b2 :: b3 :: r => Ret (b0 * 16777216 + b1 * 65536 + b2 * 256 + b3, r)
  | _ => Raise IoExn
  end.

Section Input.
(** address of the table of atoms; the allocator (alloc_shr): address of the header of a new block of the
    given number of words in the major heap, with the colour; [None]: out of memory *)
Variable atoms : Z.
Variable alloc : Z -> option (Z * Z).
(** mlvalues.h 219: Atom(tag) *)
Definition Atom (t : Z) : Z := atoms + 8 * t + 8.

(** intern.c 36-51: a word of a block; [start]: address of the region *)
Definition adjust (start v : Z) : Z :=
  match v mod 4 with
  | 0 => start + v
  | 2 => Atom (v / 4)
  | _ => v
  end.
Fixpoint adjust_fields (start : Z) (sz : nat) (p : Z) (b : list Z) : outcome (list Z) :=
  match sz with
  | O => Ret b
  | S sz =>
      do v <- sub_raw b p;
      do b <- update_raw b p (adjust start v);
      adjust_fields start sz (p + 1) b
  end.
(** intern.c 16-53; [b]: the words of the region, [p] counted from its start *)
Fixpoint adjust_pointers (fuel : nat) (start : Z) (color p : Z) (b : list Z) : outcome (list Z) :=
  if p <? zlen b then
    match fuel with
    | O => Diverge
    | S fuel =>
        do hd <- sub_raw b p;
        let sz := Wosize_hd hd in
        let tag := Tag_hd hd in
        do b <- update_raw b p (Make_header sz tag color);
        let p := p + 1 in
        if tag >=? No_scan_tag then adjust_pointers fuel start color (p + sz) b
        else
          do b <- adjust_fields start (Z.to_nat sz) p b;
          adjust_pointers fuel start color (p + sz) b
    end
  else Ret b.
(** memory with the words [b] at address [a] *)
Definition with_region (m : memory) (a : Z) (b : list Z) : memory :=
  fun x => if (a <=? x) && (x <? a + 8 * zlen b) && (x mod 8 =? 0) then zget b ((x - a) / 8) else m x.

(** intern.c 551-561, 437-450, 474-490: reading an object in the native format; other formats are not
    modelled.  Result: the value, the memory, the rest of the input *)
Definition intern_val (m : memory) (inp : list Z) : outcome (Z * memory * list Z) :=
  do (magic, inp) <- get_word inp;
  if negb (magic =? Extern_magic_number) then Raise FailExn
  else
    do (whsize, inp) <- get_word inp;
    if whsize =? 0 then
      do (res, inp) <- get_word inp;
      Ret (if is_long res then res else Atom (res / 4), m, inp)
    else
      match alloc (whsize - 1) with
      | None => Raise OutOfMemory
      | Some (start, color) =>
          let bhsize := 8 * whsize in
          if zlen inp <? bhsize then Raise FailExn                    (* truncated object *)
          else
            let b := words_of (Z.to_nat whsize) inp in
            do b <- adjust_pointers (S (Z.to_nat whsize)) start color 0 b;
            Ret (start + 8, with_region m start b, skipn (Z.to_nat bhsize) inp)
      end.

(** ** Through strings *)
(** str.c 23-27: string_length, of the bytes of a block of n words *)
Definition string_length (s : list Z) : outcome Z :=
  do x <- sub_raw s (zlen s - 1); Ret (zlen s - 1 - x).
(** alloc.c 31-46; the bytes are not initialized ([junk]) *)
Definition alloc_string (junk : Z -> list Z) (len : Z) : outcome (list Z) :=
  let wosize := (len + 8) / 8 in
  do s <- putn (junk (8 * wosize)) (8 * wosize - 8) (repeat 0 8);
  putn s (8 * wosize - 1) [(8 * wosize - 1 - len) mod 256].
(** mosml.c 1343-1375: the bytes of the resulting string block *)
Definition string_mlval (junk : Z -> list Z) (m : memory) (fuel : nat) (v : Z) : outcome (list Z) :=
  do (res, blk) <- emit_all m fuel v;
  let pos := zlen blk in
  if pos =? 0 then
    do s <- alloc_string junk 8;
    do s <- putn s 0 (le_bytes pos);
    putn s 8 (le_bytes res)
  else
    do s <- alloc_string junk (4 + 8 * pos);
    do s <- putn s 0 (le_bytes pos);
    putn s 4 (concat (map le_bytes blk)).
(** mosml.c 1379-1413 *)
Definition mlval_string (m : memory) (s : list Z) : outcome (Z * memory) :=
  do b <- getn s 0 8;
  let whsize := word_of b in
  if whsize =? 0 then
    do b <- getn s 8 8;
    let res := word_of b in
    Ret (if is_long res then res else Atom (res / 4), m)
  else
    let bhsize := u64 (8 * whsize) in
    let wosize := whsize - 1 in
    if wosize >? Max_wosize then Raise FailExn
    else
      match alloc wosize with
      | None => Raise OutOfMemory
      | Some (start, color) =>
          do len <- string_length s;
          if u64 (bhsize + 4) >? len then Raise FailExn
          else
            do b <- getn s 4 bhsize;
            do b <- adjust_pointers (S (Z.to_nat whsize)) start color 0 (words_of (Z.to_nat whsize) b);
            Ret (start + 8, with_region m start b)
      end.
End Input.
