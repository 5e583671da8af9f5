(** Model of src/runtime/md5sum.c: the primitive md5sum (Mosml.md5sum, and the fingerprints of compiled
    signatures).  A byte is an integer 0..255; unsigned int has 32 bits.  calloc is taken to succeed. *)
From Verif Require Import Base ArrayLib.

Definition two32 : Z := 4294967296.
(** unsigned int arithmetic *)
Definition u32 (z : Z) : Z := z mod two32.
(** conversion of string_length's result to int *)
Definition to_int (n : Z) : Z := (n + 2147483648) mod two32 - 2147483648.

(** Reading [n] bytes at [i], writing the bytes [l] at [i]: outside the memory block is undefined. *)
Definition getn (m : list Z) (i n : Z) : outcome (list Z) :=
  if (0 <=? i) && (0 <=? n) && (i + n <=? zlen m) then Ret (firstn (Z.to_nat n) (skipn (Z.to_nat i) m)) else UB.
Definition putn (m : list Z) (i : Z) (l : list Z) : outcome (list Z) :=
  if (0 <=? i) && (i + zlen l <=? zlen m)
  then Ret (firstn (Z.to_nat i) m ++ l ++ skipn (Z.to_nat i + length l) m) else UB.

(** md5sum.c 49-70, 79-152: the rotate amounts and the table (sin, x, rot) *)
Definition tab : list (Z * Z * Z) :=
  [(0xd76aa478, 0, 7); (0xe8c7b756, 1, 12); (0x242070db, 2, 17); (0xc1bdceee, 3, 22);
   (0xf57c0faf, 4, 7); (0x4787c62a, 5, 12); (0xa8304613, 6, 17); (0xfd469501, 7, 22);
   (0x698098d8, 8, 7); (0x8b44f7af, 9, 12); (0xffff5bb1, 10, 17); (0x895cd7be, 11, 22);
   (0x6b901122, 12, 7); (0xfd987193, 13, 12); (0xa679438e, 14, 17); (0x49b40821, 15, 22);
   (0xf61e2562, 1, 5); (0xc040b340, 6, 9); (0x265e5a51, 11, 14); (0xe9b6c7aa, 0, 20);
   (0xd62f105d, 5, 5); (0x2441453, 10, 9); (0xd8a1e681, 15, 14); (0xe7d3fbc8, 4, 20);
   (0x21e1cde6, 9, 5); (0xc33707d6, 14, 9); (0xf4d50d87, 3, 14); (0x455a14ed, 8, 20);
   (0xa9e3e905, 13, 5); (0xfcefa3f8, 2, 9); (0x676f02d9, 7, 14); (0x8d2a4c8a, 12, 20);
   (0xfffa3942, 5, 4); (0x8771f681, 8, 11); (0x6d9d6122, 11, 16); (0xfde5380c, 14, 23);
   (0xa4beea44, 1, 4); (0x4bdecfa9, 4, 11); (0xf6bb4b60, 7, 16); (0xbebfbc70, 10, 23);
   (0x289b7ec6, 13, 4); (0xeaa127fa, 0, 11); (0xd4ef3085, 3, 16); (0x4881d05, 6, 23);
   (0xd9d4d039, 9, 4); (0xe6db99e5, 12, 11); (0x1fa27cf8, 15, 16); (0xc4ac5665, 2, 23);
   (0xf4292244, 0, 6); (0x432aff97, 7, 10); (0xab9423a7, 14, 15); (0xfc93a039, 5, 21);
   (0x655b59c3, 12, 6); (0x8f0ccc92, 3, 10); (0xffeff47d, 10, 15); (0x85845dd1, 1, 21);
   (0x6fa87e4f, 8, 6); (0xfe2ce6e0, 15, 10); (0xa3014314, 6, 15); (0x4e0811a1, 13, 21);
   (0xf7537e82, 4, 6); (0xbd3af235, 11, 10); (0x2ad7d2bb, 2, 15); (0xeb86d391, 9, 21)].

(** md5sum.c 297-310: encode, for each word four bytes, the lowest first *)
Fixpoint encode (input : list Z) : list Z :=
  match input with
  | [] => []
  | x :: r => x mod 256 :: Z.shiftr x 8 mod 256 :: Z.shiftr x 16 mod 256 :: Z.shiftr x 24 mod 256 :: encode r
  end.
(** md5sum.c 316-324: decode; the shift of a byte above 127 by 24 is taken as a shift of the unsigned word *)
Fixpoint decode (input : list Z) : list Z :=
  match input with
  | b0 :: b1 :: b2 :: b3 :: r =>
      Z.lor (Z.lor (Z.lor b0 (Z.shiftl b1 8)) (Z.shiftl b2 16)) (Z.shiftl b3 24) :: decode r
  | _ => []
  end.

(** the variables a, b, c, d *)
Notation regs := (Z * Z * Z * Z)%type.

(** ~x on unsigned int *)
Definition not32 (x : Z) : Z := two32 - 1 - x.

(** md5sum.c 250-276: one turn of the loop over the table *)
Definition turn (x : list Z) (i : Z) (r : regs) : outcome regs :=
  let '(a, b, c, d) := r in
  do (t_sin, t_x, t_rot) <- sub_raw tab i;
  let f := match Z.shiftr i 4 with
           | 0 => Z.lor (Z.land b c) (Z.land (not32 b) d)
           | 1 => Z.lor (Z.land b d) (Z.land c (not32 d))
           | 2 => Z.lxor (Z.lxor b c) d
           | 3 => Z.lxor c (Z.lor b (not32 d))
           | _ => 0
           end in
  let a := u32 (a + f) in
  do w <- sub_raw x t_x;
  let a := u32 (a + u32 (w + t_sin)) in
  let a := Z.lor (u32 (Z.shiftl a t_rot)) (Z.shiftr a (32 - t_rot)) in
  let a := u32 (a + b) in
  let tmp := d in
  let d := c in
  let c := b in
  let b := a in
  let a := tmp in
  Ret (a, b, c, d).
(** the loop from turn [i] on, [n] turns left *)
Fixpoint turns (x : list Z) (n : nat) (i : Z) (r : regs) : outcome regs :=
  match n with
  | O => Ret r
  | S n => do r <- turn x i r; turns x n (i + 1) r
  end.

(** md5sum.c 242-282: the loop over the blocks between p and end *)
Fixpoint blocks (fuel : nat) (m : list Z) (p end_ : Z) (st : regs) : outcome regs :=
  match fuel with
  | O => Diverge
  | S fuel =>
      if p <? end_ then
        let '(a, b, c, d) := st in
        do bytes <- getn m p 64;
        let x := decode bytes in
        do (a', b', c', d') <- turns x 64 0 (a, b, c, d);
        blocks fuel m (p + 64) end_ (u32 (a + a'), u32 (b + b'), u32 (c + c'), u32 (d + d'))
      else Ret st
  end.

(** md5sum.c 154-158: MD5state; [None] is nil *)
Record md5state := St { slen : Z; sregs : regs }.

(** what the function returns: the state for the next call, or the digest *)
Inductive md5res := More (s : md5state) | Done (digest : list Z).

(** md5sum.c 198-291.  [m] is the buffer, [len] the number of bytes in it; also returned: the buffer *)
Definition md5 (m : list Z) (len : Z) (s : option md5state) : outcome (list Z * md5res) :=
  let s := match s with
           | None => St 0 (0x67452301, 0xefcdab89, 0x98badcfe, 0x10325476)
           | Some s => s
           end in
  let s := St (u32 (slen s + len)) (sregs s) in
  let i := Z.land len 63 in
  if negb (i =? 0) || (len =? 0) then
    let i := if i <? 56 then 56 - i else 120 - i in
    do m <- (if i >? 0 then
               do m <- putn m len (repeat 0 (Z.to_nat i));
               putn m len [0x80]
             else Ret m);
    let len := len + i in
    let x := [u32 (Z.shiftl (slen s) 3); Z.shiftr (slen s) 29] in
    do m <- putn m len (encode x);
    do (a, b, c, d) <- blocks (S (Z.to_nat len)) m 0 len (sregs s);
    Ret (m, Done (encode [a; b; c; d]))
  else
    do r <- blocks (S (Z.to_nat len)) m 0 len (sregs s);
    Ret (m, More (St (slen s) r)).

(** md5sum.c 335-359: init64; t64e *)
Fixpoint upto (c : Z) (n : nat) : list Z := match n with O => [] | S n => c :: upto (c + 1) n end.
Definition t64e : list Z := upto 65 26 ++ upto 97 26 ++ upto 48 10 ++ [43] ++ [47].

(** md5sum.c 410-447: enc64, up to the terminating NUL.  [g]: n/3 groups of three bytes left *)
Fixpoint enc64_groups (g : nat) (inp : list Z) : outcome (list Z * list Z) :=
  match g with
  | O => Ret ([], inp)
  | S g =>
      match inp with
      | i0 :: i1 :: i2 :: inp =>
          let b24 := Z.lor (Z.lor (Z.shiftl i0 16) (Z.shiftl i1 8)) i2 in
          do c0 <- sub_raw t64e (Z.shiftr b24 18);
          do c1 <- sub_raw t64e (Z.land (Z.shiftr b24 12) 63);
          do c2 <- sub_raw t64e (Z.land (Z.shiftr b24 6) 63);
          do c3 <- sub_raw t64e (Z.land b24 63);
          do (out, inp) <- enc64_groups g inp;
          Ret (c0 :: c1 :: c2 :: c3 :: out, inp)
      | _ => UB
      end
  end.
Definition enc64 (inp : list Z) (n : Z) : outcome (list Z) :=
  do (out, inp) <- enc64_groups (Z.to_nat (n / 3)) inp;
  do tl <- match n mod 3 with
           | 2 =>
               match inp with
               | i0 :: i1 :: _ =>
                   let b24 := Z.lor (Z.shiftl i0 16) (Z.shiftl i1 8) in
                   do c0 <- sub_raw t64e (Z.shiftr b24 18);
                   do c1 <- sub_raw t64e (Z.land (Z.shiftr b24 12) 63);
                   do c2 <- sub_raw t64e (Z.land (Z.shiftr b24 6) 63);
                   Ret [c0; c1; c2]
               | _ => UB
               end
           | 1 =>
               match inp with
               | i0 :: _ =>
                   let b24 := Z.shiftl i0 16 in
                   do c0 <- sub_raw t64e (Z.shiftr b24 18);
                   do c1 <- sub_raw t64e (Z.land (Z.shiftr b24 12) 63);
                   Ret [c0; c1; 61]
               | _ => UB
               end
           | _ => Ret []
           end;
  Ret (out ++ tl ++ [61]).

(** the bytes before the first NUL: what copy_string takes from a C string *)
Fixpoint cstring (l : list Z) : list Z :=
  match l with [] => [] | c :: l => if c =? 0 then [] else c :: cstring l end.

(** md5sum.c 176-186: the loop; a negative count becomes a huge size_t, and the copy is undefined *)
Fixpoint md5sum_loop (fuel : nat) (str buf : list Z) (len start : Z) (s : option md5state)
  : outcome (list Z * Z * option md5state) :=
  match fuel with
  | O => Diverge
  | S fuel =>
      let n := if len - start <? 8192 then len - start else 8192 in
      do bytes <- getn str start n;
      do buf <- putn buf 0 bytes;
      let start := start + n in
      if (n <=? 0) || negb (Z.land n 63 =? 0) then Ret (buf, n, s)
      else
        do (buf, r) <- md5 buf n s;
        match r with
        | More s => md5sum_loop fuel str buf len start (Some s)
        | Done _ => UB                                                      (* digest is a null pointer *)
        end
  end.
(** md5sum.c 165-192 *)
Definition md5sum (str : list Z) : outcome (list Z) :=
  let len := to_int (zlen str) in
  let buf := repeat 0 (Z.to_nat (256 * 64)) in
  do (buf, n, s) <- md5sum_loop (S (S (Z.to_nat len))) str buf len 0 None;
  do (_, r) <- md5 buf n s;
  match r with
  | More _ => UB                                                            (* digest not written *)
  | Done digest =>
      do pr64 <- enc64 digest 16;
      do pr64 <- putn (pr64 ++ [0]) 22 [0];
      Ret (cstring pr64)
  end.
