(** The MD5 message digest as described in RFC 1321, and the base 64 encoding of RFC 4648 without the
    padding characters.  Nothing here comes from the runtime system's code. *)
From Coq Require Import ZArith List.
Import ListNotations.
Open Scope Z_scope.

(** words of 32 bits *)
Definition w32 (z : Z) : Z := z mod 2 ^ 32.
Definition wnot (x : Z) : Z := 2 ^ 32 - 1 - x.
(** RFC 1321, 2: X <<< s, the word obtained by circularly shifting X left by s bit positions *)
Definition rotl (x s : Z) : Z := (x * 2 ^ s) mod 2 ^ 32 + x / 2 ^ (32 - s).

(** 3.4: the auxiliary functions *)
Definition F (x y z : Z) := Z.lor (Z.land x y) (Z.land (wnot x) z).
Definition G (x y z : Z) := Z.lor (Z.land x z) (Z.land y (wnot z)).
Definition H (x y z : Z) := Z.lxor (Z.lxor x y) z.
Definition I (x y z : Z) := Z.lxor y (Z.lor x (wnot z)).

(** 3.4: T[i] is the integer part of 4294967296 times abs(sin(i)), i in radians; the values as printed
    in the appendix (Md5_Table proves that they are the integer parts) *)
Definition Ttable : list Z :=
  [0xd76aa478; 0xe8c7b756; 0x242070db; 0xc1bdceee; 0xf57c0faf; 0x4787c62a; 0xa8304613; 0xfd469501;
   0x698098d8; 0x8b44f7af; 0xffff5bb1; 0x895cd7be; 0x6b901122; 0xfd987193; 0xa679438e; 0x49b40821;
   0xf61e2562; 0xc040b340; 0x265e5a51; 0xe9b6c7aa; 0xd62f105d; 0x02441453; 0xd8a1e681; 0xe7d3fbc8;
   0x21e1cde6; 0xc33707d6; 0xf4d50d87; 0x455a14ed; 0xa9e3e905; 0xfcefa3f8; 0x676f02d9; 0x8d2a4c8a;
   0xfffa3942; 0x8771f681; 0x6d9d6122; 0xfde5380c; 0xa4beea44; 0x4bdecfa9; 0xf6bb4b60; 0xbebfbc70;
   0x289b7ec6; 0xeaa127fa; 0xd4ef3085; 0x04881d05; 0xd9d4d039; 0xe6db99e5; 0x1fa27cf8; 0xc4ac5665;
   0xf4292244; 0x432aff97; 0xab9423a7; 0xfc93a039; 0x655b59c3; 0x8f0ccc92; 0xffeff47d; 0x85845dd1;
   0x6fa87e4f; 0xfe2ce6e0; 0xa3014314; 0x4e0811a1; 0xf7537e82; 0xbd3af235; 0x2ad7d2bb; 0xeb86d391].
Definition T (i : Z) : Z := nth (Z.to_nat (i - 1)) Ttable 0.

(** 3.4: [abcd k s i] denotes a = b + ((a + f(b,c,d) + X[k] + T[i]) <<< s) *)
Definition op (f : Z -> Z -> Z -> Z) (X : list Z) (a b c d k s i : Z) : Z :=
  w32 (b + rotl (w32 (a + f b c d + nth (Z.to_nat k) X 0 + T i)) s).
(** one line of the RFC's listing: [ABCD k1 s1 i] [DABC k2 s2 i+1] [CDAB k3 s3 i+2] [BCDA k4 s4 i+3] *)
Definition line f X (k1 k2 k3 k4 s1 s2 s3 s4 i : Z) (r : Z * Z * Z * Z) : Z * Z * Z * Z :=
  let '(a, b, c, d) := r in
  let a := op f X a b c d k1 s1 i in
  let d := op f X d a b c k2 s2 (i + 1) in
  let c := op f X c d a b k3 s3 (i + 2) in
  let b := op f X b c d a k4 s4 (i + 3) in
  (a, b, c, d).
Definition round1 X r :=
  line F X 12 13 14 15 7 12 17 22 13 (line F X 8 9 10 11 7 12 17 22 9
  (line F X 4 5 6 7 7 12 17 22 5 (line F X 0 1 2 3 7 12 17 22 1 r))).
Definition round2 X r :=
  line G X 13 2 7 12 5 9 14 20 29 (line G X 9 14 3 8 5 9 14 20 25
  (line G X 5 10 15 4 5 9 14 20 21 (line G X 1 6 11 0 5 9 14 20 17 r))).
Definition round3 X r :=
  line H X 9 12 15 2 4 11 16 23 45 (line H X 13 0 3 6 4 11 16 23 41
  (line H X 1 4 7 10 4 11 16 23 37 (line H X 5 8 11 14 4 11 16 23 33 r))).
Definition round4 X r :=
  line I X 4 11 2 9 6 10 15 21 61 (line I X 8 15 6 13 6 10 15 21 57
  (line I X 12 3 10 1 6 10 15 21 53 (line I X 0 7 14 5 6 10 15 21 49 r))).

(** 2: bytes to words, the low-order byte first *)
Fixpoint words (l : list Z) : list Z :=
  match l with
  | b0 :: b1 :: b2 :: b3 :: r => b0 + 256 * b1 + 65536 * b2 + 16777216 * b3 :: words r
  | _ => []
  end.
(** [n] bytes of [x], the low-order byte first *)
Fixpoint le_bytes (n : nat) (x : Z) : list Z :=
  match n with O => [] | S n => x mod 256 :: le_bytes n (x / 256) end.

(** 3.4: one block of 16 words *)
Definition compress (r : Z * Z * Z * Z) (block : list Z) : Z * Z * Z * Z :=
  let X := words block in
  let '(aa, bb, cc, dd) := r in
  let '(a, b, c, d) := round4 X (round3 X (round2 X (round1 X r))) in
  (w32 (a + aa), w32 (b + bb), w32 (c + cc), w32 (d + dd)).
Fixpoint process (n : nat) (m : list Z) (r : Z * Z * Z * Z) : Z * Z * Z * Z :=
  match n with O => r | S n => process n (skipn 64 m) (compress r (firstn 64 m)) end.

(** 3.1, 3.2: a 1 bit, 0 bits until 64 bits are missing to a multiple of 512, the length in bits *)
Definition pad (m : list Z) : list Z :=
  let n := Z.of_nat (length m) in
  m ++ [128] ++ repeat 0 (Z.to_nat ((55 - n) mod 64)) ++ le_bytes 8 (8 * n).

(** 3.3, 3.5 *)
Definition start : Z * Z * Z * Z := (0x67452301, 0xefcdab89, 0x98badcfe, 0x10325476).
Definition MD5 (m : list Z) : list Z :=
  let p := pad m in
  let '(a, b, c, d) := process (length p / 64) p start in
  le_bytes 4 a ++ le_bytes 4 b ++ le_bytes 4 c ++ le_bytes 4 d.

(** RFC 4648, 4: the alphabet A-Z a-z 0-9 + / *)
Definition alphabet : list Z :=
  [65;66;67;68;69;70;71;72;73;74;75;76;77;78;79;80;81;82;83;84;85;86;87;88;89;90;
   97;98;99;100;101;102;103;104;105;106;107;108;109;110;111;112;113;114;115;116;117;118;119;120;121;122;
   48;49;50;51;52;53;54;55;56;57;43;47].
Definition digit (v : Z) : Z := nth (Z.to_nat v) alphabet 0.
(** groups of 24 bits, the first byte highest; the last group completed with zero bits, no padding
    characters *)
Fixpoint base64 (l : list Z) : list Z :=
  match l with
  | x :: y :: z :: r =>
      let n := x * 65536 + y * 256 + z in
      digit (n / 262144) :: digit (n / 4096 mod 64) :: digit (n / 64 mod 64) :: digit (n mod 64) :: base64 r
  | [x; y] => let n := x * 65536 + y * 256 in [digit (n / 262144); digit (n / 4096 mod 64); digit (n / 64 mod 64)]
  | [x] => let n := x * 65536 in [digit (n / 262144); digit (n / 4096 mod 64)]
  | [] => []
  end.

Definition is_bytes (l : list Z) : Prop := Forall (fun c => 0 <= c < 256) l.

(** RFC 1321, A.5: MD5 ("") = d41d8cd98f00b204e9800998ecf8427e, MD5 ("abc") = 900150983cd24fb0d6963f7d28e17f72 *)
Example rfc_empty : MD5 [] = [0xd4;0x1d;0x8c;0xd9;0x8f;0x00;0xb2;0x04;0xe9;0x80;0x09;0x98;0xec;0xf8;0x42;0x7e].
Proof. vm_compute. reflexivity. Qed.
Example rfc_abc : MD5 [97;98;99] = [0x90;0x01;0x50;0x98;0x3c;0xd2;0x4f;0xb0;0xd6;0x96;0x3f;0x7d;0x28;0xe1;0x7f;0x72].
Proof. vm_compute. reflexivity. Qed.
