(** Model of mosmlyac/warshall.c, with the bit matrices of mosmlyac/defs.h.
    A matrix is the list of its words (C unsigned, 32 bits); pointers into it are indices; accesses
    outside are [UB].  While loops have a fuel; running out of it is [Diverge]. *)
From Verif Require Import Base ArrayLib.

(** defs.h 81-84 *)
Definition WORDSIZE (n : Z) : Z := (n + 31) / 32.
Definition BIT (R : list Z) (r n : Z) : outcome bool := do w <- sub_raw R (r + n / 32); Ret (Z.testbit w (n mod 32)).
Definition SETBIT (R : list Z) (r n : Z) : outcome (list Z) :=
  do w <- sub_raw R (r + n / 32); update_raw R (r + n / 32) (Z.lor w (2 ^ (n mod 32))).

(** mask <<= 1 in an unsigned *)
Definition shl1 (mask : Z) : Z := (mask * 2) mod 4294967296.
(** int multiplication: overflow is undefined *)
Definition mulint (a b : Z) : outcome Z := if a * b <? 2147483648 then Ret (a * b) else UB.

(** warshall.c 32-33; returns the matrix and rowj *)
Fixpoint or_row (fuel : nat) (R : list Z) (rowj rp rend : Z) : outcome (list Z * Z) :=
  match fuel with
  | O => Diverge
  | S fuel =>
    if rowj <? rend then
      do a <- sub_raw R rowj;
      do b <- sub_raw R rp;
      do R <- update_raw R rowj (Z.lor a b);
      or_row fuel R (rowj + 1) (rp + 1) rend
    else Ret (R, rowj)
  end.

(** warshall.c 26-41 *)
Fixpoint rows_j (fuel : nat) (R : list Z) (rowsize relend mask rowi ccol rowj : Z) : outcome (list Z) :=
  match fuel with
  | O => Diverge
  | S fuel =>
    if rowj <? relend then
      do c <- sub_raw R ccol;
      do (R, rowj) <-
        (if negb (Z.land c mask =? 0) then or_row (S (Z.to_nat rowsize)) R rowj rowi (rowj + rowsize)
         else Ret (R, rowj + rowsize));
      rows_j fuel R rowsize relend mask rowi (ccol + rowsize) rowj
    else Ret R
  end.

(** warshall.c 21-51 *)
Fixpoint rows_i (fuel : nat) (n : Z) (R : list Z) (rowsize relend cword mask rowi : Z) : outcome (list Z) :=
  match fuel with
  | O => Diverge
  | S fuel =>
    if rowi <? relend then
      do R <- rows_j (S (Z.to_nat n)) R rowsize relend mask rowi cword 0;
      let mask := shl1 mask in
      let '(cword, mask) := if mask =? 0 then (cword + 1, 1) else (cword, mask) in
      rows_i fuel n R rowsize relend cword mask (rowi + rowsize)
    else Ret R
  end.

(** warshall.c 3-52 *)
Definition transitive_closure (R : list Z) (n : Z) : outcome (list Z) :=
  let rowsize := WORDSIZE n in
  do relend <- mulint n rowsize;
  rows_i (S (Z.to_nat n)) n R rowsize relend 0 1 0.

(** warshall.c 66-79 *)
Fixpoint diagonal (fuel : nat) (R : list Z) (rowsize relend mask rp : Z) : outcome (list Z) :=
  match fuel with
  | O => Diverge
  | S fuel =>
    if rp <? relend then
      do w <- sub_raw R rp;
      do R <- update_raw R rp (Z.lor w mask);
      let mask := shl1 mask in
      let '(rp, mask) := if mask =? 0 then (rp + 1, 1) else (rp, mask) in
      diagonal fuel R rowsize relend mask (rp + rowsize)
    else Ret R
  end.

(** warshall.c 54-80 *)
Definition reflexive_transitive_closure (R : list Z) (n : Z) : outcome (list Z) :=
  do R <- transitive_closure R n;
  let rowsize := WORDSIZE n in
  do relend <- mulint n rowsize;
  diagonal (S (Z.to_nat n)) R rowsize relend 1 0.
