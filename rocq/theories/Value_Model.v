(** Model of the polymorphic operations on ML values: runtime/mosml.c sml_equal_aux (the equality of
    SML), runtime/compare.c compare_val, runtime/hash.c hash_aux, on a 64-bit little-endian machine.
    A value is a 64-bit word (a Z): odd words are integers, even words are addresses.  Memory gives,
    for the address of each block in the heap or the minor heap, its tag and contents; all other even
    words are atoms or pointers outside the heap.  Recursion of C functions has a fuel. *)
From Verif Require Import Base ArrayLib Str_Model.

(** mlvalues.h 147-228 *)
Definition No_scan_tag : Z := 251.
Definition Closure_tag : Z := 249.
Definition Reference_tag : Z := 250.
Definition Abstract_tag : Z := 252.
Definition String_tag : Z := 253.
Definition Double_tag : Z := 254.
Definition Final_tag : Z := 255.

(** a block: header (tag, size) and contents, as fields when tag < No_scan_tag (and for weak arrays),
    as bytes otherwise *)
Inductive block := Fields (tag : Z) (l : list Z) | Bytes (tag : Z) (b : list Z).
Record mem := Mem {
  blk : Z -> option block;    (* Is_in_heap or Is_young, and what is there *)
  atom0 : Z                   (* Atom(0) *)
}.

(** mlvalues.h 58, 64 *)
Definition is_long (v : Z) : bool := Z.odd v.
Definition long_val (v : Z) : Z := v / 2.
Definition val_long (n : Z) : Z := s64 (2 * n + 1).
(** mlvalues.h 236-237 *)
Definition atom (m : mem) (t : Z) : Z := atom0 m + 8 * t.
Definition is_atom (m : mem) (v : Z) : bool := (atom m 0 <=? v) && (v <=? atom m 255).
(** Is_in_heap(v) || Is_young(v): gc.h, minor_gc.h; page granularity is not modelled *)
Definition managed (m : mem) (v : Z) : bool := match blk m v with Some _ => true | None => false end.

(** mlvalues.h 141 Tag_val, 113 Wosize_val; main.c 49: the headers of the atoms *)
Definition tag_val (m : mem) (v : Z) : outcome Z :=
  match blk m v with
  | Some (Fields t _) | Some (Bytes t _) => Ret t
  | None => if is_atom m v && ((v - atom m 0) mod 8 =? 0) then Ret ((v - atom m 0) / 8) else UB
  end.
(** the fields of a block *)
Definition fields (m : mem) (v : Z) : outcome (list Z) :=
  match blk m v with
  | Some (Fields _ l) => Ret l
  | Some (Bytes _ _) => UB
  | None => if is_atom m v then Ret [] else UB
  end.
(** the bytes of a block *)
Definition bytes_of (m : mem) (v : Z) : outcome (list Z) :=
  match blk m v with Some (Bytes _ b) => Ret b | _ => UB end.

(** Double_val (mlvalues.h 219): the 64 bits of the double, little-endian.  [dkey] orders the doubles
    that are not NaN as IEEE 754 does (sign and magnitude; -0.0 and 0.0 are equal); [dnan]: NaN. *)
Fixpoint le_val (b : list Z) : Z := match b with [] => 0 | x :: b => x + 256 * le_val b end.
Definition double_val (m : mem) (v : Z) : outcome Z :=
  do b <- bytes_of m v;
  if zlen b =? 8 then Ret (le_val b) else UB.
Definition dmag (d : Z) : Z := d mod two63.
Definition dnan (d : Z) : bool := dmag d >? 9218868437227405312. (* 0x7FF0000000000000: infinity *)
Definition dkey (d : Z) : Z := if d <? two63 then dmag d else - dmag d.
(** C's == and < on doubles *)
Definition deq (d1 d2 : Z) : bool := negb (dnan d1) && negb (dnan d2) && (dkey d1 =? dkey d2).
Definition dlt (d1 d2 : Z) : bool := negb (dnan d1) && negb (dnan d2) && (dkey d1 <? dkey d2).

(** mosml.c 95-101: comparison of the fields, the last one by a jump.  A block without fields (there
    are none in the heap) would be read beyond its end. *)
Fixpoint equal_fields (eq : Z -> Z -> outcome bool) (l1 l2 : list Z) : outcome bool :=
  match l1, l2 with
  | [x], [y] => eq x y
  | x :: l1, y :: l2 => do b <- eq x y; if b then equal_fields eq l1 l2 else Ret false
  | _, _ => UB
  end.
(** mosml.c 58-103; invalid_argument (fail.c 76) is [Raise FailExn] *)
Fixpoint sml_equal_aux (fuel : nat) (m : mem) (v1 v2 : Z) : outcome bool :=
  match fuel with
  | O => Diverge
  | S fuel =>
    if v1 =? v2 then Ret true
    else if is_long v1 || is_long v2 then Ret false
    else if negb (managed m v1) then Ret false
    else if negb (managed m v2) then Ret false
    else
      do t1 <- tag_val m v1;
      do t2 <- tag_val m v2;
      if negb (t1 =? t2) then Ret false
      else if t1 =? String_tag then
        do b1 <- bytes_of m v1;
        do b2 <- bytes_of m v2;
        sml_equal_string b1 b2
      else if t1 =? Double_tag then
        do d1 <- double_val m v1;
        do d2 <- double_val m v2;
        Ret (deq d1 d2)
      else if (t1 =? Reference_tag) || (t1 =? Abstract_tag) || (t1 =? Final_tag) then Ret false
      else if t1 =? Closure_tag then Raise FailExn
      else
        do l1 <- fields m v1;
        do l2 <- fields m v2;
        if negb (zlen l1 =? zlen l2) then Ret false
        else equal_fields (sml_equal_aux fuel m) l1 l2
  end.
(** mosml.c 105-113 *)
Definition sml_equal (fuel : nat) (m : mem) (v1 v2 : Z) : outcome bool := sml_equal_aux fuel m v1 v2.
Definition sml_not_equal (fuel : nat) (m : mem) (v1 v2 : Z) : outcome bool :=
  do b <- sml_equal_aux fuel m v1 v2; Ret (negb b).

(** compare.c 55-63 *)
Fixpoint compare_fields (cmp : Z -> Z -> outcome Z) (l1 l2 : list Z) : outcome Z :=
  match l1, l2 with
  | [x], [y] => cmp x y
  | x :: l1, y :: l2 => do r <- cmp x y; if negb (r =? 0) then Ret r else compare_fields cmp l1 l2
  | _, _ => UB
  end.
(** compare.c 10-66; a signed difference that leaves the range of long is undefined *)
Definition diff (a b : Z) : outcome Z := if in_longb (a - b) then Ret (a - b) else UB.
Fixpoint compare_val (fuel : nat) (m : mem) (v1 v2 : Z) : outcome Z :=
  match fuel with
  | O => Diverge
  | S fuel =>
    if v1 =? v2 then Ret 0
    else if is_long v1 || is_long v2 then diff (long_val v1) (long_val v2)
    else if (negb (is_atom m v1) && negb (managed m v1)) || (negb (is_atom m v2) && negb (managed m v2))
    then diff v1 v2
    else
      do t1 <- tag_val m v1;
      do t2 <- tag_val m v2;
      if negb (t1 =? t2) then diff t1 t2
      else if t1 =? String_tag then
        do b1 <- bytes_of m v1;
        do b2 <- bytes_of m v2;
        compare_val_string b1 b2
      else if t1 =? Double_tag then
        do d1 <- double_val m v1;
        do d2 <- double_val m v2;
        Ret (if deq d1 d2 then 0 else if dlt d1 d2 then -1 else 1)
      else if (t1 =? Abstract_tag) || (t1 =? Final_tag) then Raise FailExn
      else if t1 =? Closure_tag then Raise FailExn
      else
        do l1 <- fields m v1;
        do l2 <- fields m v2;
        if negb (zlen l1 =? zlen l2) then Ret (s64 (zlen l1 - zlen l2))
        else compare_fields (compare_val fuel m) l1 l2
  end.
(** compare.c 68-101.  [compare] returns an ML integer: the word Val_long(compare_val(v1, v2)), of
    which 63 bits are left *)
Definition compare (fuel : nat) (m : mem) (v1 v2 : Z) : outcome Z :=
  do r <- compare_val fuel m v1 v2; Ret (long_val (val_long r)).
Definition equal (fuel : nat) (m : mem) (v1 v2 : Z) : outcome bool :=
  do r <- compare_val fuel m v1 v2; Ret (r =? 0).
Definition lessthan (fuel : nat) (m : mem) (v1 v2 : Z) : outcome bool :=
  do r <- compare_val fuel m v1 v2; Ret (r <? 0).
Definition lessequal (fuel : nat) (m : mem) (v1 v2 : Z) : outcome bool :=
  do r <- compare_val fuel m v1 v2; Ret (r <=? 0).

(** hash.c 7-9: the static variables; the counters are unbounded integers here (they decrease by one
    per call and are longs) *)
Record hstate := HS { hash_accu : Z; hash_univ_limit : Z; hash_univ_count : Z }.
(** hash.c 39-42 *)
Definition combine (new : Z) (s : hstate) : hstate :=
  HS (u64 (hash_accu s * 65599 + new)) (hash_univ_limit s) (hash_univ_count s).
Definition combine_small (new : Z) (s : hstate) : hstate :=
  HS (u64 (hash_accu s * 19 + new)) (hash_univ_limit s) (hash_univ_count s).
Definition count_down (s : hstate) : hstate := HS (hash_accu s) (hash_univ_limit s) (hash_univ_count s - 1).
(** hash.c 85-86, 101-105: n bytes from p on *)
Fixpoint hash_bytes (n : nat) (b : list Z) (p : Z) (s : hstate) : outcome hstate :=
  match n with
  | O => Ret s
  | S n => do x <- sub_raw b p; hash_bytes n b (p + 1) (combine_small x s)
  end.
(** hash.c 88-89; i is unsigned, and len < 2^57, so that 64 iterations are enough *)
Fixpoint hash_log (fuel : nat) (b : list Z) (len i : Z) (s : hstate) : outcome hstate :=
  match fuel with
  | O => Diverge
  | S fuel =>
    if i + 127 <? len then do x <- sub_raw b (127 + i); hash_log fuel b len (i * 2) (combine_small x s)
    else Ret s
  end.
(** hash.c 130-133: from the last field to the first *)
Fixpoint hash_fields (h : Z -> hstate -> outcome hstate) (l : list Z) (s : hstate) : outcome hstate :=
  match l with
  | [] => Ret s
  | x :: l => do s <- hash_fields h l s; h x s
  end.
(** hash.c 44-142.  [safe] only differs by ending the process (fatal_error), here [Raise FailExn]. *)
Fixpoint hash_aux (fuel : nat) (safe : bool) (m : mem) (obj : Z) (s : hstate) : outcome hstate :=
  match fuel with
  | O => Diverge
  | S fuel =>
    let s := HS (hash_accu s) (hash_univ_limit s - 1) (hash_univ_count s) in
    if (hash_univ_count s <? 0) || (hash_univ_limit s <? 0) then
      if safe then Raise FailExn else Ret s
    else if is_long obj then Ret (combine (long_val obj) (count_down s))
    else if is_atom m obj then
      do tag <- tag_val m obj;
      Ret (combine_small tag (count_down s))
    else if managed m obj then
      do tag <- tag_val m obj;
      if tag =? String_tag then
        let s := count_down s in
        do b <- bytes_of m obj;
        do len <- string_length b;
        do s <- hash_bytes (Z.to_nat (if len <=? 128 then len else 128)) b 0 s;
        hash_log 64 b len 1 s
      else if tag =? Double_tag then
        let s := count_down s in
        do b <- bytes_of m obj;
        hash_bytes 8 b 0 s
      else if (tag =? Abstract_tag) || (tag =? Final_tag) then Ret s
      else if tag =? Reference_tag then
        if safe then Raise FailExn
        else Ret (count_down (combine_small tag s))
      else
        let s := combine_small tag (count_down s) in
        do l <- fields m obj;
        hash_fields (hash_aux fuel safe m) l s
    else Ret (combine obj s)
  end.
(** hash.c 13-24: 0x3FFFFFFF; count and limit are ML integers *)
Definition hash_univ_param (fuel : nat) (m : mem) (count limit obj : Z) : outcome Z :=
  do s <- hash_aux fuel false m obj (HS 0 limit count);
  Ret (Z.land (hash_accu s) 1073741823).
(** hash.c 26-37 *)
Definition hash_univ_safe_param (fuel : nat) (m : mem) (count limit obj : Z) : outcome Z :=
  do s <- hash_aux fuel true m obj (HS 0 limit count);
  Ret (Z.land (hash_accu s) 1073741823).
(** Polyhash.sml 287-289, Hashset.sml 277-279: hash_param 50 500 *)
Definition polyHash (fuel : nat) (m : mem) (obj : Z) : outcome Z := hash_univ_param fuel m 50 500 obj.
