(** What a numeral is and which number it denotes (independent of the scanning code). *)
From Verif Require Import Base.
From Verif Require Import Scan_Model.

(** the base of a radix *)
Definition base (r : radix) : Z := match r with BIN => 2 | OCT => 8 | DEC => 10 | HEX => 16 end.
(** the digits 0-9, A-F and a-f, and their values *)
Definition digit_value (c : Z) : option Z :=
  if (48 <=? c) && (c <=? 57) then Some (c - 48)
  else if (65 <=? c) && (c <=? 70) then Some (c - 65 + 10)
  else if (97 <=? c) && (c <=? 102) then Some (c - 97 + 10)
  else None.
Definition digit (r : radix) (c : Z) : Prop := exists v, digit_value c = Some v /\ v < base r.
Definition dval (c : Z) : Z := match digit_value c with Some v => v | None => 0 end.
(** positional value of a digit string *)
Definition value (r : radix) (ds : list Z) : Z := fold_left (fun a c => a * base r + dval c) ds 0.
(** white space: blank, tab, newline, vertical tab, form feed, carriage return *)
Definition space (c : Z) : Prop := In c [32; 9; 10; 11; 12; 13].

(** sign of an integer numeral: nothing or "+", "~" or "-" *)
Definition signed (sg : list Z) (s : Z) : Prop :=
  (sg = [] /\ s = 1) \/ (sg = [43] /\ s = 1) \/ (sg = [126] /\ s = -1) \/ (sg = [45] /\ s = -1).
(** hexadecimal integers may be prefixed by "0x" or "0X" *)
Definition int_prefix (r : radix) (pre : list Z) : Prop :=
  pre = [] \/ (r = HEX /\ (pre = [48; 120] \/ pre = [48; 88])).
(** an integer numeral: white space, sign, prefix, one or more digits *)
Definition int_numeral (r : radix) (p : list Z) (v : Z) : Prop :=
  exists ws sg s pre ds, p = ws ++ sg ++ pre ++ ds /\ Forall space ws /\ signed sg s /\
    int_prefix r pre /\ ds <> [] /\ Forall (digit r) ds /\ v = s * value r ds.

(** words: any radix may be prefixed by "0w", hexadecimal also by "0x", "0X", "0wx" or "0wX" *)
Definition word_prefix (r : radix) (pre : list Z) : Prop :=
  pre = [] \/ pre = [48; 119] \/
  (r = HEX /\ (pre = [48; 120] \/ pre = [48; 88] \/ pre = [48; 119; 120] \/ pre = [48; 119; 88])).
Definition word_numeral (r : radix) (p : list Z) (v : Z) : Prop :=
  exists ws pre ds, p = ws ++ pre ++ ds /\ Forall space ws /\
    word_prefix r pre /\ ds <> [] /\ Forall (digit r) ds /\ v = value r ds.

(** [p] is the longest prefix of [l] that is a numeral; it denotes [v] *)
Definition longest_numeral (num : list Z -> Z -> Prop) (l p rest : list Z) (v : Z) : Prop :=
  l = p ++ rest /\ num p v /\
  (forall p' rest' v', l = p' ++ rest' -> num p' v' -> (length p' <= length p)%nat).
Definition no_numeral (num : list Z -> Z -> Prop) (l : list Z) : Prop :=
  forall p rest v, l = p ++ rest -> ~ num p v.

(** Character sources: [reads getc s l s']: reading from [s] yields the characters [l] and leads
    to [s'].  [contents]: the characters up to the end of the source. *)
Inductive reads {S} (getc : S -> option (Z * S)) : S -> list Z -> S -> Prop :=
| reads_nil s : reads getc s [] s
| reads_cons s c s1 l s2 : getc s = Some (c, s1) -> reads getc s1 l s2 -> reads getc s (c :: l) s2.
Definition contents {S} (getc : S -> option (Z * S)) (s : S) (l : list Z) : Prop :=
  exists e, reads getc s l e /\ getc e = None.

(** the standard text of a number: digits 0-9A-F without superfluous zeros *)
Definition upper_digit (r : radix) (c : Z) : Prop :=
  digit r c /\ ((48 <= c <= 57) \/ (65 <= c <= 70)).
Definition canonical (r : radix) (n : Z) (ds : list Z) : Prop :=
  Forall (upper_digit r) ds /\ ds <> [] /\ value r ds = n /\ (hd 0 ds = 48 -> ds = [48]).
