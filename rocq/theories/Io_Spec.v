(** Unbuffered output and input, the reference for C19 and C20. *)
From Verif Require Import Base ArrayLib Io_Model.

(** ** Output: the file and the position *)
(** the 32 bits of [w], the highest byte first *)
Definition be32 (w : Z) : list Z := [w / 16777216 mod 256; w / 65536 mod 256; w / 256 mod 256; w mod 256].
Definition unbuffered (o : oop) (s : list Z * Z) : list Z * Z :=
  let '(f, p) := s in
  match o with
  | OChar c => (write_at f p [c mod 256], p + 1)
  | OInt w => (write_at f p (be32 w), p + 4)
  | OBlock l => (write_at f p l, p + zlen l)
  | OFlush => (f, p)
  | OSeek d => (f, d)
  end.
Definition unbuffered_run (l : list oop) (s : list Z * Z) : list Z * Z := fold_left (fun s o => unbuffered o s) l s.

(** operations a program may perform: seeking to negative positions is an error of the operating system *)
Definition op_ok (o : oop) : Prop :=
  match o with
  | OSeek d => 0 <= d
  | OBlock l => zlen l < 2 ^ 31
  | _ => True
  end.
(** every seek immediately follows a flush or a seek ([q]: whether that is so at the start) *)
Fixpoint flushed_seeks (q : bool) (l : list oop) : Prop :=
  match l with
  | [] => True
  | OSeek _ :: l => q = true /\ flushed_seeks true l
  | OFlush :: l => flushed_seeks true l
  | _ :: l => flushed_seeks false l
  end.

(** ** Input: what an operation at position [p] may return, and the position after it *)
Inductive delivers (f : list Z) (p : Z) : iop -> ires -> Z -> Prop :=
| d_char c : zget f p = Some c -> delivers f p IChar (RChar c) (p + 1)
| d_char_eof : zlen f <= p -> delivers f p IChar REof p
| d_int c0 c1 c2 c3 : zget f p = Some c0 -> zget f (p + 1) = Some c1 -> zget f (p + 2) = Some c2 -> zget f (p + 3) = Some c3 ->
    delivers f p IInt (RInt (to_int (c0 * 16777216 + c1 * 65536 + c2 * 256 + c3))) (p + 4)
| d_int_eof : p <= zlen f < p + 4 -> delivers f p IInt REof (zlen f)
| d_int_past : zlen f < p -> delivers f p IInt REof p
(** a block: the next bytes, at most [n], at least one unless [n] is 0 or the file ends here *)
| d_block n l : l = firstn (length l) (skipn (Z.to_nat p) f) -> zlen l <= n -> (l = [] -> n = 0 \/ zlen f <= p) ->
    delivers f p (IBlock n) (RBytes l) (p + zlen l)
| d_noblock n l : l = firstn (length l) (skipn (Z.to_nat p) f) -> zlen l <= n -> (l = [] -> n = 0 \/ zlen f <= p) ->
    delivers f p (INoBlock n) (RBytes l) (p + zlen l)
| d_nodata n : 0 < n -> delivers f p (INoBlock n) RNoData p
(** exactly [n] bytes, or the end of the file *)
| d_really n l : l = firstn (length l) (skipn (Z.to_nat p) f) -> zlen l = n ->
    delivers f p (IReally n) (RBytes l) (p + n)
| d_really_eof n p' : p <= p' -> zlen f <= p' -> p' < p + n -> (p' = p \/ p' = zlen f) -> delivers f p (IReally n) REof p'
(** a line of [r] characters is next, newline included *)
| d_line r : 0 < r <= 4096 -> zget f (p + r - 1) = Some 10 -> (forall k, p <= k < p + r - 1 -> zget f k <> Some 10) ->
    delivers f p ILine (RLine r) p
(** no newline within [r] characters, and these are all that is left, or as many as the buffer holds *)
| d_noline r : 0 <= r <= 4096 -> (forall k, p <= k < p + r -> zget f k <> Some 10) ->
    (r = 4096 /\ p + r <= zlen f \/ zlen f = p + r \/ r = 0 /\ zlen f <= p) ->
    delivers f p ILine (RLine (- r)) p
| d_seek d : delivers f p (ISeek d) RUnit d
| d_pos : delivers f p IPos (RPos p) p.
Inductive delivers_all (f : list Z) : Z -> list iop -> list ires -> Z -> Prop :=
| da_nil p : delivers_all f p [] [] p
| da_cons p o r p' os rs p'' : delivers f p o r p' -> delivers_all f p' os rs p'' ->
    delivers_all f p (o :: os) (r :: rs) p''.

(** requests a program may make: lengths below 2^31, positions not negative *)
Definition iop_ok (o : iop) : Prop :=
  match o with
  | IBlock n | INoBlock n | IReally n => 0 <= n < 2 ^ 31
  | ISeek d => 0 <= d
  | _ => True
  end.
