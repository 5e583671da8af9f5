(** Vocabulary for C33: texts of substrings, longest prefixes and suffixes, fields, tokens, occurrences. *)
From Verif Require Import Base ArrayLib Buffer_Model.
(** a substring (s, i, n) stands for n characters of s from position i *)
Definition text (ss : list Z * Z * Z) : list Z := let '(s, i, n) := ss in firstn (Z.to_nat n) (skipn (Z.to_nat i) s).
Definition valid (ss : list Z * Z * Z) : Prop := let '(s, i, n) := ss in 0 <= i /\ 0 <= n /\ i + n <= zlen s.
Definition base (ss : list Z * Z * Z) : list Z := fst (fst ss).
Definition start (ss : list Z * Z * Z) : Z := snd (fst ss).
Definition stop (ss : list Z * Z * Z) : Z := snd (fst ss) + snd ss.
(** [a] followed by [b] make up [ss], in the same underlying string *)
Definition cut (ss a b : list Z * Z * Z) : Prop :=
  valid a /\ valid b /\ base a = base ss /\ base b = base ss /\ start a = start ss /\ stop a = start b /\ stop b = stop ss.
(** [ss'] lies inside [ss] *)
Definition inside (ss ss' : list Z * Z * Z) : Prop :=
  valid ss' /\ base ss' = base ss /\ start ss <= start ss' /\ stop ss' <= stop ss.

(** [a] is the longest prefix of [a ++ b] all of whose characters satisfy p *)
Definition longest_prefix (p : Z -> bool) (a b : list Z) : Prop :=
  (forall c, In c a -> p c = true) /\ (forall c b', b = c :: b' -> p c = false).
(** [b] is the longest suffix of [a ++ b] all of whose characters satisfy p *)
Definition longest_suffix (p : Z -> bool) (a b : list Z) : Prop :=
  (forall c, In c b -> p c = true) /\ (forall c a', a = a' ++ [c] -> p c = false).

(** The fields of a text: separators put back between them give the text; none contains a separator. *)
Fixpoint interleave (fs : list (list Z)) (seps : list Z) : list Z :=
  match fs, seps with
  | f :: fs, d :: seps => f ++ d :: interleave fs seps
  | f :: _, [] => f
  | [], _ => []
  end.
Definition fields_of (isDelim : Z -> bool) (t : list Z) (fs : list (list Z)) : Prop :=
  (forall f c, In f fs -> In c f -> isDelim c = false) /\
  exists seps, (forall d, In d seps -> isDelim d = true) /\ length fs = S (length seps) /\ interleave fs seps = t.
(** The tokens are the non-empty fields. *)
Definition nonempty (f : list Z) : bool := match f with [] => false | _ => true end.
Definition tokens_of (isDelim : Z -> bool) (t : list Z) (ts : list (list Z)) : Prop :=
  exists fs, fields_of isDelim t fs /\ ts = filter nonempty fs.

(** lexicographic extension of a comparison of characters *)
Fixpoint lex (cmp : Z -> Z -> comparison) (s t : list Z) : comparison :=
  match s, t with
  | [], [] => Eq | [], _ => Lt | _, [] => Gt
  | c :: s, d :: t => match cmp c d with Eq => lex cmp s t | r => r end
  end.
(** [w] occurs in [t] after [pre] *)
Definition occurs_after (w t pre : list Z) : Prop := exists suf, t = pre ++ w ++ suf.

(** the length from which blit_string misbehaves: 2^31 *)
Definition lim : Z := 2147483648.
(** total length of a list of texts *)
Definition total (ts : list (list Z)) : Z := zlen (List.concat ts).
(** joining texts: the concatenation, unless it is longer than the longest string (maxSize = 2^57 - 9,
    String.maxSize); then Size, or Overflow if even the length is not an integer *)
Definition joined (ts : list (list Z)) (r : outcome (list Z)) : Prop :=
  (total ts <= maxSize -> r = Ret (List.concat ts)) /\ (maxSize < total ts < two62 -> r = Raise Size) /\ (two62 <= total ts -> r = Raise Overflow).
