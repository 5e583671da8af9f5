(** Model of mosmllib/Strbase.mlp (lines 17-102), Substring.sml and String.sml on 64-bit machines.
    A character is its code; a string is the list of its characters (immutable once built); a
    substring is (string, offset, length).  Strings under construction come from create_string and
    are filled with blit_string / set_nth_char (Buffer_Model.create_, Buffer_Model.blit_, update_raw):
    [junk] gives their arbitrary initial contents.  Unchecked accesses sub_ (get_nth_char) are [sub_raw]:
    out of range is [UB].  Predicates and functions given by the user are pure and total.
    Sums of an offset and a length of a substring are at most the size of a string, so they
    are computed on unbounded integers, except where the operands come from the caller ([iadd], [isub]). *)
From Verif Require Import Base ArrayLib Copy_Model Buffer_Model.

Notation str := (list Z).
Notation substring := (list Z * Z * Z)%type.

(** ML integer subtraction (interp.c SMLSUBINT; Arith_Model.v) *)
Definition isub (x y : Z) : outcome Z := if in_intb (x - y) then Ret (x - y) else Raise Overflow.

(** fuel of the loops over n characters *)
Definition loop (n : Z) : nat := S (Z.to_nat n).

(** *** Strbase.mlp *)

(** Strbase.mlp 29-30, String.sml 24-25: sum of the sizes, starting from [len] *)
Fixpoint acc_size (strs : list str) (len : Z) : outcome Z :=
  match strs with
  | [] => Ret len
  | v1 :: vr => do len <- iadd (zlen v1) len; acc_size vr len
  end.
(** Strbase.mlp 33-37 *)
Fixpoint copyall_down (newstr : str) (to : Z) (strs : list str) : outcome str :=
  match strs with
  | [] => Ret newstr
  | v1 :: vr =>
    let len1 := zlen v1 in
    let to := to - len1 in
    do newstr <- blit_ v1 0 newstr to len1;
    copyall_down newstr to vr
  end.
(** Strbase.mlp 28-38 *)
Definition revconcat (junk : nat -> Z) (strs : list str) : outcome str :=
  do len <- acc_size strs 0;
  if len >? maxSize then Raise Size else copyall_down (create_ junk len) len strs.

(** Strbase.mlp 46-50; the same loop with i = 0 in String.sml 159-163 *)
Fixpoint foldl_h {B} (fuel : nat) (f : Z * B -> B) (s : str) (stop j : Z) (res : B) : outcome B :=
  match fuel with
  | O => Diverge
  | S fuel => if j >=? stop then Ret res else do c <- sub_raw s j; foldl_h fuel f s stop (j + 1) (f (c, res))
  end.
Definition foldl {B} (f : Z * B -> B) (e : B) (ss : substring) : outcome B :=
  let '(s, i, n) := ss in foldl_h (loop n) f s (i + n) i e.
(** Strbase.mlp 52-56 *)
Definition translate (junk : nat -> Z) (f : Z -> str) (ss : substring) : outcome str :=
  do strs <- foldl (fun '(c, res) => f c :: res) [] ss; revconcat junk strs.

(** Strbase.mlp 59-66 scanl: number of characters scanned *)
Fixpoint scanl_h (fuel : nat) (p : Z -> bool) (s : str) (stop j : Z) : outcome Z :=
  match fuel with
  | O => Diverge
  | S fuel =>
    if j <? stop then do c <- sub_raw s j; if p c then scanl_h fuel p s stop (j + 1) else Ret j
    else Ret j
  end.
Definition scanl {A} (chop : str * Z * Z * Z -> A) (p : Z -> bool) (ss : substring) : outcome A :=
  let '(s, i, n) := ss in do j <- scanl_h (loop n) p s (i + n) i; Ret (chop (s, i, n, j - i)).
(** Strbase.mlp 67-74 scanr *)
Fixpoint scanr_h (fuel : nat) (p : Z -> bool) (s : str) (stop j : Z) : outcome Z :=
  match fuel with
  | O => Diverge
  | S fuel =>
    if j >? stop then do c <- sub_raw s j; if p c then scanr_h fuel p s stop (j - 1) else Ret j
    else Ret j
  end.
Definition scanr {A} (chop : str * Z * Z * Z -> A) (p : Z -> bool) (ss : substring) : outcome A :=
  let '(s, i, n) := ss in do j <- scanr_h (loop n) p s (i - 1) (i + n - 1); Ret (chop (s, i, n, j - i + 1)).
(** Strbase.mlp 76-81 *)
Definition splitl p := scanl (fun '(s, i, n, k) => ((s, i, k), (s, i + k, n - k)) : substring * substring) p.
Definition splitr p := scanr (fun '(s, i, n, k) => ((s, i, k), (s, i + k, n - k)) : substring * substring) p.
Definition dropl p := scanl (fun '(s, i, n, k) => (s, i + k, n - k) : substring) p.
Definition dropr p := scanr (fun '(s, i, n, k) => (s, i, k) : substring) p.
Definition takel p := scanl (fun '(s, i, n, k) => (s, i, k) : substring) p.
Definition taker p := scanr (fun '(s, i, n, k) => (s, i + k, n - k) : substring) p.

Definition len_of (ss : substring) : Z := let '(_, _, n) := ss in n.
(** Strbase.mlp 84-92; the remaining length decreases by at least one at each step *)
Fixpoint tokens_h (fuel : nat) (isDelim : Z -> bool) (remains : substring) (res : list substring) : outcome (list substring) :=
  match fuel with
  | O => Diverge
  | S fuel =>
    if len_of remains =? 0 then Ret (rev res)
    else
      do (token, aftertoken) <- splitl (fun c => negb (isDelim c)) remains;
      do next <- dropl isDelim aftertoken;
      tokens_h fuel isDelim next (token :: res)
  end.
Definition tokens (isDelim : Z -> bool) (ss : substring) : outcome (list substring) :=
  do first <- dropl isDelim ss; tokens_h (loop (len_of ss)) isDelim first [].
(** Strbase.mlp 40-41 *)
Definition rest (ss : substring) : substring :=
  let '(s, i, n) := ss in if n =? 0 then ss else (s, i + 1, n - 1).
(** Strbase.mlp 94-102 *)
Fixpoint fields_h (fuel : nat) (isDelim : Z -> bool) (ss : substring) (res : list substring) : outcome (list substring) :=
  match fuel with
  | O => Diverge
  | S fuel =>
    do (field, afterfield) <- splitl (fun c => negb (isDelim c)) ss;
    if len_of afterfield =? 0 then Ret (rev (field :: res))
    else fields_h fuel isDelim (rest afterfield) (field :: res)
  end.
Definition fields (isDelim : Z -> bool) (ss : substring) : outcome (list substring) :=
  fields_h (loop (len_of ss)) isDelim ss [].

(** *** Substring.sml *)

(** Substring.sml 18-20 *)
Definition string (junk : nat -> Z) (ss : substring) : outcome str :=
  let '(s, i, n) := ss in blit_ s i (create_ junk n) 0 n.
(** Substring.sml 22-29 *)
Definition extract (s : str) (i : Z) (len : option Z) : outcome substring :=
  match len with
  | None => if (0 <=? i) && (i <=? zlen s) then Ret (s, i, zlen s - i) else Raise Subscript
  | Some n =>
    if (0 <=? i) && (0 <=? n) then
      do d <- isub (zlen s) i; if n <=? d then Ret (s, i, n) else Raise Subscript
    else Raise Subscript
  end.
(** Substring.sml 31 *)
Definition full (s : str) : substring := (s, 0, zlen s).
(** Substring.sml 35-36 *)
Definition getc (ss : substring) : outcome (option (Z * substring)) :=
  let '(s, i, n) := ss in
  if n =? 0 then Ret None else do c <- sub_raw s i; Ret (Some (c, (s, i + 1, n - 1))).
(** Substring.sml 38-39 *)
Definition first (ss : substring) : outcome (option Z) :=
  let '(s, i, n) := ss in if n =? 0 then Ret None else do c <- sub_raw s i; Ret (Some c).
(** Substring.sml 41 *)
Definition isEmpty (ss : substring) : bool := len_of ss =? 0.
(** Substring.sml 43-46 *)
Definition triml (k : Z) (ss : substring) : outcome substring :=
  let '(s, i, n) := ss in
  if k <? 0 then Raise Subscript else Ret (if k >? n then (s, i + n, 0) else (s, i + k, n - k)).
(** Substring.sml 48-51 *)
Definition trimr (k : Z) (ss : substring) : outcome substring :=
  let '(s, i, n) := ss in
  if k <? 0 then Raise Subscript else Ret (if k >? n then (s, i, 0) else (s, i, n - k)).
(** Substring.sml 53-55 *)
Definition sub (ss : substring) (i : Z) : outcome Z :=
  let '(s', i', n') := ss in
  if (i <? 0) || (i >=? n') then Raise Subscript else sub_raw s' (i' + i).
(** Substring.sml 57 *)
Definition size (ss : substring) : Z := len_of ss.
(** Substring.sml 59-68 *)
Definition slice (ss : substring) (i : Z) (len : option Z) : outcome substring :=
  let '(s', i', n') := ss in
  match len with
  | None => if (0 <=? i) && (i <=? n') then Ret (s', i' + i, n' - i) else Raise Subscript
  | Some n =>
    if (0 <=? i) && (0 <=? n) then
      do e <- iadd i n; if e <=? n' then Ret (s', i' + i, n) else Raise Subscript
    else Raise Subscript
  end.
(** Substring.sml 70-72 *)
Definition splitAt (ss : substring) (k : Z) : outcome (substring * substring) :=
  let '(s, i, n) := ss in
  if (k <? 0) || (k >? n) then Raise Subscript else Ret ((s, i, k), (s, i + k, n - k)).

(** Substring.sml 75-76 *)
Fixpoint acc_len (strs : list substring) (len : Z) : outcome Z :=
  match strs with
  | [] => Ret len
  | ss :: vr => do len <- iadd (len_of ss) len; acc_len vr len
  end.
(** Substring.sml 80-82 *)
Fixpoint copyall (newstr : str) (to : Z) (strs : list substring) : outcome str :=
  match strs with
  | [] => Ret newstr
  | (s1, i1, len1) :: vr => do newstr <- blit_ s1 i1 newstr to len1; copyall newstr (to + len1) vr
  end.
(** Substring.sml 74-83 *)
Definition concat (junk : nat -> Z) (strs : list substring) : outcome str :=
  do len <- acc_len strs 0;
  if len >? maxSize then Raise Size else copyall (create_ junk len) 0 strs.
(** Substring.sml 88-89: size v1 + seplen + len *)
Fixpoint acc_len_sep (seplen : Z) (strs : list substring) (len : Z) : outcome Z :=
  match strs with
  | [] => Ret len
  | v1 :: vr => do a <- iadd (len_of v1) seplen; do len <- iadd a len; acc_len_sep seplen vr len
  end.
(** Substring.sml 93-97 *)
Fixpoint copyall_sep (sep : str) (newstr : str) (to : Z) (strs : list substring) : outcome str :=
  match strs with
  | [] => Ret newstr
  | (v1, i1, len1) :: vr =>
    do newstr <- blit_ sep 0 newstr to (zlen sep);
    do newstr <- blit_ v1 i1 newstr (to + zlen sep) len1;
    copyall_sep sep newstr (to + zlen sep + len1) vr
  end.
(** Substring.sml 85-102 *)
Definition concatWith (junk : nat -> Z) (sep : str) (strs : list substring) : outcome str :=
  match strs with
  | [] => Ret []
  | (s1s, s1i, s1len) :: sr =>
    do len <- acc_len_sep (zlen sep) sr s1len;
    if len >? maxSize then Raise Size
    else
      do newstr <- blit_ s1s s1i (create_ junk len) 0 s1len;
      copyall_sep sep newstr s1len sr
  end.

(** Substring.sml 152-163; String.sml 99-112 is the same loop with i1 = i2 = 0 *)
Fixpoint collate_h (fuel : nat) (cmp : Z -> Z -> comparison) (s1 : str) (i1 n1 : Z) (s2 : str) (i2 n2 : Z) (stop j : Z)
  : outcome comparison :=
  match fuel with
  | O => Diverge
  | S fuel =>
    if j =? stop then Ret (if n1 <? n2 then Lt else if n1 >? n2 then Gt else Eq)
    else
      do c1 <- sub_raw s1 (i1 + j);
      do c2 <- sub_raw s2 (i2 + j);
      match cmp c1 c2 with
      | Lt => Ret Lt
      | Gt => Ret Gt
      | Eq => collate_h fuel cmp s1 i1 n1 s2 i2 n2 stop (j + 1)
      end
  end.
Definition collate (cmp : Z -> Z -> comparison) (ss1 ss2 : substring) : outcome comparison :=
  let '(s1, i1, n1) := ss1 in
  let '(s2, i2, n2) := ss2 in
  let stop := if n1 <? n2 then n1 else n2 in
  collate_h (loop stop) cmp s1 i1 n1 s2 i2 n2 stop 0.
(** Substring.sml 104-117: the same loop, with the comparisons of characters written out *)
Definition char_cmp (c1 c2 : Z) : comparison := if c1 <? c2 then Lt else if c1 >? c2 then Gt else Eq.
Definition compare (ss1 ss2 : substring) : outcome comparison := collate char_cmp ss1 ss2.

(** the loops h of Substring.sml 122-123 and 129-131: s1[j..stop-1] = s2[k+j..] *)
Fixpoint eq_h (fuel : nat) (s1 s2 : str) (k stop j : Z) : outcome bool :=
  match fuel with
  | O => Diverge
  | S fuel =>
    if j =? stop then Ret true
    else
      do c1 <- sub_raw s1 j;
      do c2 <- sub_raw s2 (k + j);
      if c1 =? c2 then eq_h fuel s1 s2 k stop (j + 1) else Ret false
  end.
(** Substring.sml 119-124; String.sml 123-129 with i2 = 0 *)
Definition isPrefix (s1 : str) (ss : substring) : outcome bool :=
  let '(s2, i2, n2) := ss in
  let n1 := zlen s1 in
  let stop := if n1 <? n2 then n1 else n2 in
  if n1 <=? n2 then eq_h (loop stop) s1 s2 i2 stop 0 else Ret false.
(** Substring.sml 126-132; String.sml 131-138 with i2 = 0 *)
Definition isSuffix (s1 : str) (ss : substring) : outcome bool :=
  let '(s2, i2, n2) := ss in
  let n1 := zlen s1 in
  let offset := i2 + n2 - n1 in
  if n1 <=? n2 then eq_h (loop n1) s1 s2 offset n1 0 else Ret false.
(** Substring.sml 139-144 and 213-214: like eq_h, with the test j >= stop *)
Fixpoint cmp_h (fuel : nat) (s1 s2 : str) (k stop j : Z) : outcome bool :=
  match fuel with
  | O => Diverge
  | S fuel =>
    if j >=? stop then Ret true
    else
      do c1 <- sub_raw s1 j;
      do c2 <- sub_raw s2 (k + j);
      if c1 =? c2 then cmp_h fuel s1 s2 k stop (j + 1) else Ret false
  end.
(** Substring.sml 146-149 *)
Fixpoint issub (fuel : nat) (s1 s2 : str) (stop1 stop2 offset : Z) : outcome bool :=
  match fuel with
  | O => Diverge
  | S fuel =>
    if offset <=? stop2 then
      do c1 <- sub_raw s1 stop1;
      do c2 <- sub_raw s2 (stop1 + offset);
      do b <- (if c1 =? c2 then cmp_h (loop stop1) s1 s2 offset stop1 0 else Ret false);
      if b : bool then Ret true else issub fuel s1 s2 stop1 stop2 (offset + 1)
    else Ret false
  end.
(** Substring.sml 134-150; String.sml 140-157 with i2 = 0 *)
Definition isSubstring (s1 : str) (ss : substring) : outcome bool :=
  let '(s2, i2, n2) := ss in
  match s1 with
  | [] => Ret true
  | _ =>
    let n1 := zlen s1 in
    issub (loop n2) s1 s2 (n1 - 1) (i2 + n2 - n1) i2
  end.

(** Substring.sml 167-170 *)
Fixpoint foldr_h {B} (fuel : nat) (f : Z * B -> B) (s : str) (i j : Z) (res : B) : outcome B :=
  match fuel with
  | O => Diverge
  | S fuel => if j <? i then Ret res else do c <- sub_raw s j; foldr_h fuel f s i (j - 1) (f (c, res))
  end.
Definition foldr {B} (f : Z * B -> B) (e : B) (ss : substring) : outcome B :=
  let '(s, i, n) := ss in foldr_h (loop n) f s i (i + n - 1) e.
(** Substring.sml 172-175: the same loop with f = cons *)
Definition explode (ss : substring) : outcome (list Z) := foldr (fun '(c, res) => c :: res) [] ss.

(** Substring.sml 187-191; s <> s' compares the contents (compare.c) *)
Definition span (ss ss' : substring) : outcome substring :=
  let '(s, i, n) := ss in
  let '(s', i', n') := ss' in
  if (i >? i' + n') || negb (if list_eq_dec Z.eq_dec s s' then true else false) then Raise SpanExn
  else Ret (s, i, i' + n' - i).

(** Substring.sml 216-221 *)
Fixpoint position_h (fuel : nat) (s s' : str) (i n len1 stop k : Z) : outcome (substring * substring) :=
  match fuel with
  | O => Diverge
  | S fuel =>
    if k >? stop then Ret ((s', i, n), (s', i + n, 0))
    else
      do c1 <- sub_raw s len1;
      do c2 <- sub_raw s' (k + len1);
      do b <- (if c1 =? c2 then cmp_h (loop len1) s s' k len1 0 else Ret false);
      if b : bool then Ret ((s', i, k - i), (s', k, n - (k - i)))
      else position_h fuel s s' i n len1 stop (k + 1)
  end.
(** Substring.sml 210-222 *)
Definition position (s : str) (ss : substring) : outcome (substring * substring) :=
  let '(s', i, n) := ss in
  match s with
  | [] => Ret ((s', i, 0), ss)
  | _ =>
    let len1 := zlen s - 1 in
    position_h (loop n) s s' i n len1 (i + n - len1 - 1) i
  end.

(** *** String.sml *)

(** String.sml 19-21 *)
Definition s_sub (s : str) (i : Z) : outcome Z :=
  if (i <? 0) || (i >=? zlen s) then Raise Subscript else sub_raw s i.
(** String.sml 28-31 *)
Fixpoint s_copyall (newstr : str) (to : Z) (strs : list str) : outcome str :=
  match strs with
  | [] => Ret newstr
  | v1 :: vr => do newstr <- blit_ v1 0 newstr to (zlen v1); s_copyall newstr (to + zlen v1) vr
  end.
(** String.sml 23-32 *)
Definition s_concat (junk : nat -> Z) (strs : list str) : outcome str :=
  do len <- acc_size strs 0;
  if len >? maxSize then Raise Size else s_copyall (create_ junk len) 0 strs.
(** String.sml 65-66 *)
Fixpoint init (newstr : str) (cs : list Z) (i : Z) : outcome str :=
  match cs with
  | [] => Ret newstr
  | c :: cr => do newstr <- update_raw newstr i c; init newstr cr (i + 1)
  end.
(** String.sml 62-67 *)
Definition implode (junk : nat -> Z) (cs : list Z) : outcome str :=
  let n := zlen cs in
  if n >? maxSize then Raise Size else init (create_ junk n) cs 0.
(** String.sml 69-73 *)
Definition s_extract (junk : nat -> Z) (s : str) (i : Z) (slicelen : option Z) : outcome str :=
  do n <- (match slicelen with None => isub (zlen s) i | Some n => Ret n end);
  do bad <- (if i <? 0 then Ret true else if n <? 0 then Ret true
             else do d <- isub (zlen s) i; Ret (n >? d));
  if bad : bool then Raise Subscript else blit_ s i (create_ junk n) 0 n.
(** String.sml 75 *)
Definition s_substring (junk : nat -> Z) (s : str) (i n : Z) : outcome str := s_extract junk s i (Some n).
(** String.sml 77-80, 165-168: h from size s - 1 down to 0 *)
Definition s_foldr {B} (f : Z * B -> B) (e : B) (s : str) : outcome B := foldr_h (loop (zlen s)) f s 0 (zlen s - 1) e.
Definition s_explode (s : str) : outcome (list Z) := s_foldr (fun '(c, res) => c :: res) [] s.
(** String.sml 159-163 *)
Definition s_foldl {B} (f : Z * B -> B) (e : B) (s : str) : outcome B := foldl_h (loop (zlen s)) f s (zlen s) 0 e.
(** String.sml 85-87 *)
Fixpoint map_lr (fuel : nat) (f : Z -> Z) (a newstr : str) (stop j : Z) : outcome str :=
  match fuel with
  | O => Diverge
  | S fuel =>
    if j <? stop then do c <- sub_raw a j; do newstr <- update_raw newstr j (f c); map_lr fuel f a newstr stop (j + 1)
    else Ret newstr
  end.
(** String.sml 82-88 *)
Definition s_map (junk : nat -> Z) (f : Z -> Z) (a : str) : outcome str :=
  let stop := zlen a in map_lr (loop stop) f a (create_ junk stop) stop 0.
(** String.sml 114-115 *)
Definition s_translate (junk : nat -> Z) (f : Z -> str) (s : str) : outcome str := translate junk f (s, 0, zlen s).
(** List.map of a function with effects, in order *)
Fixpoint mapM {A B} (f : A -> outcome B) (l : list A) : outcome (list B) :=
  match l with [] => Ret [] | x :: l => do y <- f x; do ys <- mapM f l; Ret (y :: ys) end.
(** String.sml 117-121; substring is String.substring (75) *)
Definition s_tokens (junk : nat -> Z) (p : Z -> bool) (s : str) : outcome (list str) :=
  do l <- tokens p (s, 0, zlen s); mapM (fun '(s, i, n) => s_substring junk s i n) l.
Definition s_fields (junk : nat -> Z) (p : Z -> bool) (s : str) : outcome (list str) :=
  do l <- fields p (s, 0, zlen s); mapM (fun '(s, i, n) => s_substring junk s i n) l.
(** String.sml 170-175 *)
Fixpoint find_h (fuel : nat) (p : Z -> bool) (s : str) (stop j : Z) : outcome (option Z) :=
  match fuel with
  | O => Diverge
  | S fuel =>
    if j >=? stop then Ret None
    else do c <- sub_raw s j; if p c then Ret (Some j) else find_h fuel p s stop (j + 1)
  end.
Definition s_find (p : Z -> bool) (s : str) : outcome (option Z) := find_h (loop (zlen s)) p s (zlen s) 0.

(** *** StringCvt.sml *)

(** fill_string: str.c 54-65 *)
Fixpoint fill_ (fuel : nat) (s : str) (offset len c : Z) : outcome str :=
  match fuel with
  | O => Diverge
  | S fuel => if len >? 0 then do s <- update_raw s offset c; fill_ fuel s (offset + 1) (len - 1) c else Ret s
  end.
(** StringCvt.sml 82-91.  create_string with n beyond the maximal size is not modelled (C07): n <= maxSize. *)
Definition padLeft (junk : nat -> Z) (c n : Z) (s : str) : outcome str :=
  let ssize := zlen s in
  if n <=? ssize then Ret s
  else
    do res <- fill_ (loop n) (create_ junk n) 0 (n - ssize) c;
    blit_ s 0 res (n - ssize) ssize.
(** StringCvt.sml 93-102 *)
Definition padRight (junk : nat -> Z) (c n : Z) (s : str) : outcome str :=
  let ssize := zlen s in
  if n <=? ssize then Ret s
  else
    do res <- blit_ s 0 (create_ junk n) 0 ssize;
    fill_ (loop n) res ssize (n - ssize) c.
