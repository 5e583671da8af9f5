(** The reference for C49: an open input stream is the list of the characters
    to come. *)
From Verif Require Import Base ArrayLib Textio_Model.

(** the operation on an open stream with the characters [l] to come may return
    [r], leaving [l'] *)
Definition stream_op (l : list Z) (o : top) (r : tres) (l' : list Z) : Prop :=
  match o with
  (** the next character *)
  | TInput1 => match l with
               | [] => r = TrChar None /\ l' = []
               | c :: t => r = TrChar (Some c) /\ l' = t
               end
  (** at least one character, unless at the end *)
  | TInput => exists s, r = TrString s /\ l = s ++ l' /\ (s = [] -> l = [])
  (** the same, or NONE *)
  | TInputNoBlock => (r = TrOption None /\ l' = l) \/
                     exists s, r = TrOption (Some s) /\ l = s ++ l' /\ (s = [] -> l = [])
  (** n characters, or all if there are fewer *)
  | TInputN n => exists s, r = TrString s /\ l = s ++ l' /\ zlen s = Z.min n (zlen l)
  | TInputAll => r = TrString l /\ l' = []
  (** the characters up to a newline; if there is none, all with a newline
      added *)
  | TInputLine => (l = [] /\ r = TrOption None /\ l' = []) \/
                  (exists s, ~ In 10 s /\ l = s ++ 10 :: l' /\ r = TrOption (Some (s ++ [10]))) \/
                  (l <> [] /\ ~ In 10 l /\ r = TrOption (Some (l ++ [10])) /\ l' = [])
  | TLookahead => r = TrChar (hd_error l) /\ l' = l
  | TEndOfStream => (r = TrBool true <-> l = []) /\ (r = TrBool false <-> l <> []) /\ l' = l
  | TCloseIn => r = TrUnit
  end.
(** what the operations return on a closed stream *)
Definition closed_op (o : top) : tres :=
  match o with
  | TInput1 | TLookahead => TrChar None
  | TInput | TInputN _ | TInputAll => TrString []
  | TInputNoBlock => TrOption (Some [])
  | TInputLine => TrOption None
  | TEndOfStream => TrBool true
  | TCloseIn => TrUnit
  end.
(** a run on a stream with the characters [l] to come, closed or not: the
    results and the state after it *)
Fixpoint stream_run (closed : bool) (l : list Z) (ops : list top) (rs : list tres) (closed' : bool) (l' : list Z) : Prop :=
  match ops, rs with
  | [], [] => closed' = closed /\ l' = l
  | o :: ops, r :: rs =>
      if closed then r = closed_op o /\ stream_run true l ops rs closed' l'
      else exists l1, stream_op l o r l1 /\
             stream_run (match o with TCloseIn => true | _ => false end) l1 ops rs closed' l'
  | _, _ => False
  end.
(** the lengths that inputN accepts and handles *)
Definition top_ok (o : top) : Prop := match o with TInputN n => 0 <= n < 2 ^ 32 | _ => True end.

(** ** Scanners

    A scanner calls getc only on states it has got: [n] is the greatest. *)
Fixpoint proper {R} (n : Z) (sc : scanner R) : Prop :=
  match sc with
  | ScDone _ => True
  | ScGet i k => 0 <= i <= n /\ proper n (k None) /\ forall c, proper (Z.max n (i + 1)) (k (Some (c, i + 1)))
  end.
(** the scanner on the source [l], a list whose states are positions: its result
    and the number of characters it has seen; [None]: it went back more than
    512 characters *)
Fixpoint scan_list {R} (l : list Z) (n : Z) (sc : scanner R) : option (option (R * Z) * Z) :=
  match sc with
  | ScDone r => Some (r, n)
  | ScGet i k =>
      if i <? n - 512 then None
      else match zget l i with
           | None => scan_list l n (k None)
           | Some c => scan_list l (Z.max n (i + 1)) (k (Some (c, i + 1)))
           end
  end.

(** ** Output: the characters written by the operations *)
Fixpoint written (l : list oop) : list Z :=
  match l with
  | [] => []
  | OOutput s :: l => s ++ written l
  | OOutput1 c :: l => c :: written l
  | OFlushOut :: l => written l
  end.
(** characters are 0 to 255; strings shorter than 2^31 *)
Definition oop_ok (o : oop) : Prop :=
  match o with OOutput s => zlen s < 2 ^ 31 | OOutput1 c => 0 <= c < 256 | OFlushOut => True end.
