(** Specification for C51: string constants, character constants, comments and
    layout of Standard ML source programs (Definition of Standard ML, revised,
    2.2 and 2.3). *)
From Verif Require Import Base.

(** The character of a source program at a position; after its end there are
    end-of-input characters, which are the character 0. *)
Definition source (src : list Z) (p : Z) : Z := nth (Z.to_nat p) src 0.

(** ** What a string constant denotes *)

(** the escape sequences of one letter: backslash and one of a b t n v f r, the
    quote (34), the backslash (92) *)
Definition escapes : list (Z * Z) :=
  [(97, 7); (98, 8); (116, 9); (110, 10); (118, 11); (102, 12); (114, 13); (34, 34); (92, 92)].

(** [digit x c]: the character c is the decimal digit x;
    [hexdigit x c]: it is the hexadecimal digit x *)
Definition digit (x c : Z) : Prop := 0 <= x <= 9 /\ c = 48 + x.
Definition hexdigit (x c : Z) : Prop :=
  digit x c \/ (10 <= x <= 15 /\ (c = 97 + (x - 10) \/ c = 65 + (x - 10))).

(** [item plain formatting t v]: the text t is a character that stands for
    itself (plain) or an escape sequence; v are the characters it denotes *)
Inductive item (plain formatting : Z -> Prop) : list Z -> list Z -> Prop :=
| i_plain c : plain c -> item plain formatting [c] [c]
| i_escape e c : In (e, c) escapes -> item plain formatting [92; e] [c]
| i_control c : 64 <= c <= 95 -> item plain formatting [92; 94; c] [c - 64]
| i_decimal x1 x2 x3 c1 c2 c3 : digit x1 c1 -> digit x2 c2 -> digit x3 c3 ->
    100 * x1 + 10 * x2 + x3 <= 255 ->
    item plain formatting [92; c1; c2; c3] [100 * x1 + 10 * x2 + x3]
| i_hexadecimal x1 x2 x3 x4 c1 c2 c3 c4 :
    hexdigit x1 c1 -> hexdigit x2 c2 -> hexdigit x3 c3 -> hexdigit x4 c4 ->
    4096 * x1 + 256 * x2 + 16 * x3 + x4 <= 255 ->
    item plain formatting [92; 117; c1; c2; c3; c4] [4096 * x1 + 256 * x2 + 16 * x3 + x4]
| i_gap f : f <> [] -> Forall formatting f -> item plain formatting (92 :: f ++ [92]) [].

(** a sequence of items and the characters it denotes *)
Inductive denotes (plain formatting : Z -> Prop) : list Z -> list Z -> Prop :=
| d_end : denotes plain formatting [] []
| d_item t v t' v' : item plain formatting t v -> denotes plain formatting t' v' ->
    denotes plain formatting (t ++ t') (v ++ v').

(** The Definition: the printable characters other than the quote and the
    backslash stand for themselves; formatting characters are a subset of the
    non-printable characters, with at least space, tab, newline, formfeed. *)
Definition sml_plain (c : Z) : Prop := 32 <= c <= 126 /\ c <> 34 /\ c <> 92.
Definition sml_formatting (c : Z) : Prop := In c [32; 9; 10; 12].

(** What Moscow ML takes. *)
Definition mosml_plain (c : Z) : Prop :=
  27 <= c <= 254 /\ c <> 127 /\ c <> 34 /\ c <> 92.
Definition mosml_formatting (c : Z) : Prop := In c [32; 9; 10; 13].

(** ** Comments *)

(** [comment_text t k]: in t, which is followed by k, comment brackets are
    properly nested; a character is plain if no bracket begins with it, and
    comments contain neither the end of the file nor Control-Z *)
Definition begins_bracket (t : list Z) : Prop :=
  exists r, t = 40 :: 42 :: r \/ t = 42 :: 41 :: r.
Inductive comment_text : list Z -> list Z -> Prop :=
| c_end k : comment_text [] k
| c_plain c t k : c <> 0 -> c <> 26 -> ~ begins_bracket (c :: t ++ k) -> comment_text t k ->
    comment_text (c :: t) k
| c_nested u t k : comment_text u ([42; 41] ++ t ++ k) -> comment_text t k ->
    comment_text ([40; 42] ++ u ++ [42; 41] ++ t) k.

(** the text after an opening bracket up to and including the matching closing
    bracket *)
Definition comment_rest (t : list Z) : Prop :=
  exists u, t = u ++ [42; 41] /\ comment_text u [42; 41].

(** what separates tokens: white space and comments *)
Inductive layout : list Z -> Prop :=
| l_end : layout []
| l_space c t : In c [32; 9; 10; 12; 13] -> layout t -> layout (c :: t)
| l_comment u t : comment_rest u -> layout t -> layout ([40; 42] ++ u ++ t).
