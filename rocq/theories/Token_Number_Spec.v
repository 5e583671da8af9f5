(** Specification for C51: integer and word constants (Definition of Standard ML,
    revised, 2.2). *)
From Verif Require Import Base Scan_Model Scan_Spec.

(** an optional minus sign *)
Definition minus (sg : list Z) (s : Z) : Prop := (sg = [] /\ s = 1) \/ (sg = [126] /\ s = -1).

(** [int_constant t v]: the text t is an integer constant and denotes v *)
Inductive int_constant : list Z -> Z -> Prop :=
| ic_decimal sg s ds : minus sg s -> ds <> [] -> Forall (digit DEC) ds ->
    int_constant (sg ++ ds) (s * value DEC ds)
| ic_hexadecimal sg s ds : minus sg s -> ds <> [] -> Forall (digit HEX) ds ->
    int_constant (sg ++ [48; 120] ++ ds) (s * value HEX ds).

(** [word_constant t v]: the text t is a word constant and denotes v *)
Inductive word_constant : list Z -> Z -> Prop :=
| wc_decimal ds : ds <> [] -> Forall (digit DEC) ds -> word_constant ([48; 119] ++ ds) (value DEC ds)
| wc_hexadecimal ds : ds <> [] -> Forall (digit HEX) ds -> word_constant ([48; 119; 120] ++ ds) (value HEX ds).

(** the characters that occur in integer, word and real constants *)
Definition number_char (c : Z) : Prop :=
  48 <= c <= 57 \/ 65 <= c <= 70 \/ 97 <= c <= 102 \/ In c [119; 120; 46; 126].
