(** The texts denoted by ML and C escapes. *)
From Verif Require Import Base.
From Verif Require Scan_Model Scan_Spec.

Definition dec_digit := Scan_Spec.digit Scan_Model.DEC.
Definition oct_digit := Scan_Spec.digit Scan_Model.OCT.
Definition hex_digit := Scan_Spec.digit Scan_Model.HEX.
Definition dec_value := Scan_Spec.value Scan_Model.DEC.
Definition oct_value := Scan_Spec.value Scan_Model.OCT.
Definition hex_value := Scan_Spec.value Scan_Model.HEX.

(** [ml_char e c]: the backslash escape \e denotes the character c (Definition of SML, 2.2; gaps
    \f...f\ are ignored; the text between gap and character counts as part of the escape) *)
Inductive ml_char : list Z -> Z -> Prop :=
| ml_a : ml_char [97] 7
| ml_b : ml_char [98] 8
| ml_t : ml_char [116] 9
| ml_n : ml_char [110] 10
| ml_v : ml_char [118] 11
| ml_f : ml_char [102] 12
| ml_r : ml_char [114] 13
| ml_quote : ml_char [34] 34
| ml_backslash : ml_char [92] 92
| ml_control c : 64 <= c <= 95 -> ml_char [94; c] (c - 64)
| ml_decimal d1 d2 d3 : dec_digit d1 -> dec_digit d2 -> dec_digit d3 -> dec_value [d1; d2; d3] <= 255 ->
    ml_char [d1; d2; d3] (dec_value [d1; d2; d3])
| ml_gap f ws c : In f [32; 9; 10] -> Forall Scan_Spec.space ws -> c <> 92 -> ml_char (f :: ws ++ [92; c]) c
| ml_gap_escape f ws e c : In f [32; 9; 10] -> Forall Scan_Spec.space ws -> ml_char e c -> ml_char (f :: ws ++ 92 :: 92 :: e) c.
(** a text with ML escapes and the characters it stands for *)
Inductive ml_text : list Z -> list Z -> Prop :=
| ml_end : ml_text [] []
| ml_plain c t r : c <> 92 -> ml_text t r -> ml_text (c :: t) (c :: r)
| ml_escape e c t r : ml_char e c -> ml_text t r -> ml_text (92 :: e ++ t) (c :: r).

(** [c_char e rest c]: the C escape \e, followed by the text rest, denotes c (Kernighan & Ritchie,
    second edition, page 193; octal escapes take up to three digits, hexadecimal ones all digits) *)
Inductive c_char : list Z -> list Z -> Z -> Prop :=
| c_simple x c rest : In (x, c) [(110, 10); (114, 13); (116, 9); (118, 11); (98, 8); (102, 12); (97, 7); (92, 92); (63, 63); (39, 39); (34, 34)] ->
    c_char [x] rest c
| c_octal ds rest : Forall oct_digit ds -> (1 <= length ds <= 3)%nat -> (length ds = 3%nat \/ forall d r, rest = d :: r -> ~ oct_digit d) ->
    oct_value ds <= 255 -> c_char ds rest (oct_value ds)
| c_hex ds rest : Forall hex_digit ds -> ds <> [] -> (forall d r, rest = d :: r -> ~ hex_digit d) ->
    hex_value ds <= 255 -> c_char (120 :: ds) rest (hex_value ds).
Inductive c_text : list Z -> list Z -> Prop :=
| c_end : c_text [] []
| c_plain c t r : c <> 92 -> c_text t r -> c_text (c :: t) (c :: r)
| c_escape e c t r : c_char e t c -> c_text t r -> c_text (92 :: e ++ t) (c :: r).

(** printable ASCII *)
Definition printable (c : Z) : Prop := 32 <= c <= 126.
Definition byte_char (c : Z) : Prop := 0 <= c <= 255.
(** texts that can stand between the quotes of an ML or C literal: printable, quotes only in escapes *)
Inductive ml_literal : list Z -> list Z -> Prop :=
| mll_end : ml_literal [] []
| mll_plain c t r : printable c -> c <> 92 -> c <> 34 -> ml_literal t r -> ml_literal (c :: t) (c :: r)
| mll_escape e c t r : Forall printable e -> ml_char e c -> ml_literal t r -> ml_literal (92 :: e ++ t) (c :: r).
Inductive c_literal : list Z -> list Z -> Prop :=
| cl_end : c_literal [] []
| cl_plain c t r : printable c -> c <> 92 -> c <> 34 -> c <> 39 -> c <> 63 -> c_literal t r -> c_literal (c :: t) (c :: r)
| cl_escape e c t r : Forall printable e -> c_char e t c -> c_literal t r -> c_literal (92 :: e ++ t) (c :: r).
