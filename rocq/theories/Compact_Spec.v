(** What the compact format needs of a graph (C17), besides Extern_Spec. *)
From Verif Require Import Base ArrayLib Extern_Model Extern_Spec.

(** the bytes of words in memory *)
Definition bytes_of (ws : list Z) : list Z := concat (map le_bytes ws).
(** a string block: the characters, zeros, and the number of these zeros in the last byte *)
Definition string_words (ws : list Z) : Prop :=
  exists s pad, bytes_of ws = s ++ repeat 0 (Z.to_nat pad) ++ [pad] /\ 0 <= pad < 8.
(** blocks as the runtime makes them: strings are padded, reals are one word, and other blocks have less
    than 2^22 fields *)
Definition ordinary (m : memory) (G : list Z) : Prop :=
  forall a t ws, In a G -> block m a t ws ->
    (t = 253 -> string_words ws) /\ (t = 254 -> zlen ws = 1) /\ (scanned t -> zlen ws < 2 ^ 22).
