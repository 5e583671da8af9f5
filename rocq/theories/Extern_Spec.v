(** Isomorphism of value graphs in memory, the reference for C16, C17 and C18. *)
From Verif Require Import Base ArrayLib Extern_Model.

(** the block at address [a]: its tag and its words; the header is the word before it *)
Record block (m : memory) (a tag : Z) (ws : list Z) : Prop := {
  b_hd : exists hd, m (a - 8) = Some hd /\ hd mod 256 = tag /\ hd / 1024 = zlen ws /\ 0 <= hd < two64;
  b_ws : forall i w, zget ws i = Some w -> m (a + 8 * i) = Some w }.

(** the words of a block that are values, not bytes *)
Definition scanned (tag : Z) : Prop := tag < 251.
(** tags of functions and of abstract, finalized and weak blocks *)
Definition data_tag (tag : Z) : Prop := tag <> 249 /\ tag <> 251 /\ tag <> 252 /\ tag <> 255.

(** [G] is a finite set of blocks closed under following fields; the value [v] is an integer, an atom, or a block of [G] *)
Definition value_in (m : memory) (G : list Z) (v : Z) : Prop :=
  0 <= v < two64 /\ (Z.odd v = true \/ (v mod 8 = 0 /\ exists t, block m v t []) \/ In v G).
Record graph (m : memory) (G : list Z) : Prop := {
  g_nodup : NoDup G;
  g_block : forall a, In a G -> 0 < a < two63 /\ a mod 8 = 0 /\ exists t ws, block m a t ws /\ ws <> [] /\ data_tag t /\
    Forall (fun w => 0 <= w < two64) ws /\ (scanned t -> Forall (value_in m G) ws) }.

(** corresponding values, when the block at [a] in [R] corresponds to the block at [f a] *)
Definition same_value (m : memory) (R : list Z) (f : Z -> Z) (m' : memory) (v v' : Z) : Prop :=
  (Z.odd v = true /\ v' = v) \/
  (Z.odd v = false /\ Z.odd v' = false /\ exists t, block m v t [] /\ block m' v' t []) \/
  (In v R /\ v' = f v).
(** the value [v'] in memory [m'] is a copy of the value [v] in [m]: same shape, same contents, same sharing.
    [R]: the blocks of [v] *)
Definition copy_of (m : memory) (v : Z) (m' : memory) (v' : Z) : Prop :=
  exists (R : list Z) (f : Z -> Z),
    same_value m R f m' v v' /\
    (forall a b, In a R -> In b R -> f a = f b -> a = b) /\
    (forall a, In a R -> Z.odd a = false /\ Z.odd (f a) = false /\ exists t ws ws',
        block m a t ws /\ block m' (f a) t ws' /\ ws <> [] /\
        (scanned t -> Forall2 (same_value m R f m') ws ws') /\ (~ scanned t -> ws' = ws)).

(** number of words of the blocks [G], with headers *)
Definition words (m : memory) (G : list Z) : Z :=
  fold_right (fun a n => 1 + match m (a - 8) with Some hd => hd / 1024 | None => 0 end + n) 0 G.
(** the table of atoms *)
Definition atoms_ok (m : memory) (atoms : Z) : Prop :=
  atoms mod 8 = 0 /\ forall t, 0 <= t < 256 -> block m (atoms + 8 * t + 8) t [].
(** an allocator that gives unused memory for requests below 2^28 words *)
Definition alloc_ok (m : memory) (alloc : Z -> option (Z * Z)) : Prop :=
  forall n, 0 <= n < 2 ^ 28 -> exists start color, alloc n = Some (start, color) /\
    0 < start /\ start mod 8 = 0 /\ start + 8 * (n + 1) < two63 /\ In color [0; 256; 512; 768] /\
    forall x, start <= x < start + 8 * (n + 1) -> m x = None.
(** [m'] is [m] with new memory added *)
Definition extends (m m' : memory) : Prop := forall x w, m x = Some w -> m' x = Some w.
