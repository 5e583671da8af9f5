(** Specification for the garbage collector: reachability, what the environment guarantees, and the
    executions considered (mutator steps and collector steps in any order). *)
From Coq Require Import Sorting.Sorted.
From Verif Require Import Base ArrayLib Gc_Model.

Section Spec.
Variables young_start young_end : Z.
Variable alloc_at : st -> Z -> option (Z * list (Z * Z) * list Z).
Variable grow_ok : st -> bool.
Variable free_size : st -> Z -> Z.
(** words that look like pointers but point to memory that is not managed: NULL, atoms, code *)
Variable outside : Z -> Prop.
Notation is_young := (is_young young_start young_end).

(** The words reachable from the roots: the roots, and the fields of reachable blocks that hold
    values (tag below No_scan_tag; in particular not through weak arrays). *)
Inductive reach (s : st) : Z -> Prop :=
| reach_root v : In v (roots s) -> reach s v
| reach_globals : reach s (globals s)
| reach_field a b v : reach s a -> hget (hp s) a = Some b -> tag b < No_scan_tag -> In v (fs b) -> reach s v.

(** a word a program can have in hand: an integer, a pointer out of the heap, or something reachable *)
Definition known (s : st) (v : Z) : Prop := Z.odd v = true \/ outside v \/ reach s v.

(** Chunks and blocks lie in memory as they should: chunks sorted, apart from each other, from the
    minor heap and from unmanaged memory; each block of the major heap, with its header word, within a
    chunk and apart from the others. *)
Record layout (s : st) : Prop := {
  l_sorted : StronglySorted (fun c c' => fst c + snd c <= fst c') (chunks s);
  l_chunk : forall c n, In (c, n) (chunks s) -> 0 < c /\ 0 < n /\ (c + n <= young_start \/ young_end <= c);
  l_outside : forall w c n, outside w -> In (c, n) (chunks s) -> ~ c <= w < c + n;
  l_in : forall a b, hget (hp s) a = Some b -> is_young a = false ->
    Z.even a = true /\ 1 <= zlen (fs b) /\
    exists c n, In (c, n) (chunks s) /\ c <= a - 8 /\ a + 8 * zlen (fs b) <= c + n;
  l_disj : forall a b a' b', hget (hp s) a = Some b -> hget (hp s) a' = Some b' ->
    is_young a = false -> is_young a' = false -> a <> a' ->
    a + 8 * zlen (fs b) <= a' - 8 \/ a' + 8 * zlen (fs b') <= a - 8
}.

(** What the allocator guarantees (C09, C11): a block of the size asked for, in a place where there was
    none, possibly after adding a chunk. *)
Definition allocator : Prop := forall s w r cs junk,
  layout s -> 1 <= w -> alloc_at s w = Some (r, cs, junk) ->
  zlen junk = w /\ hget (hp s) r = None /\ is_young r = false /\ incl (chunks s) cs /\
  forall c t, layout (set_hp (set_chunks s cs) (hput (hp s) r (Blk c t junk))).

(** The size found in the header of a free block leads past no block, and not out of the chunk. *)
Definition free_blocks : Prop := forall s p c n,
  layout s -> In (c, n) (chunks s) -> c <= p < c + n -> hget (hp s) (p + 8) = None ->
  0 < free_size s p /\ p + free_size s p <= c + n /\
  forall a b, hget (hp s) a = Some b -> is_young a = false -> ~ p <= a - 8 < p + free_size s p.

(** the minor heap lies at positive addresses, and unmanaged memory is none of it; NULL is unmanaged *)
Definition zone : Prop :=
  0 < young_start <= young_end /\ Z.even young_start = true /\
  outside 0 /\ (forall w, outside w -> is_young w = false).

(** what an observer is told: a cycle of the major collector begins, a block is freed, a weak pointer is
    followed or overwritten *)
Inductive event := ECycle | EFree (a : Z) | EWeak (v : Z) | ETau.

Notation minor_collection := (minor_collection young_start young_end alloc_at).
Notation modify := (modify young_start young_end grow_ok).
Notation alloc_init := (alloc_init young_start young_end alloc_at).
Notation alloc_small := (alloc_small young_end).

(** One step of the mutator or of the collector.  Weak arrays have less than 2^31 fields: weak_phase
    counts in an int. *)
Inductive step : st -> event -> st -> Prop :=
(** loads, pushes, pops, calls: afterwards the roots hold any words the program had in hand *)
| step_roots s rs : Forall (known s) rs -> step s ETau (set_roots s rs)
(** the table of globals is replaced by a block of the major heap *)
| step_globals s v b : reach s v -> hget (hp s) v = Some b -> is_young v = false -> step s ETau (set_globals s v)
(** allocation of a small block *)
| step_small s t l v s' : 0 < zlen l -> 0 <= t < 256 -> t <> Weak_tag -> (t < No_scan_tag -> Forall (known s) l) ->
    alloc_small t l s = Some (v, s') -> step s ETau (set_roots s' (v :: roots s'))
(** allocation in the major heap, fields stored by [initialize] *)
| step_init s t l v s' : 0 < zlen l -> 0 <= t <= Weak_tag -> (t = Weak_tag -> zlen l < 2147483648) -> Forall (known s) l ->
    alloc_init t l s = Ret (v, s') -> step s ETau (set_roots s' (v :: roots s'))
(** allocation in the major heap, fields stored directly: data, or words that are not young *)
| step_data s t l v s' : 0 < zlen l -> 0 <= t < 256 -> (t = Weak_tag -> zlen l < 2147483648) -> (t <= Weak_tag -> Forall (fun w => known s w /\ is_young w = false) l) ->
    alloc_data alloc_at t l s = Ret (v, s') -> step s ETau (set_roots s' (v :: roots s'))
(** assignment to a field; when the block is a weak array, this is an event about the value replaced *)
| step_modify s a b i x v s' : reach s a -> hget (hp s) a = Some b -> tag b <= Weak_tag -> zget (fs b) i = Some x -> known s v ->
    modify a i v s = Ret s' -> step s (if tag b =? Weak_tag then EWeak x else ETau) s'
(** writing data into strings and the like *)
| step_write s a b l : reach s a -> hget (hp s) a = Some b -> Weak_tag < tag b -> zlen l = zlen (fs b) ->
    step s ETau (set_hp s (hput (hp s) a (set_fs b l)))
(** following a weak pointer *)
| step_weak_sub s a b i v s' : reach s a -> hget (hp s) a = Some b -> tag b = Weak_tag -> 0 <= i < zlen (fs b) ->
    weak_sub grow_ok a i s = Ret (v, s') -> step s (EWeak v) (set_roots s' (v :: roots s'))
(** a minor collection *)
| step_minor s fuel s' : minor_collection fuel s = Ret s' -> step s ETau s'
(** the major collector works only when the minor heap is empty: in the slice that follows a minor
    collection (minor_gc.c 147) and in gc_ctrl.c 169-184 *)
| step_mark s s' : young_ptr s = young_start -> phase (gc s) = Phase_mark ->
    mark_step grow_ok free_size s = Ret s' -> step s ETau s'
| step_weak s s' : young_ptr s = young_start -> phase (gc s) = Phase_weak -> weak_phase s = Ret s' -> step s ETau s'
| step_sweep s s' r : young_ptr s = young_start -> phase (gc s) = Phase_sweep ->
    sweep_step grow_ok free_size s = Ret (r, s') ->
    step s (match r with SwFree a => EFree a | SwCycle => ECycle | SwOther => ETau end) s'.

Inductive run : st -> list event -> st -> Prop :=
| run_nil s : run s [] s
| run_cons s e s1 l s2 : step s e s1 -> run s1 l s2 -> run s (e :: l) s2.

(** the states the system can be in: whatever happens after the heap has been set up *)
Definition possible (s : st) : Prop := exists c n size evs,
  0 < c /\ 0 < n /\ 0 < size /\ (c + n <= young_start \/ young_end <= c) /\ (forall w, outside w -> ~ c <= w < c + n) /\
  run (init_st young_start c n size) evs s.
End Spec.
