(** Model of the free-list allocator of the major heap (runtime/freelist.c), of heap extension and
    alloc_shr (runtime/memory.c) and of the sweeper (runtime/major_gc.c), at the level of memory words.

    Addresses are word addresses (byte address / 8): every pointer handled by this code is a multiple
    of 8 on a 64-bit machine.  NULL is 0.  Memory is a total function from addresses to words; that
    only words of the heap and of the sentinel are accessed follows from the invariant proved.
    Not modelled: finalisers (major_gc.c 608-610), statistics, the speed control (slices of any
    number of steps are considered instead), the debug code. *)
From Verif Require Import Base.

Definition mem := Z -> Z.
Definition wr (m : mem) (a v : Z) : mem := fun x => if x =? a then v else m x.

(** gc.h 10-13 *)
Definition White : Z := 0.
Definition Gray : Z := 256.
Definition Blue : Z := 512.
Definition Black : Z := 768.
(** gc.h 29-32; wosize < 2^54, so that the word does not overflow *)
Definition make_header (wosize tag color : Z) : Z := wosize * 1024 + color + tag.
(** gc.h 15, 23-26; mlvalues.h 88-89 *)
Definition color_hd (hd : Z) : Z := Z.land hd Black.
Definition whitehd_hd (hd : Z) : Z := Z.ldiff hd Black.
Definition grayhd_hd (hd : Z) : Z := Z.lor (Z.ldiff hd Black) Gray.
Definition blackhd_hd (hd : Z) : Z := Z.lor hd Black.
Definition bluehd_hd (hd : Z) : Z := Z.lor (Z.ldiff hd Black) Blue.
Definition tag_hd (hd : Z) : Z := Z.land hd 255.
Definition wosize_hd (hd : Z) : Z := Z.shiftr hd 10.
(** a block pointer is the address of the first field; its header is the word before (mlvalues.h 91-102) *)
Definition hd_bp (m : mem) (bp : Z) : Z := m (bp - 1).
Definition wosize_bp (m : mem) (bp : Z) : Z := wosize_hd (hd_bp m bp).
(** freelist.c 15-17, 35: the link is the first field *)
Definition next (m : mem) (bp : Z) : Z := m bp.

Inductive phase := Phase_mark | Phase_weak | Phase_sweep.

Section FL.
(** freelist.c 19-28: the address of sentinel.first_bp; its header is the word before *)
Variable Fl_head : Z.

Record st := St {
  m : mem;
  fl_prev : Z; fl_last : Z; fl_merge : Z;    (* freelist.c 29-33 *)
  chunks : list (Z * Z);                     (* the list of chunks: start address and size in words (heap_chunk_head, major_gc.h 8-11) *)
  gc_sweep_hp : Z; chunk : Z; limit : Z;     (* major_gc.c 36, 447 *)
  gc_phase : phase
}.
Definition set_m (s : st) (m' : mem) : st :=
  St m' (fl_prev s) (fl_last s) (fl_merge s) (chunks s) (gc_sweep_hp s) (chunk s) (limit s) (gc_phase s).
Definition set_prev (s : st) (x : Z) : st :=
  St (m s) x (fl_last s) (fl_merge s) (chunks s) (gc_sweep_hp s) (chunk s) (limit s) (gc_phase s).
Definition set_last (s : st) (x : Z) : st :=
  St (m s) (fl_prev s) x (fl_merge s) (chunks s) (gc_sweep_hp s) (chunk s) (limit s) (gc_phase s).
Definition set_merge (s : st) (x : Z) : st :=
  St (m s) (fl_prev s) (fl_last s) x (chunks s) (gc_sweep_hp s) (chunk s) (limit s) (gc_phase s).
Definition set_chunks (s : st) (x : list (Z * Z)) : st :=
  St (m s) (fl_prev s) (fl_last s) (fl_merge s) x (gc_sweep_hp s) (chunk s) (limit s) (gc_phase s).
Definition set_sweep (s : st) (x : Z) : st :=
  St (m s) (fl_prev s) (fl_last s) (fl_merge s) (chunks s) x (chunk s) (limit s) (gc_phase s).
Definition set_phase (s : st) (x : phase) : st :=
  St (m s) (fl_prev s) (fl_last s) (fl_merge s) (chunks s) (gc_sweep_hp s) (chunk s) (limit s) x.

(** freelist.c 71-93.  Returns the head pointer. *)
Definition allocate_block (s : st) (wh_sz prev cur : Z) : Z * st :=
  let h := hd_bp (m s) cur in
  let s1 :=
    if wosize_hd h <? wh_sz + 1 then
      let m1 := wr (m s) prev (next (m s) cur) in
      let s1 := set_m s m1 in
      let s1 := if fl_merge s1 =? cur then set_merge s1 prev else s1 in
      set_m s1 (wr (m s1) (cur - 1) (make_header 0 0 White))
    else
      set_m s (wr (m s) (cur - 1) (make_header (wosize_hd h - wh_sz) 0 Blue)) in
  (cur + wosize_hd h - wh_sz, set_prev s1 prev).

(** freelist.c 106-115: search from fl_prev to the end of the list; None: not found, with the last block.
    Fuel: more than the number of free blocks. *)
Fixpoint search_end (fuel : nat) (s : st) (wo_sz prev cur : Z) : outcome (Z + Z * st) :=
  match fuel with
  | O => Diverge
  | S fuel =>
    if cur =? 0 then Ret (inl prev)
    else if wosize_bp (m s) cur >=? wo_sz then Ret (inr (allocate_block s (wo_sz + 1) prev cur))
    else search_end fuel s wo_sz cur (next (m s) cur)
  end.
(** freelist.c 117-126: search from the start of the list to fl_prev *)
Fixpoint search_start (fuel : nat) (s : st) (wo_sz prev cur : Z) : outcome (option (Z * st)) :=
  match fuel with
  | O => Diverge
  | S fuel =>
    if prev =? fl_prev s then Ret None
    else if wosize_bp (m s) cur >=? wo_sz then Ret (Some (allocate_block s (wo_sz + 1) prev cur))
    else search_start fuel s wo_sz cur (next (m s) cur)
  end.
(** freelist.c 99-129: the head pointer (None for NULL) *)
Definition fl_allocate (fuel : nat) (s : st) (wo_sz : Z) : outcome (option Z * st) :=
  do r <- search_end fuel s wo_sz (fl_prev s) (next (m s) (fl_prev s));
  match r with
  | inr (hp, s) => Ret (Some hp, s)
  | inl last =>
    let s := set_last s last in
    do r <- search_start fuel s wo_sz Fl_head (next (m s) Fl_head);
    match r with Some (hp, s) => Ret (Some hp, s) | None => Ret (None, s) end
  end.

(** freelist.c 131-134 *)
Definition fl_init_merge (s : st) : st := set_merge s Fl_head.

(** freelist.c 138-177: the block is joined with the following free block if they are adjacent.
    The new header, the end of the block, the next free block.  Hp_bp(NULL) is computed for an
    empty list tail; as an address it differs from every block end. *)
Definition merge_right (s : st) (bp : Z) : Z * Z * Z * st :=
  let hd := hd_bp (m s) bp in
  let prev := fl_merge s in
  let cur := next (m s) prev in
  let adj := bp + wosize_hd hd in
  if adj =? cur - 1 then
    let next_cur := next (m s) cur in
    let cur_whsz := wosize_bp (m s) cur + 1 in
    let s := set_m s (wr (m s) prev next_cur) in
    let s := if fl_prev s =? cur then set_prev s prev else s in
    let hd := make_header (wosize_hd hd + cur_whsz) 0 Blue in
    let s := set_m s (wr (m s) (bp - 1) hd) in
    (hd, bp + wosize_hd hd, next_cur, s)
  else (hd, adj, cur, s).
(** freelist.c 178-192: joined with the previous free block, or put in the list, or left as a fragment *)
Definition merge_left (s : st) (bp hd cur : Z) : st :=
  let prev := fl_merge s in
  if prev + wosize_bp (m s) prev =? bp - 1 then
    set_m s (wr (m s) (prev - 1) (make_header (wosize_bp (m s) prev + (wosize_hd hd + 1)) 0 Blue))
  else if wosize_hd hd >? 0 then
    let s := set_m s (wr (m s) (bp - 1) (bluehd_hd hd)) in
    let s := set_m s (wr (m s) bp cur) in
    let s := set_m s (wr (m s) prev bp) in
    set_merge s bp
  else s.
(** freelist.c 138-193.  Returns the head pointer of the next block. *)
Definition fl_merge_block (s : st) (bp : Z) : Z * st :=
  let '(hd, adj, cur, s) := merge_right s bp in (adj, merge_left s bp hd cur).

(** freelist.c 221-226 *)
Fixpoint find_place (fuel : nat) (m : mem) (bp prev cur : Z) : outcome (Z * Z) :=
  match fuel with
  | O => Diverge
  | S fuel => if negb (cur =? 0) && (cur <? bp) then find_place fuel m bp cur (next m cur) else Ret (prev, cur)
  end.
(** freelist.c 202-235 *)
Definition fl_add_block (fuel : nat) (s : st) (bp : Z) : outcome st :=
  if bp >? fl_last s then
    Ret (set_m s (wr (wr (m s) (fl_last s) bp) bp 0))
  else
    do (prev, cur) <- find_place fuel (m s) bp Fl_head (next (m s) Fl_head);
    let s := set_m s (wr (wr (m s) bp cur) prev bp) in
    Ret (if (prev =? fl_merge s) && (bp <=? gc_sweep_hp s) then set_merge s bp else s).

(** major_gc.c 706-717, sizes in bytes; incr = major_heap_increment.  Heap_chunk_max = Bhsize_wosize
    (Max_wosize) (config.h 100). *)
Definition Page_size : Z := 4096.
Definition Heap_chunk_max : Z := (18014398509481983 + 1) * 8.
Definition round_heap_chunk_size (incr request : Z) : option Z :=
  if request <? incr then Some incr
  else if request <=? Heap_chunk_max then Some (Z.shiftl (Z.shiftr (request + Page_size - 1) 12) 12)
  else None.
(** memory.c 89-96 (and 75-76 for a chunk below all others, which gives the same list) *)
Fixpoint insert_chunk (c : Z * Z) (cs : list (Z * Z)) : list (Z * Z) :=
  match cs with
  | [] => [c]
  | d :: cs' => if fst d <? fst c then d :: insert_chunk c cs' else c :: cs
  end.
(** memory.c 20-128.  mem is the address given by malloc (None: no memory), just after the
    heap_chunk_head.  Returns the block pointer of the new free block. *)
Definition expand_heap (s : st) (incr : Z) (mem : option Z) (request : Z) : option (Z * st) :=
  match round_heap_chunk_size incr ((request + 1) * 8), mem with
  | Some malloc_request, Some mem =>
    let size := malloc_request / 8 in
    let s := set_m s (wr (m s) mem (make_header (size - 1) 0 Blue)) in
    Some (mem + 1, set_chunks s (insert_chunk (mem, size) (chunks s)))
  | _, _ => None
  end.
Inductive alloc_result := Allocated (v : Z) | Out_of_memory.
(** memory.c 130-153.  Returns the new value; fatal_error is modelled by UB. *)
Definition alloc_shr (fuel : nat) (s : st) (incr : Z) (mem : option Z) (wosize tag : Z) : outcome (alloc_result * st) :=
  do (r, s) <- fl_allocate fuel s wosize;
  do (r, s) <- match r with
    | Some hp => Ret (Some hp, s)
    | None =>
      match expand_heap s incr mem wosize with
      | None => Ret (None, s)
      | Some (new_block, s) =>
        do s <- fl_add_block fuel s new_block;
        do (r, s) <- fl_allocate fuel s wosize;
        match r with None => UB | Some hp => Ret (Some hp, s) end
      end
    end;
  match r with
  | None => Ret (Out_of_memory, s)
  | Some hp =>
    let color := match gc_phase s with Phase_mark => Black | _ => if hp >=? gc_sweep_hp s then Black else White end in
    Ret (Allocated (hp + 1), set_m s (wr (m s) hp (make_header wosize tag color)))
  end.

(** the chunk after the one at address c (heap_chunk_head.next) *)
Fixpoint next_chunk (c : Z) (cs : list (Z * Z)) : option (Z * Z) :=
  match cs with
  | [] => None
  | d :: cs' => if fst d =? c then hd_error cs' else next_chunk c cs'
  end.
(** the end of mark_slice: major_gc.c 561-568 *)
Definition end_mark (s : st) : outcome st :=
  match chunks s with
  | [] => UB
  | (start, size) :: _ =>
    let s := fl_init_merge s in
    Ret (St (m s) (fl_prev s) (fl_last s) (fl_merge s) (chunks s) start start (start + size) Phase_weak)
  end.
(** what one iteration of the sweeping loop does to the block it meets *)
Inductive event := Freed (bp : Z) | Nothing | End_of_cycle.
(** one iteration of the loop of sweep_slice: major_gc.c 600-636 *)
Definition sweep_step (s : st) : event * st :=
  if gc_sweep_hp s <? limit s then
    let hp := gc_sweep_hp s in
    let hd := m s hp in
    let s := set_sweep s (hp + (wosize_hd hd + 1)) in
    let c := color_hd hd in
    if c =? White then
      let '(adj, s) := fl_merge_block s (hp + 1) in
      (Freed (hp + 1), set_sweep s adj)
    else if c =? Blue then (Nothing, set_merge s (hp + 1))
    else (Nothing, set_m s (wr (m s) hp (whitehd_hd hd)))
  else
    match next_chunk (chunk s) (chunks s) with
    | None => (End_of_cycle, set_phase s Phase_mark)
    | Some (c, size) => (Nothing, St (m s) (fl_prev s) (fl_last s) (fl_merge s) (chunks s) c c (c + size) (gc_phase s))
    end.

(** major_gc.c 719-771, as far as the allocator is concerned: one chunk of [size] words at [start] *)
Definition init_major_heap (start size : Z) : st :=
  let m0 := wr (wr (fun _ => 0) (Fl_head - 1) (make_header 0 0 Blue)) Fl_head 0 in
  let s := St (wr m0 start (make_header (size - 1) 0 Blue)) Fl_head 0 Fl_head [(start, size)] 0 0 0 Phase_mark in
  snd (fl_merge_block (fl_init_merge s) (start + 1)).
End FL.
