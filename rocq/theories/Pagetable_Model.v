(** Model of the extent of the major heap: the choice of a chunk's size and address, the ordered list
    of chunks, heap_start/heap_end, and the table of page ranges behind Is_in_heap
    (runtime/major_gc.c, major_gc.h, memory.c, misc.c, gc_ctrl.c), on a 64-bit machine.

    Addresses are byte addresses, integers below 2^63 (every 64-bit system gives user programs only
    such addresses), so that the signed shift of RawPage and the unsigned comparisons of Is_in_heap
    are those of the integers; sizes handed to malloc are below 2^63 for the same reason.
    malloc is a parameter of each operation: the address it returns, or 0 when it fails.
    Not modelled: the int counters of p_table_in_heap wrapping at 2^31 entries; messages, statistics. *)
From Verif Require Import Base ArrayLib.

(** config.h 59, 51 *)
Definition Page_log : Z := 12.
Definition Page_size : Z := 4096.
(** mlvalues.h 82 (Max_wosize), gc.h/mlvalues.h (Bhsize_wosize), config.h 103, 95: sizeof(value) = 8 *)
Definition Bhsize_wosize (w : Z) : Z := (w + 1) * 8.
Definition Wosize_bhsize (b : Z) : Z := b / 8 - 1.
Definition Max_wosize : Z := 2 ^ 54 - 1.
Definition Heap_chunk_max : Z := Bhsize_wosize Max_wosize.
Definition Heap_chunk_min : Z := 2 * Page_size / 8.

(** gc_ctrl.c 125-131, for i >= 0 (for a negative i the comparisons are unsigned) *)
Definition norm_heapincr (i : Z) : Z :=
  let i := Z.shiftl (Z.shiftr (i + Z.shiftl 1 Page_log - 1) Page_log) Page_log in
  let i := if i <? Heap_chunk_min then Heap_chunk_min else i in
  if i >? Heap_chunk_max then Heap_chunk_max else i.

(** gc_ctrl.c 195: init_gc receives words *)
Definition init_increment (words : Z) : Z := 8 * norm_heapincr words.
(** gc_ctrl.c 152-155: gc_set normalises a number of bytes *)
Definition set_increment (words : Z) : Z := norm_heapincr (8 * words).

(** major_gc.c 706-717; [None]: Out_of_memory is raised *)
Definition round_heap_chunk_size (increment request : Z) : option Z :=
  if request <? increment then Some increment
  else if request <=? Heap_chunk_max then
    Some (Z.shiftl (Z.shiftr (request + Page_size - 1) Page_log) Page_log)
  else None.

(** misc.c 133-152: [raw] is what malloc (size + Page_size) returned, not NULL *)
Definition aligned_malloc (raw modulo : Z) : Z :=
  ((raw + modulo) / Page_size + 1) * Page_size - modulo.

(** major_gc.h 8-11: sizeof (heap_chunk_head) *)
Definition head_size : Z := 16.

(** major_gc.c 55 *)
Definition RawPage (p : Z) : Z := Z.shiftr p Page_log.

Record st := St {
  heap_end : Z;                 (* major_gc.c 33 *)
  chunks : list (Z * Z);        (* the chunks (address, size) in the order of their next fields; heap_start is the first *)
  p_table : list (Z * Z);       (* major_gc.c 43-44: the allocated entries (low, high); its length is p_table_total_size *)
  p_cur : Z                     (* major_gc.c 45: p_table_current_size *)
}.
Definition heap_start (s : st) : Z := match chunks s with (a, _) :: _ => a | [] => 0 end.

(** major_gc.c 47-53, 754: 64 entries, not initialised; [junk] is any content *)
Definition p_table_init (junk : nat -> Z * Z) : list (Z * Z) * Z := (map junk (seq 0 64), 0).

(** major_gc.c 408-415: the size is doubled, the new half is not initialised *)
Definition p_table_update_size (junk : nat -> Z * Z) (t : list (Z * Z)) : list (Z * Z) :=
  t ++ map junk (seq 0 (length t)).

(** major_gc.c 417-424; [junk] is the content of the new half when the table grows *)
Definition p_table_add_pages (junk : nat -> Z * Z) (s : st) (start end_ : Z) : outcome st :=
  let t := if p_cur s =? zlen (p_table s) then p_table_update_size junk (p_table s) else p_table s in
  do t <- update_raw t (p_cur s) (RawPage start, RawPage end_);
  Ret (St (heap_end s) (chunks s) t (p_cur s + 1)).

(** [k] entries from [i] on, tested one after the other: the 64-fold disjunction of major_gc.c
    146-210, and the cases of major_gc.c 213-404, which fall through from case [k] down to case 1 *)
Fixpoint any_entry (t : list (Z * Z)) (p i : Z) (k : nat) : outcome bool :=
  match k with
  | O => Ret false
  | S k => do e <- sub_raw t i;
           if (fst e <=? p) && (p <? snd e) then Ret true else any_entry t p (i + 1) k
  end.

(** major_gc.c 142-212: the loop over groups of 64; then the switch *)
Fixpoint in_heap_loop (fuel : nat) (t : list (Z * Z)) (n p i : Z) : outcome bool :=
  match fuel with
  | O => Diverge
  | S fuel =>
      if i + 63 <? n then
        do b <- any_entry t p i 64;
        if b then Ret true else in_heap_loop fuel t n p (i + 64)
      else if (1 <=? n - i) && (n - i <=? 63) then any_entry t p i (Z.to_nat (n - i))
      else Ret false
  end.
Definition p_table_in_heap (s : st) (a : Z) : outcome bool :=
  in_heap_loop (S (Z.to_nat (p_cur s))) (p_table s) (p_cur s) (RawPage a) 0.

(** major_gc.h 32-34 *)
Definition is_in_heap (s : st) (p : Z) : outcome bool :=
  if (p >=? heap_start s) && (p <? heap_end s) then p_table_in_heap s p else Ret false.

(** memory.c 87-94: walking the chunk list to the first chunk not below [mem], and linking in front *)
Fixpoint link_chunk (l : list (Z * Z)) (mem size : Z) : list (Z * Z) :=
  match l with
  | [] => [(mem, size)]
  | (cur, csz) :: l' => if cur <? mem then (cur, csz) :: link_chunk l' mem size else (mem, size) :: l
  end.

(** what a heap extension hands to the allocator: the chunk's single free block, as its first field's
    address and its size in words (memory.c 38-41, 127); nothing when memory is exhausted *)
Definition handed : Type := option (Z * Z).

(** memory.c 20-128; [raw]: malloc's answer (0: NULL) *)
Definition expand_heap (increment raw : Z) (junk : nat -> Z * Z) (request : Z) (s : st) : outcome (handed * st) :=
  match round_heap_chunk_size increment (Bhsize_wosize request) with
  | None => Ret (None, s)                                         (* Out_of_memory raised, nothing changed *)
  | Some malloc_request =>
      if raw =? 0 then Ret (None, s)
      else
        let mem := aligned_malloc raw head_size + head_size in
        let s1 :=
          if mem <? heap_start s then St (heap_end s) ((mem, malloc_request) :: chunks s) (p_table s) (p_cur s)
          else St (if mem >=? heap_end s then mem + malloc_request else heap_end s)
                  (link_chunk (chunks s) mem malloc_request) (p_table s) (p_cur s) in
        do s2 <- p_table_add_pages junk s1 mem (mem + malloc_request);
        Ret (Some (mem + 8, Wosize_bhsize malloc_request), s2)
  end.

(** major_gc.c 719-756; None: a fatal error, or Out_of_memory *)
Definition init_major_heap (increment raw : Z) (junk : nat -> Z * Z) : outcome (option (Z * Z * st)) :=
  match round_heap_chunk_size increment increment with
  | None => Ret None
  | Some size =>
      if raw =? 0 then Ret None
      else
        let start := aligned_malloc raw head_size + head_size in
        let '(t, n) := p_table_init junk in
        do s <- p_table_add_pages junk (St (start + size) [(start, size)] t n) start (start + size);
        Ret (Some (start + 8, Wosize_bhsize size, s))
  end.
