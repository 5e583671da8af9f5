(** Model of the garbage collector (runtime/minor_gc.c, major_gc.c, memory.c, memory.h, roots.c,
    alloc.c and the weak-pointer primitives of mosml.c) at the level of heap blocks.

    A heap maps the address of a block (the value pointing to it) to its header (colour, tag) and its
    fields; the size in the header is the number of fields.  Space not covered by a block is free
    space.  That the allocator works within free space, for every history, is the subject of the
    word-level model (Freelist_Model, properties C09 and C10); that Is_in_heap is membership in a
    chunk is C11.  Here:
    - [alloc_at s w]: what fl_allocate/expand_heap answer for [w] words in state [s]: the address, the
      chunk list afterwards, and the words found in the block; [None] when memory is exhausted;
    - [grow_ok s]: whether realloc of the gray stack succeeds in state [s];
    - [free_size s p]: the size in bytes of the free block whose header is at [p].
    The state carries a counter of allocator calls, so that the answers may depend on time.
    Addresses are integers; addresses of blocks are even, other words with bit 0 set are integers.
    Not modelled: finalisation functions, statistics, messages, the amount of work per slice (slices of
    any length are considered), set_minor_heap_size after start-up, the C stack used by oldify. *)
From Verif Require Import Base ArrayLib.

(** gc.h 10-13 *)
Inductive color := White | Gray | Blue | Black.
Definition color_eqb (a b : color) : bool :=
  match a, b with White, White | Gray, Gray | Blue, Blue | Black, Black => true | _, _ => false end.
(** major_gc.h 17-19 *)
Inductive gcphase := Phase_mark | Phase_weak | Phase_sweep.
(** mlvalues.h 150, 204 *)
Definition No_scan_tag : Z := 251.
Definition Weak_tag : Z := 251.

Record block := Blk { col : color; tag : Z; fs : list Z }.
Notation heap := (list (Z * block)).
Fixpoint hget (h : heap) (a : Z) : option block :=
  match h with [] => None | (x, b) :: h => if x =? a then Some b else hget h a end.
Fixpoint hdel (h : heap) (a : Z) : heap :=
  match h with [] => [] | (x, b) :: h => if x =? a then hdel h a else (x, b) :: hdel h a end.
Definition hput (h : heap) (a : Z) (b : block) : heap := (a, b) :: hdel h a.

(** minor_gc.c 22-24: entries (block, field index), oldest first; sizes in entries.  The threshold is
    at [rt_size], the end of the table at [rt_size + rt_reserve] *)
Record reftab := Tab { rt : list (Z * Z); rt_size : Z; rt_reserve : Z; rt_limit : Z }.

(** major_gc.c 36-37, 431-447; [gray] has the top of the stack first; NULL is 0 *)
Record gcst := Gc {
  phase : gcphase;
  gray : list Z; gray_size : Z; pure : bool;
  markhp : Z; chunk : Z; limit : Z;
  weak : list Z;
  sweep_hp : Z
}.

Record st := St {
  roots : list Z;             (* the stack and the C roots, in the order of local_roots (roots.c 9-28) *)
  globals : Z;                (* global_data *)
  hp : heap;
  young_ptr : Z;              (* minor_gc.c 21 *)
  tab : reftab;
  chunks : list (Z * Z);      (* address and size in bytes, linked by increasing address *)
  gc : gcst;
  tick : Z                    (* number of answers given by the environment so far *)
}.
Definition set_roots (s : st) x := St x (globals s) (hp s) (young_ptr s) (tab s) (chunks s) (gc s) (tick s).
Definition set_globals (s : st) x := St (roots s) x (hp s) (young_ptr s) (tab s) (chunks s) (gc s) (tick s).
Definition set_hp (s : st) x := St (roots s) (globals s) x (young_ptr s) (tab s) (chunks s) (gc s) (tick s).
Definition set_young_ptr (s : st) x := St (roots s) (globals s) (hp s) x (tab s) (chunks s) (gc s) (tick s).
Definition set_tab (s : st) x := St (roots s) (globals s) (hp s) (young_ptr s) x (chunks s) (gc s) (tick s).
Definition set_chunks (s : st) x := St (roots s) (globals s) (hp s) (young_ptr s) (tab s) x (gc s) (tick s).
Definition set_gc (s : st) x := St (roots s) (globals s) (hp s) (young_ptr s) (tab s) (chunks s) x (tick s).
Definition tick_on (s : st) := St (roots s) (globals s) (hp s) (young_ptr s) (tab s) (chunks s) (gc s) (tick s + 1).

Definition set_gray (g : gcst) l n p := Gc (phase g) l n p (markhp g) (chunk g) (limit g) (weak g) (sweep_hp g).
Definition set_walk (g : gcst) m c l := Gc (phase g) (gray g) (gray_size g) (pure g) m c l (weak g) (sweep_hp g).
Definition set_weak (g : gcst) w := Gc (phase g) (gray g) (gray_size g) (pure g) (markhp g) (chunk g) (limit g) w (sweep_hp g).
Definition set_sweep (g : gcst) h c l := Gc (phase g) (gray g) (gray_size g) (pure g) (markhp g) c l (weak g) h.
Definition set_phase (g : gcst) p := Gc p (gray g) (gray_size g) (pure g) (markhp g) (chunk g) (limit g) (weak g) (sweep_hp g).

Definition set_col (b : block) c := Blk c (tag b) (fs b).
Definition set_fs (b : block) l := Blk (col b) (tag b) l.

(** a memory word that may hold a value *)
Inductive loc := LRoot (i : Z) | LField (a i : Z).
Definition read (s : st) (p : loc) : option Z :=
  match p with
  | LRoot i => zget (roots s) i
  | LField a i => match hget (hp s) a with Some b => zget (fs b) i | None => None end
  end.
Definition rd (s : st) (p : loc) : outcome Z := match read s p with Some v => Ret v | None => UB end.
Definition wr (p : loc) (v : Z) (s : st) : outcome st :=
  match p with
  | LRoot i => match zset (roots s) i v with Some l => Ret (set_roots s l) | None => UB end
  | LField a i =>
      match hget (hp s) a with
      | Some b => match zset (fs b) i v with Some l => Ret (set_hp s (hput (hp s) a (set_fs b l))) | None => UB end
      | None => UB
      end
  end.

Section GC.
(** minor_gc.c 21 *)
Variables young_start young_end : Z.
Variable alloc_at : st -> Z -> option (Z * list (Z * Z) * list Z).
Variable grow_ok : st -> bool.
Variable free_size : st -> Z -> Z.

(** mlvalues.h 60-61; minor_gc.h 11-12; major_gc.h 32-34 with C11 *)
Definition is_block (v : Z) : bool := Z.even v.
Definition is_young (v : Z) : bool := (young_start <? v) && (v <? young_end).
Definition is_in_heap (s : st) (p : Z) : bool :=
  existsb (fun c => (fst c <=? p) && (p <? fst c + snd c)) (chunks s).

(** ** Allocation in the major heap *)

(** memory.c 145-149 *)
Definition alloc_color (g : gcst) (r : Z) : color :=
  match phase g with Phase_mark => Black | _ => if r - 8 >=? sweep_hp g then Black else White end.
(** memory.c 130-153; [FailExn] is raise_out_of_memory *)
Definition alloc_shr (wosize tag : Z) (s : st) : outcome (Z * st) :=
  match alloc_at s wosize with
  | None => Raise FailExn
  | Some (r, cs, junk) =>
      Ret (r, tick_on (set_hp (set_chunks s cs) (hput (hp s) r (Blk (alloc_color (gc s) r) tag junk))))
  end.

(** ** Minor collection *)

(** minor_gc.c 93-95, 104-105: the forward flag and the forward pointer in field 0 of a young block *)
Definition put_forward (v r : Z) (s : st) : outcome st :=
  match hget (hp s) v with
  | Some b => match zset (fs b) 0 r with Some l => Ret (set_hp s (hput (hp s) v (Blk Blue (tag b) l))) | None => UB end
  | None => UB
  end.
(** minor_gc.c 112-114, 107-109 (the last field or the only one) and the loop between: fields
    [i], [i+1], ... of [v], [n] of them, are read and processed into the fields of [result] *)
Fixpoint fields_loop (old : loc -> Z -> st -> outcome st) (v result : Z) (n : nat) (i : Z) (s : st) : outcome st :=
  match n with
  | O => Ret s
  | S n =>
      do x <- rd s (LField v i);
      do s <- old (LField result i) x s;
      fields_loop old v result n (i + 1) s
  end.
(** minor_gc.c 60-117; the fuel bounds the nesting of calls *)
Fixpoint oldify (fuel : nat) (p : loc) (v : Z) (s : st) : outcome st :=
  match fuel with
  | O => Diverge
  | S fuel =>
      if is_block v && is_young v then
        match hget (hp s) v with
        | None => UB
        | Some b =>
            if color_eqb (col b) Blue then
              do r <- rd s (LField v 0);
              wr p r s
            else if No_scan_tag <=? tag b then
              do (result, s) <- alloc_shr (zlen (fs b)) (tag b) s;
              let s := match hget (hp s) result with                        (* bcopy *)
                       | Some r => set_hp s (hput (hp s) result (set_fs r (fs b))) | None => s end in
              do s <- put_forward v result s;
              wr p result s
            else
              do field0 <- rd s (LField v 0);
              let sz := zlen (fs b) in
              do (result, s) <- alloc_shr sz (tag b) s;
              do s <- wr p result s;
              do s <- put_forward v result s;
              if sz =? 1 then oldify fuel (LField result 0) field0 s
              else
                do s <- oldify fuel (LField result 0) field0 s;
                do s <- fields_loop (oldify fuel) v result (Z.to_nat (sz - 2)) 1 s;
                do x <- rd s (LField v (sz - 1));
                oldify fuel (LField result (sz - 1)) x s
        end
      else wr p v s
  end.

(** roots.c 13-27 with copy_fn = oldify: [n] roots from the [i]th on *)
Fixpoint oldify_roots (fuel : nat) (n : nat) (i : Z) (s : st) : outcome st :=
  match n with
  | O => Ret s
  | S n =>
      do v <- rd s (LRoot i);
      do s <- oldify fuel (LRoot i) v s;
      oldify_roots fuel n (i + 1) s
  end.
(** minor_gc.c 137 *)
Fixpoint oldify_refs (fuel : nat) (l : list (Z * Z)) (s : st) : outcome st :=
  match l with
  | [] => Ret s
  | (a, i) :: l =>
      do v <- rd s (LField a i);
      do s <- oldify fuel (LField a i) v s;
      oldify_refs fuel l s
  end.
(** minor_gc.c 119-146; the contents of the minor heap are given up with young_ptr = young_start *)
Definition minor_collection (fuel : nat) (s : st) : outcome st :=
  do s <- oldify_roots fuel (length (roots s)) 0 s;
  do s <- oldify_refs fuel (rt (tab s)) s;
  let s := set_hp s (filter (fun e => negb (is_young (fst e))) (hp s)) in
  let s := set_young_ptr s young_start in
  Ret (set_tab s (Tab [] (rt_size (tab s)) (rt_reserve (tab s)) (rt_size (tab s)))).

(** ** Marking *)

(** gc_ctrl.c, memory.c 126, major_gc.c 723: stat_heap_size is the sum of the chunk sizes *)
Definition heap_size (s : st) : Z := fold_right (fun c n => snd c + n) 0 (chunks s).

(** major_gc.c 449-473 *)
Definition realloc_gray_vals (s : st) : st :=
  let g := gc s in
  if gray_size g <? heap_size s / 128 then
    if grow_ok s then tick_on (set_gc s (set_gray g (gray g) (2 * gray_size g) (pure g)))
    else tick_on (set_gc s (set_gray g [] (gray_size g) false))
  else set_gc s (set_gray g (skipn (Z.to_nat (zlen (gray g) - gray_size g / 2)) (gray g)) (gray_size g) false).

(** *gray_vals_cur++ = v: must be within the table *)
Definition push_gray (v : Z) (s : st) : outcome st :=
  let g := gc s in
  if zlen (gray g) <? gray_size g then Ret (set_gc s (set_gray g (v :: gray g) (gray_size g) (pure g))) else UB.

(** major_gc.c 494-501; inspecting the header of something that is not a block is counted as undefined *)
Definition darken (v : Z) (s : st) : outcome st :=
  if is_block v && is_in_heap s v then
    match hget (hp s) v with
    | None => UB
    | Some b =>
        if color_eqb (col b) White then
          do s <- push_gray v (set_hp s (hput (hp s) v (set_col b Gray)));
          Ret (if zlen (gray (gc s)) >=? gray_size (gc s) then realloc_gray_vals s else s)
        else Ret s
    end
  else Ret s.
Fixpoint darken_all (l : list Z) (s : st) : outcome st :=
  match l with [] => Ret s | v :: l => do s <- darken v s; darken_all l s end.

(** major_gc.c 508-516 *)
Definition start_cycle (s : st) : outcome st :=
  do s <- darken (globals s) s;
  do s <- darken_all (roots s) s;
  Ret (set_gc s (set_walk (set_phase (gc s) Phase_mark) 0 (chunk (gc s)) (limit (gc s)))).

Definition heap_start (s : st) : option (Z * Z) := hd_error (chunks s).
(** the next field of the chunk that starts at [c] *)
Fixpoint chunk_after (l : list (Z * Z)) (c : Z) : option (Z * Z) :=
  match l with [] => None | (x, n) :: l => if x =? c then hd_error l else chunk_after l c end.

(** major_gc.c 524-569: one turn of the loop of mark_slice *)
Definition mark_step (s : st) : outcome st :=
  let g := gc s in
  match gray g with
  | v :: l =>
      match hget (hp s) v with
      | None => UB
      | Some b =>
          let s := set_gc s (set_gray g l (gray_size g) (pure g)) in
          let s := set_hp s (hput (hp s) v (set_col b Black)) in
          if tag b <? No_scan_tag then darken_all (rev (fs b)) s
          else if tag b =? Weak_tag then Ret (set_gc s (set_weak (gc s) (weak g ++ [v])))
          else Ret s
      end
  | [] =>
      if negb (markhp g =? 0) then
        if markhp g =? limit g then
          match chunk_after (chunks s) (chunk g) with
          | None => Ret (set_gc s (set_walk g 0 0 (limit g)))
          | Some (c, n) => Ret (set_gc s (set_walk g c c (c + n)))
          end
        else
          match hget (hp s) (markhp g + 8) with
          | Some b =>
              do s <- if color_eqb (col b) Gray then push_gray (markhp g + 8) s else Ret s;
              Ret (set_gc s (set_walk (gc s) (markhp g + 8 * (1 + zlen (fs b))) (chunk g) (limit g)))
          | None => Ret (set_gc s (set_walk g (markhp g + free_size s (markhp g)) (chunk g) (limit g)))
          end
      else
        match heap_start s with
        | None => UB
        | Some (c, n) =>
            if negb (pure g) then
              Ret (set_gc s (set_walk (set_gray g (gray g) (gray_size g) true) c c (c + n)))
            else
              Ret (set_gc s (set_sweep (set_phase g Phase_weak) c c (c + n)))
        end
  end.

(** ** The weak phase *)
(** conversion of a size to int (32 bits) *)
Definition int_of (n : Z) : Z := (n + 2147483648) mod 4294967296 - 2147483648.
(** major_gc.c 584-589: the fields below [len] *)
Fixpoint weak_fields (s : st) (len : Z) (l : list Z) : outcome (list Z) :=
  match l with
  | [] => Ret []
  | v :: l' =>
      if 0 <? len then
        do w <- (if is_block v && is_in_heap s v then
                   match hget (hp s) v with
                   | None => UB
                   | Some b => Ret (if color_eqb (col b) White then 0 else v)
                   end
                 else Ret v);
        do l' <- weak_fields s (len - 1) l';
        Ret (w :: l')
      else Ret l
  end.
Fixpoint weak_arrays (l : list Z) (s : st) : outcome st :=
  match l with
  | [] => Ret s
  | a :: l =>
      match hget (hp s) a with
      | None => UB
      | Some b =>
          do f <- weak_fields s (int_of (zlen (fs b))) (fs b);
          weak_arrays l (set_hp s (hput (hp s) a (set_fs b f)))
      end
  end.
(** major_gc.c 576-593 *)
Definition weak_phase (s : st) : outcome st :=
  do s <- weak_arrays (weak (gc s)) s;
  Ret (set_gc s (set_phase (set_weak (gc s) []) Phase_sweep)).

(** ** Sweeping *)
(** what one turn of the loop of sweep_slice does *)
Inductive swept := SwFree (a : Z) | SwCycle | SwOther.
(** major_gc.c 600-635.  fl_merge_block also steps over a free block that follows the freed one; here
    this is another turn *)
Definition sweep_step (s : st) : outcome (swept * st) :=
  let g := gc s in
  let p := sweep_hp g in
  if p <? limit g then
    match hget (hp s) (p + 8) with
    | Some b =>
        let s1 := set_gc s (set_sweep g (p + 8 * (1 + zlen (fs b))) (chunk g) (limit g)) in
        match col b with
        | White => Ret (SwFree (p + 8), set_hp s1 (hdel (hp s) (p + 8)))
        | Gray | Black => Ret (SwOther, set_hp s1 (hput (hp s) (p + 8) (set_col b White)))
        | Blue => UB
        end
    | None => Ret (SwOther, set_gc s (set_sweep g (p + free_size s p) (chunk g) (limit g)))
    end
  else
    match chunk_after (chunks s) (chunk g) with
    | None => do s <- start_cycle (set_gc s (set_sweep g p 0 (limit g))); Ret (SwCycle, s)
    | Some (c, n) => Ret (SwOther, set_gc s (set_sweep g c c (c + n)))
    end.

(** ** The mutator's operations *)

(** minor_gc.c 153-181; growing the table beyond memory is fatal *)
Definition realloc_ref_table (t : reftab) : reftab :=
  if rt_limit t =? rt_size t then Tab (rt t) (rt_size t) (rt_reserve t) (rt_size t + rt_reserve t)
  else Tab (rt t) (rt_size t) (rt_reserve t + 1024) (rt_size t + (rt_reserve t + 1024)).
(** memory.h 51-55, memory.c 186-189 *)
Definition push_ref (a i : Z) (s : st) : outcome st :=
  let t := tab s in
  if zlen (rt t) <? rt_size t + rt_reserve t then
    let t := Tab (rt t ++ [(a, i)]) (rt_size t) (rt_reserve t) (rt_limit t) in
    Ret (set_tab s (if zlen (rt t) >=? rt_limit t then realloc_ref_table t else t))
  else UB.

(** memory.h 44-58 *)
Definition modify (a i v : Z) (s : st) : outcome st :=
  do old <- rd s (LField a i);
  do s <- wr (LField a i) v s;
  if is_in_heap s (a + 8 * i) then
    do s <- match phase (gc s) with Phase_mark => darken old s | _ => Ret s end;
    if is_block v && is_young v && negb (is_block old && is_young old) then push_ref a i s else Ret s
  else Ret s.

(** memory.c 181-191 *)
Definition initialize (a i v : Z) (s : st) : outcome st :=
  do s <- wr (LField a i) v s;
  if is_block v && is_young v then push_ref a i s else Ret s.

(** memory.h 26-38 when there is room (otherwise a minor collection comes first), followed by the
    stores into the fields; [None]: no room *)
Definition alloc_small (tag : Z) (fields : list Z) (s : st) : option (Z * st) :=
  let res := young_ptr s in
  let p := young_ptr s + 8 * (zlen fields + 1) in
  if p >? young_end then None
  else Some (res + 8, set_young_ptr (set_hp s (hput (hp s) (res + 8) (Blk Black tag fields))) p).

(** alloc_shr followed by [initialize] for each field, as in interp.c 894-898, callback.c 94-95, meta.c 63-66 *)
Fixpoint init_fields (a i : Z) (l : list Z) (s : st) : outcome st :=
  match l with
  | [] => Ret s
  | v :: l => do s <- initialize a i v s; init_fields a (i + 1) l s
  end.
Definition alloc_init (tag : Z) (fields : list Z) (s : st) : outcome (Z * st) :=
  do (r, s) <- alloc_shr (zlen fields) tag s;
  do s <- init_fields r 0 fields s;
  Ret (r, s).
(** alloc_shr followed by plain stores of data or of words that are not young blocks
    (alloc.c 26-44, 46-55; interp.c 1385-1391; mosml.c 1327-1339) *)
Definition alloc_data (tag : Z) (fields : list Z) (s : st) : outcome (Z * st) :=
  do (r, s) <- alloc_shr (zlen fields) tag s;
  match hget (hp s) r with
  | Some b => Ret (r, set_hp s (hput (hp s) r (set_fs b fields)))
  | None => UB
  end.

(** mosml.c 1304-1309; inspecting the header of something that is not a block is counted as undefined *)
Definition isdead (v : Z) (s : st) : outcome bool :=
  if v =? 0 then Ret true
  else match phase (gc s) with
       | Phase_weak =>
           if is_block v && is_in_heap s v then
             match hget (hp s) v with None => UB | Some b => Ret (color_eqb (col b) White) end
           else Ret false
       | _ => Ret false
       end.
(** mosml.c 1311-1320; [FailExn]: Fail "Dangling weak pointer" *)
Definition weak_sub (a i : Z) (s : st) : outcome (Z * st) :=
  do v <- rd s (LField a i);
  do d <- isdead v s;
  if d then Raise FailExn
  else
    do s <- match phase (gc s) with Phase_mark => darken v s | _ => Ret s end;
    Ret (v, s).
(** mosml.c 1322-1325 *)
Definition weak_isdead (a i : Z) (s : st) : outcome bool :=
  do v <- rd s (LField a i); isdead v s.

(** ** Whole collections *)
(** major_gc.c 518-570 with work = LONG_MAX: until marking is done *)
Fixpoint mark_all (fuel : nat) (s : st) : outcome st :=
  match fuel with
  | O => Diverge
  | S fuel => do s <- mark_step s; match phase (gc s) with Phase_mark => mark_all fuel s | _ => Ret s end
  end.
(** major_gc.c 595-636 with work = LONG_MAX: until the next cycle starts *)
Fixpoint sweep_all (fuel : nat) (s : st) : outcome st :=
  match fuel with
  | O => Diverge
  | S fuel => do (r, s) <- sweep_step s; match r with SwCycle => Ret s | _ => sweep_all fuel s end
  end.
(** major_gc.c 690-706 *)
Definition finish_major_cycle (fuel : nat) (s : st) : outcome st :=
  do s <- match phase (gc s) with Phase_mark => mark_all fuel s | _ => Ret s end;
  do s <- match phase (gc s) with Phase_weak => weak_phase s | _ => Ret s end;
  sweep_all fuel s.
(** mark_slice and sweep_slice with work for at most [n] turns; major_gc.c 639-687 *)
Fixpoint mark_slice (n : nat) (s : st) : outcome st :=
  match n with
  | O => Ret s
  | S n => do s <- mark_step s; match phase (gc s) with Phase_mark => mark_slice n s | _ => Ret s end
  end.
Fixpoint sweep_slice (n : nat) (s : st) : outcome st :=
  match n with
  | O => Ret s
  | S n => do (r, s) <- sweep_step s; match r with SwCycle => Ret s | _ => sweep_slice n s end
  end.
Definition major_collection_slice (n : nat) (s : st) : outcome st :=
  match phase (gc s) with
  | Phase_mark => mark_slice n s
  | Phase_weak => weak_phase s
  | Phase_sweep => sweep_slice n s
  end.
(** gc_ctrl.c 180-186; the slice is the one at the end of minor_collection, minor_gc.c 147 *)
Definition gc_full_major (fuel n : nat) (s : st) : outcome st :=
  do s <- minor_collection fuel s;
  do s <- major_collection_slice n s;
  do s <- finish_major_cycle fuel s;
  finish_major_cycle fuel s.

(** major_gc.c 756-770, minor_gc.c 25-54 at start-up: one chunk, everything else empty *)
Definition init_st (c n size : Z) : st :=
  St [] 0 [] young_start (Tab [] size 256 size) [(c, n)]
     (Gc Phase_mark [] 2048 true 0 0 0 [] 0) 0.
End GC.
