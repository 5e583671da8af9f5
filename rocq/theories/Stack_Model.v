(** The interpreter's stack in memory: the registers sp and trapsp, the chain of trap frames, and the
    reallocation of the stack.  Model of stacks.c, stacks.h and of the stack operations of interp.c.
    Addresses count words.  A stack holds values (integers here), code pointers, and the links of the trap
    frames, which are addresses. *)
From Verif Require Import Base.

Inductive word := WVal (v : Z) | WPc (c : Z) | WPtr (a : Z).

(** config.h 61-73: Stack_size, Stack_threshold (bytes, 8 per word), Max_stack_size (compared with words) *)
Definition Stack_words : Z := 32768 / 8.
Definition Threshold_words : Z := 2048 / 8.
Definition Max_stack_words : Z := 1048576.

(** stacks.c 11-15: stack_low, the contents of the block, extern_sp/sp, trapsp; stack_high is the end *)
Record cst := mkC { low : Z; mem : list word; sp : Z; trapsp : Z }.
Definition high (c : cst) : Z := low c + Z.of_nat (length (mem c)).

(** access to the block; outside it, undefined *)
Definition rd (c : cst) (a : Z) : outcome word :=
  if (low c <=? a) && (a <? high c) then
    match nth_error (mem c) (Z.to_nat (a - low c)) with Some w => Ret w | None => UB end
  else UB.
Fixpoint set_nth {A} (l : list A) (k : nat) (x : A) : list A :=
  match l, k with [], _ => [] | _ :: r, O => x :: r | y :: r, S k => y :: set_nth r k x end.
Definition wr (c : cst) (a : Z) (w : word) : outcome cst :=
  if (low c <=? a) && (a <? high c) then Ret (mkC (low c) (set_nth (mem c) (Z.to_nat (a - low c)) w) (sp c) (trapsp c)) else UB.
Definition rd_ptr (c : cst) (a : Z) : outcome Z := do w <- rd c a; match w with WPtr p => Ret p | _ => UB end.
Definition rd_pc (c : cst) (a : Z) : outcome Z := do w <- rd c a; match w with WPc p => Ret p | _ => UB end.
Definition rd_val (c : cst) (a : Z) : outcome Z := do w <- rd c a; match w with WVal p => Ret p | _ => UB end.
Definition set_sp (c : cst) (a : Z) : cst := mkC (low c) (mem c) a (trapsp c).
Definition set_trap (c : cst) (a : Z) : cst := mkC (low c) (mem c) (sp c) a.

(** stacks.c 18-25 *)
Definition init_stack (addr : Z) (junk : list word) : cst :=
  mkC addr junk (addr + Stack_words) (addr + Stack_words).

(** interp.c 298-300 *)
Definition push (c : cst) (v : Z) : outcome cst := let a := sp c - 1 in wr (set_sp c a) a (WVal v).
(** interp.c 327-329 *)
Definition pop (c : cst) (n : Z) : cst := set_sp c (sp c + n).
(** interp.c 301-325 *)
Definition access (c : cst) (n : Z) : outcome Z := rd_val c (sp c + n).
(** interp.c 330-333 *)
Definition assign (c : cst) (n v : Z) : outcome cst := wr c (sp c + n) (WVal v).

(** PUSHTRAP, interp.c 1064-1072; Trap_pc and Trap_link, stacks.h 19-20 *)
Definition pushtrap (c : cst) (pc env extra : Z) : outcome cst :=
  let a := sp c - 4 in
  do c <- wr (set_sp c a) a (WPc pc);
  do c <- wr c (a + 1) (WPtr (trapsp c));
  do c <- wr c (a + 2) (WVal env);
  do c <- wr c (a + 3) (WVal extra);
  Ret (set_trap c a).
(** POPTRAP, interp.c 1074-1081 *)
Definition poptrap (c : cst) : outcome cst :=
  do l <- rd_ptr c (sp c + 1);
  Ret (set_sp (set_trap c l) (sp c + 4)).
(** RAISE, interp.c 1083-1097, in an interprete that was entered with initial_sp_offset = base.
    [None]: there is no handler in this interprete; longjmp to the caller *)
Definition raise (base : Z) (c : cst) : outcome (option (Z * Z * Z) * cst) :=
  let c := set_sp c (trapsp c) in
  if sp c >=? high c - base then Ret (None, c)
  else
    do pc <- rd_pc c (sp c);
    do l <- rd_ptr c (sp c + 1);
    do env <- rd_val c (sp c + 2);
    do extra <- rd_val c (sp c + 3);
    Ret (Some (pc, env, extra), set_sp (set_trap c l) (sp c + 4)).

(** realloc_stack, stacks.c 27-60.  stat_alloc returns the block [addr] with contents [junk]. *)
Fixpoint relocate (fuel : nat) (c : cst) (new_high old_high p : Z) : outcome cst :=
  match fuel with
  | O => Diverge
  | S fuel =>
      if p <? new_high then
        do l <- rd_ptr c (p + 1);
        do c <- wr c (p + 1) (WPtr (new_high - (old_high - l)));
        do l <- rd_ptr c (p + 1);
        relocate fuel c new_high old_high l
      else Ret c
  end.
Definition realloc_stack (addr : Z) (junk : Z -> list word) (c : cst) : outcome cst :=
  if sp c <? low c then UB                                    (* the Assert of line 33 *)
  else
    let size := high c - low c in
    if size >=? Max_stack_words then Raise OutOfMemory
    else
      let size := size * 2 in
      let new_high := addr + size in
      let shift p := new_high - (high c - p) in
      let new_sp := shift (sp c) in
      let used := skipn (Z.to_nat (sp c - low c)) (mem c) in  (* bcopy: the words from sp to stack_high *)
      let blk := junk (size - Z.of_nat (length used)) ++ used in
      relocate (S (length blk)) (mkC addr blk new_sp (shift (trapsp c))) new_high (high c) (shift (trapsp c)).
(** interp.c 720-724 *)
Definition check (addr : Z) (junk : Z -> list word) (c : cst) : outcome cst :=
  if sp c <? low c + Threshold_words then realloc_stack addr junk c else Ret c.

(** ** Traces of stack operations, and what they observe *)
Inductive op :=
| Push (v : Z) | Pop (n : nat) | Access (n : nat) | Assign (n : nat) (v : Z)
| PushTrap (pc env extra : Z) | PopTrap | Raise_ (base : Z) | Check (addr : Z) (junk : Z -> list word).
(** a value read; the handler that gets an exception (None: that of the caller) *)
Inductive obs := OVal (v : Z) | OHandler (h : option (Z * Z * Z)).

Definition cop (o : op) (c : cst) : outcome (list obs * cst) :=
  match o with
  | Push v => do c <- push c v; Ret ([], c)
  | Pop n => Ret ([], pop c (Z.of_nat n))
  | Access n => do v <- access c (Z.of_nat n); Ret ([OVal v], c)
  | Assign n v => do c <- assign c (Z.of_nat n) v; Ret ([], c)
  | PushTrap pc env extra => do c <- pushtrap c pc env extra; Ret ([], c)
  | PopTrap => do c <- poptrap c; Ret ([], c)
  | Raise_ base => do (h, c) <- raise base c; Ret ([OHandler h], c)
  | Check addr junk => do c <- check addr junk c; Ret ([], c)
  end.
Fixpoint crun (l : list op) (c : cst) : outcome (list obs * cst) :=
  match l with
  | [] => Ret ([], c)
  | o :: l => do (a, c) <- cop o c; do (b, c) <- crun l c; Ret (a ++ b, c)
  end.
