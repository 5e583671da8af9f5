(** Model of the abstract machine of runtime/interp.c (function interprete) for the instructions that
    the compiler's back end produces (compiler/Instruct.sml), and of their translation to opcodes by
    compiler/Emitcode.sml: one step below is the run of the opcodes that one instruction is emitted as.
    The fused opcodes (PUSHACC, PUSH_ENV1_APPLY1, GETFIELD0_1, ...) are the composition of the steps of
    the instructions they replace (interp.c 298-461, 694-837, 959-977).

    The program counter is the rest of the program's instructions; labels take no space.  The stack is
    the list of its words, top first; the stack memory, its bounds and its reallocation are in
    Stack_Model.v.  The heap is the list of the blocks allocated so far, by address; nothing is ever
    deallocated, as the garbage collector keeps what is reachable (C12, C14).  Signals are not modelled. *)
From Verif Require Import Base Opcodes.
From Verif Require Export Emit_Model.

(** ** Values *)
(** A machine word.  [VInt n] is Val_long(n); [VAtom t] is Atom(t); [VPtr a] points to block [a];
    [VCode l] is the address of label [l]; [VRestart l] is the address of the RESTART instruction in
    front of label [l]; [VPc c] is the address of the code [c] (in return and trap frames);
    [VTrap d] is the address [d] words below the high end of the stack, stack_high - d (trap links). *)
Inductive value :=
| VInt (n : Z) | VAtom (t : Z) | VPtr (a : nat) | VCode (l : Z) | VRestart (l : Z)
| VPc (c : list instr) | VTrap (d : Z).

Record block := mkBlock { btag : Z; fields : list value }.
Definition heap_t := list block.
Definition globals := list (Z * value).

(** mlvalues.h: Closure_tag *)
Definition Closure_tag : Z := 249.
(** mlvalues.h 243-248 *)
Definition unit_val : value := VAtom 0.
Definition bool_val (b : bool) : value := if b then VAtom 1 else VAtom 0.

(** Tag_val; of an integer it is undefined *)
Definition tag_val (h : heap_t) (v : value) : option Z :=
  match v with
  | VAtom t => Some t
  | VPtr a => match nth_error h a with Some b => Some (btag b) | None => None end
  | _ => None
  end.
(** Field(v, i); an atom has no fields *)
Definition field (h : heap_t) (v : value) (i : Z) : option value :=
  match v with
  | VPtr a => match nth_error h a with
              | Some b => if 0 <=? i then nth_error (fields b) (Z.to_nat i) else None
              | None => None end
  | _ => None
  end.
Fixpoint set_nth {A} (l : list A) (n : nat) (x : A) : list A :=
  match l, n with
  | [], _ => []
  | _ :: r, O => x :: r
  | y :: r, S n => y :: set_nth r n x
  end.
(** modify(&Field(v, i), x) *)
Definition set_field (h : heap_t) (v : value) (i : Z) (x : value) : option heap_t :=
  match v with
  | VPtr a =>
      match nth_error h a with
      | Some b => if (0 <=? i) && (i <? Z.of_nat (length (fields b)))
                  then Some (set_nth h a (mkBlock (btag b) (set_nth (fields b) (Z.to_nat i) x))) else None
      | None => None end
  | _ => None
  end.
(** Alloc_small and alloc_shr *)
Definition alloc (h : heap_t) (t : Z) (fs : list value) : value * heap_t := (VPtr (length h), h ++ [mkBlock t fs]).

(** the first n words of the stack and the others; None if there are not as many *)
Fixpoint take (n : nat) (s : list value) : option (list value * list value) :=
  match n with
  | O => Some ([], s)
  | S n => match s with
           | [] => None
           | x :: s => match take n s with Some (a, r) => Some (x :: a, r) | None => None end
           end
  end.
Definition ztake (n : Z) (s : list value) : option (list value * list value) :=
  if 0 <=? n then take (Z.to_nat n) s else None.

(** ** What is left open: the values of the literals in the table of globals, and the primitives that
    are not part of the interpreter's control (arithmetic, C functions, comparisons of reals and
    strings).  A primitive gives a value, or raises an exception; [None] is undefined. *)
Record prims := mkPrims {
  lit : Z -> value;
  prim_arity : primitive -> nat;
  prim_sem : primitive -> list value -> heap_t -> option (bool * value * heap_t);
  xtest : bool_test -> value -> value -> heap_t -> option bool }.

(** interp.c 1186-1206, and the table of globals *)
Definition const_val (p : prims) (c : constant) : value :=
  match c with
  | INTscon i | WORDscon i | CHARscon i => VInt i
  | EMPTYsc t => VAtom t
  | OTHERsc k => lit p k
  end.

(** ** Tests: interp.c 1254-1283 *)
Definition phys_eq (a b : value) : option bool :=
  match a, b with
  | VInt n, VInt m => Some (n =? m)
  | VAtom n, VAtom m => Some (n =? m)
  | VPtr n, VPtr m => Some (Nat.eqb n m)
  | VInt _, (VAtom _ | VPtr _) | VAtom _, (VInt _ | VPtr _) | VPtr _, (VInt _ | VAtom _) => Some false
  | _, _ => None
  end.
Definition cmp (t : prim_test) (n m : Z) : option bool :=
  match t with
  | PTeq => Some (n =? m) | PTnoteq => Some (negb (n =? m)) | PTlt => Some (n <? m)
  | PTle => Some (n <=? m) | PTgt => Some (n >? m) | PTge => Some (n >=? m) | PTnoteqimm _ => None
  end.
Definition word63 (n : Z) : Z := n mod 9223372036854775808.
Definition test (p : prims) (t : bool_test) (a b : value) (h : heap_t) : option bool :=
  match t with
  | Peq_test => phys_eq a b
  | Pnoteq_test => match phys_eq a b with Some x => Some (negb x) | None => None end
  | Pint_test t => match a, b with VInt n, VInt m => cmp t n m | _, _ => None end
  | Pword_test t => match a, b with VInt n, VInt m => cmp t (word63 n) (word63 m) | _, _ => None end
  | Pfloat_test _ | Pstring_test _ => xtest p t a b h
  | Pnoteqtag_test _ => None
  end.
(** the tests with an immediate operand, which keep accu (Emitcode.sml 181-205: PUSH, push the constant,
    compare for equality, POPBRANCHIFNOT); the result is that of the comparison for equality *)
Definition test_imm (p : prims) (t : bool_test) (a : value) (h : heap_t) : option bool :=
  match t with
  | Pint_test (PTnoteqimm i) => test p (Pint_test PTeq) a (VInt i) h
  | Pword_test (PTnoteqimm i) => test p (Pword_test PTeq) a (VInt i) h
  | Pfloat_test (PTnoteqimm k) => test p (Pfloat_test PTeq) a (lit p k) h
  | Pstring_test (PTnoteqimm k) => test p (Pstring_test PTeq) a (lit p k) h
  | _ => None
  end.
Definition is_imm (t : bool_test) : bool :=
  match t with
  | Pint_test (PTnoteqimm _) | Pword_test (PTnoteqimm _) | Pfloat_test (PTnoteqimm _) | Pstring_test (PTnoteqimm _) => true
  | _ => false
  end.
(** what a test that takes its operands leaves in accu: BRANCHIFxx leave it alone, EQFLOAT etc. put the result *)
Definition test_accu (t : bool_test) (accu : value) (b : bool) : value :=
  match t with Peq_test | Pnoteq_test | Pint_test _ => accu | _ => bool_val b end.

(** ** The machine *)
Record mst := mkM {
  pc : list instr; accu : value; sp : list value; env : value; extra : Z; trap : Z;
  heap : heap_t; glob : globals }.

Fixpoint find_label (P : list instr) (l : Z) : option (list instr) :=
  match P with
  | [] => None
  | Klabel l' :: r => if l =? l' then Some r else find_label r l
  | _ :: r => find_label r l
  end.
(** the code at a label.  A program that refers to a label without defining it is not emitted (C44); here
    a jump to such a label never ends. *)
Definition target (P : list instr) (l : Z) : list instr :=
  match find_label P l with Some c => c | None => [Kbranch l] end.
(** the RESTART in front of the label *)
Fixpoint find_restart (P : list instr) (l : Z) : option (list instr) :=
  match P with
  | [] => None
  | i :: r =>
      match i, r with
      | Krestart, Klabel l' :: _ => if l =? l' then Some P else find_restart r l
      | _, _ => find_restart r l
      end
  end.
(** the label whose code starts with the GRAB that c follows: at GRAB, pc - 3 is the RESTART (interp.c 628-631) *)
Fixpoint grab_label (P : list instr) (c : list instr) : option Z :=
  match P with
  | [] => None
  | i :: r =>
      match i, r with
      | Krestart, Klabel l :: Kgrab _ :: r' => if Nat.eqb (length r') (length c) then Some l else grab_label r c
      | _, _ => grab_label r c
      end
  end.

(** Code_val(v) *)
Definition code_val (P : list instr) (h : heap_t) (v : value) : option (list instr) :=
  match field h v 0 with
  | Some (VCode l) => Some (target P l)
  | Some (VRestart l) => find_restart P l
  | Some (VPc c) => Some c
  | _ => None
  end.

Fixpoint lookup_glob (g : globals) (u : Z) : option value :=
  match g with [] => None | (k, v) :: r => if u =? k then Some v else lookup_glob r u end.

Definition upd_pc s c := mkM c (accu s) (sp s) (env s) (extra s) (trap s) (heap s) (glob s).
Definition set_acc s c a := mkM c a (sp s) (env s) (extra s) (trap s) (heap s) (glob s).

(** the exception v is raised: interp.c 1083-1097.  None: no handler; longjmp to the caller of interprete *)
Definition do_raise (base : Z) (s : mst) (v : value) : option mst :=
  let t := trap s in
  if t <=? base then None
  else
    match ztake (Z.of_nat (length (sp s)) - t) (sp s) with
    | Some (_, VPc c :: VTrap l :: e :: VInt x :: r) => Some (mkM c v r e x l (heap s) (glob s))
    | _ => None
    end.

(** interp.c 586-598, return_code: after the frame's words have been popped *)
Definition do_return (P : list instr) (s : mst) : option mst :=
  if 0 <? extra s then
    match code_val P (heap s) (accu s) with
    | Some c => Some (mkM c (accu s) (sp s) (accu s) (extra s - 1) (trap s) (heap s) (glob s))
    | None => None
    end
  else
    match sp s with
    | VPc c :: e :: VInt x :: r => Some (mkM c (accu s) r e x (trap s) (heap s) (glob s))
    | _ => None
    end.

Definition truth (h : heap_t) (v : value) : option bool :=
  match tag_val h v with Some t => Some (negb (t =? 0)) | None => None end.

Definition jump (P : list instr) (l : Z) (s : mst) : option mst := Some (upd_pc s (target P l)).

(** UPDATE, interp.c 679-690: the block newval is copied into the block accu, tag and fields *)
Definition update_block (h : heap_t) (dst src : value) : option heap_t :=
  match dst, src with
  | VPtr a, VPtr b =>
      match nth_error h a, nth_error h b with
      | Some x, Some y => if Nat.eqb (length (fields x)) (length (fields y)) then Some (set_nth h a y) else None
      | _, _ => None
      end
  | _, _ => None
  end.

(** One step in program [P] with the stack depth [base] at the start of interprete.  [None]: the machine
    stops: at the end of the program, when an exception is not handled, or in an undefined situation. *)
Definition step (p : prims) (P : list instr) (base : Z) (s : mst) : option mst :=
  match pc s with
  | [] => None
  | i :: c =>
      match i with
      | Klabel _ | Kcheck_signals => Some (upd_pc s c)
      | Kquote k => Some (set_acc s c (const_val p k))
      (* interp.c 697-700 *)
      | Kget_global u => match lookup_glob (glob s) u with Some v => Some (set_acc s c v) | None => None end
      (* 839-843 *)
      | Kset_global u => Some (mkM c unit_val (sp s) (env s) (extra s) (trap s) (heap s) ((u, accu s) :: glob s))
      (* 301-325 *)
      | Kaccess n => if n <? 0 then None else
          match nth_error (sp s) (Z.to_nat n) with Some v => Some (set_acc s c v) | None => None end
      (* 330-333 *)
      | Kassign n =>
          if (0 <=? n) && (n <? Z.of_nat (length (sp s))) then
            Some (mkM c unit_val (set_nth (sp s) (Z.to_nat n) (accu s)) (env s) (extra s) (trap s) (heap s) (glob s))
          else None
      (* 337-359; ENVn is Field(env, n), and Kenvacc m is emitted as ENV(m + 1) *)
      | Kenvacc m => match field (heap s) (env s) (m + 1) with Some v => Some (set_acc s c v) | None => None end
      (* 948-958 *)
      | Kgetfield n => match field (heap s) (accu s) n with Some v => Some (set_acc s c v) | None => None end
      (* 979-1002 *)
      | Ksetfield n =>
          match sp s with
          | b :: r => match set_field (heap s) b n (accu s) with
                      | Some h => Some (mkM c unit_val r (env s) (extra s) (trap s) h (glob s)) | None => None end
          | [] => None
          end
      (* 298-300 *)
      | Kpush => Some (mkM c (accu s) (accu s :: sp s) (env s) (extra s) (trap s) (heap s) (glob s))
      (* 327-329 *)
      | Kpop n => match ztake n (sp s) with
                  | Some (_, r) => Some (mkM c (accu s) r (env s) (extra s) (trap s) (heap s) (glob s)) | None => None end
      (* 465-472 *)
      | Kpush_retaddr l =>
          Some (mkM c (accu s) (VPc (target P l) :: env s :: VInt (extra s) :: sp s) (env s) (extra s) (trap s) (heap s) (glob s))
      (* 473-528, and 713-726; the check for room on the stack is in Stack_Model.v *)
      | Kapply n =>
          match code_val P (heap s) (accu s) with
          | None => None
          | Some f =>
              if n <? 5 then
                match ztake n (sp s) with
                | Some (args, r) =>
                    Some (mkM f (accu s) (args ++ VPc c :: env s :: VInt (extra s) :: r) (accu s) (n - 1) (trap s) (heap s) (glob s))
                | None => None
                end
              else Some (mkM f (accu s) (sp s) (accu s) (n - 1) (trap s) (heap s) (glob s))
          end
      (* 530-582 and 425-428 *)
      | Kappterm n z =>
          match code_val P (heap s) (accu s) with
          | None => None
          | Some f =>
              match ztake n (sp s), ztake z (sp s) with
              | Some (args, _), Some (_, r) =>
                  Some (mkM f (accu s) (args ++ r) (accu s) (extra s + (n - 1)) (trap s) (heap s) (glob s))
              | _, _ => None
              end
          end
      (* 584-606 *)
      | Kreturn n => match ztake n (sp s) with
                     | Some (_, r) => do_return P (mkM c (accu s) r (env s) (extra s) (trap s) (heap s) (glob s))
                     | None => None end
      (* 608-616 *)
      | Krestart =>
          match env s with
          | VPtr a =>
              match nth_error (heap s) a with
              | Some b => match fields b with
                          | _ :: e :: args =>
                              Some (mkM c (accu s) (args ++ sp s) e (extra s + Z.of_nat (length args)) (trap s) (heap s) (glob s))
                          | _ => None end
              | None => None
              end
          | _ => None
          end
      (* 618-639 *)
      | Kgrab n =>
          if extra s >=? n then Some (mkM c (accu s) (sp s) (env s) (extra s - n) (trap s) (heap s) (glob s))
          else
            match grab_label P c, ztake (1 + extra s) (sp s) with
            | Some l, Some (args, VPc ra :: e :: VInt x :: r) =>
                let '(v, h) := alloc (heap s) Closure_tag (VRestart l :: env s :: args) in
                Some (mkM ra v r e x (trap s) h (glob s))
            | _, _ => None
            end
      (* 641-653 *)
      | Kclosure l n =>
          match ztake n (if 0 <? n then accu s :: sp s else sp s) with
          | Some (vs, r) => let '(v, h) := alloc (heap s) Closure_tag (VCode l :: vs) in
                            Some (mkM c v r (env s) (extra s) (trap s) h (glob s))
          | None => None
          end
      (* 655-668; Kclosurerec (lbl, sz) is emitted with operand sz - 1 *)
      | Kclosurerec l n =>
          match ztake (n - 1) (if 0 <? n - 1 then accu s :: sp s else sp s) with
          | Some (vs, r) => let '(v, h) := alloc (heap s) Closure_tag (VCode l :: VPtr (length (heap s)) :: vs) in
                            Some (mkM c v r (env s) (extra s) (trap s) h (glob s))
          | None => None
          end
      (* 878-945; the last field is accu, the first one deepest on the stack *)
      | Kmakeblock t n =>
          match ztake (n - 1) (sp s) with
          | Some (vs, r) => let '(v, h) := alloc (heap s) t (rev (accu s :: vs)) in
                            Some (mkM c v r (env s) (extra s) (trap s) h (glob s))
          | None => None
          end
      (* 1064-1072 *)
      | Kpushtrap l =>
          Some (mkM c (accu s) (VPc (target P l) :: VTrap (trap s) :: env s :: VInt (extra s) :: sp s) (env s) (extra s)
                  (Z.of_nat (length (sp s)) + 4) (heap s) (glob s))
      (* 1074-1081 *)
      | Kpoptrap => match sp s with
                    | _ :: VTrap l :: _ :: _ :: r => Some (mkM c (accu s) r (env s) (extra s) l (heap s) (glob s))
                    | _ => None end
      | Kraise => do_raise base s (accu s)
      (* 1035-1043 *)
      | Kbranch l => jump P l s
      | Kbranchif l | Kstrictbranchif l =>
          match truth (heap s) (accu s) with
          | Some true => jump P l s | Some false => Some (upd_pc s c) | None => None end
      | Kbranchifnot l | Kstrictbranchifnot l =>
          match truth (heap s) (accu s) with
          | Some false => jump P l s | Some true => Some (upd_pc s c) | None => None end
      | Ktest t l =>
          if is_imm t then
            match test_imm p t (accu s) (heap s) with
            | Some true => Some (upd_pc s c)
            | Some false => jump P l s
            | None => None
            end
          else
            match sp s with
            | a :: r =>
                match test p t a (accu s) (heap s) with
                | Some b =>
                    let s' := mkM c (test_accu t (accu s) b) r (env s) (extra s) (trap s) (heap s) (glob s) in
                    if b then jump P l s' else Some s'
                | None => None
                end
            | [] => None
            end
      (* 1285-1302 *)
      | Kbranchinterval low high l1 l2 =>
          match accu s with
          | VInt n =>
              if n <? low then jump P l1 s
              else if high <? n then jump P l2 s
              else Some (set_acc s c (VInt (n - low)))
          | _ => None
          end
      (* 1052-1057 *)
      | Kswitch ls =>
          match accu s with
          | VInt n => if n <? 0 then None else
                      match nth_error ls (Z.to_nat n) with Some l => jump P l s | None => None end
          | _ => None
          end
      | Kprim q =>
          match q with
          (* 672-678 *)
          | Pdummy n => let '(v, h) := alloc (heap s) 0 (repeat (VInt 0) (Z.to_nat (n + 1))) in
                        Some (mkM c v (sp s) (env s) (extra s) (trap s) h (glob s))
          | Ptest t => match sp s with
                       | a :: r => match test p t a (accu s) (heap s) with
                                   | Some b => Some (mkM c (bool_val b) r (env s) (extra s) (trap s) (heap s) (glob s))
                                   | None => None end
                       | [] => None end
          | Patom t => Some (set_acc s c (VAtom t))
          | Pidentity => Some (upd_pc s c)
          | Psimple op =>
              (* 679-690 *)
              if op =? UPDATE then
                match sp s with
                | v :: r => match update_block (heap s) (accu s) v with
                            | Some h => Some (mkM c unit_val r (env s) (extra s) (trap s) h (glob s)) | None => None end
                | [] => None
                end
              (* 1058-1059 *)
              else if op =? BOOLNOT then
                match truth (heap s) (accu s) with Some b => Some (set_acc s c (bool_val (negb b))) | None => None end
              (* 1269-1271 *)
              else if op =? TAGOF then
                match tag_val (heap s) (accu s) with Some t => Some (set_acc s c (VInt t)) | None => None end
              else
                match take (prim_arity p q - 1) (sp s) with
                | Some (vs, r) =>
                    match prim_sem p q (rev (accu s :: vs)) (heap s) with
                    | Some (true, v, h) => Some (mkM c v r (env s) (extra s) (trap s) h (glob s))
                    | Some (false, v, h) => Some (mkM (Kraise :: c) v r (env s) (extra s) (trap s) h (glob s))   (* goto raise_exception *)
                    | None => None
                    end
                | None => None
                end
          | Pccall _ _ | Pbad =>
                match take (prim_arity p q - 1) (sp s) with
                | Some (vs, r) =>
                    match prim_sem p q (rev (accu s :: vs)) (heap s) with
                    | Some (true, v, h) => Some (mkM c v r (env s) (extra s) (trap s) h (glob s))
                    | Some (false, v, h) => Some (mkM (Kraise :: c) v r (env s) (extra s) (trap s) h (glob s))   (* goto raise_exception *)
                    | None => None
                    end
                | None => None
                end
          end
      end
  end.

(** running for a number of steps *)
Fixpoint run (p : prims) (P : list instr) (base : Z) (n : nat) (s : mst) : mst :=
  match n with
  | O => s
  | S n => match step p P base s with Some s' => run p P base n s' | None => s end
  end.
