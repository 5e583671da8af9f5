(** Model of the emission of bytecode: compiler/Buffcode.sml, Labels.sml, Reloc.sml, Emitcode.sml,
    Emit_phr.sml (emit_phrase).  Positions are unbounded integers; the buffer and the table of labels
    grow without a maximum (the real arrays would raise Size at 2^54 elements). *)
From Verif Require Import Base ArrayLib Opcodes.

(** *** Buffcode.sml *)
(** the primitives and, shift_right_signed, shift_right_unsigned on 63-bit ints (runtime/interp.c 1243-1254) *)
Definition andb_ (a b : Z) : Z := Z.land a b.
Definition rshiftsig_ (a k : Z) : Z := Z.shiftr a k.
Definition rshiftuns_ (a k : Z) : Z := Z.shiftr (a mod 9223372036854775808) k.

Inductive label_definition := Label_defined (pos : Z) | Label_undefined (refs : list (Z * Z)).
Inductive reloc := Reloc_literal (sc : Z) | Reloc_getglobal (uid : Z) | Reloc_setglobal (uid : Z) | Reloc_primitive (name : Z).
(** the variables out_buffer, out_position (Buffcode.sml 14-15), label_table (Labels.sml 12),
    reloc_info (Reloc.sml 9-10; literals and others in one list here, latest first) *)
Record st := { buf : list Z; pos : Z; tbl : list label_definition; rel : list (reloc * Z) }.
Definition set_buf s b := {| buf := b; pos := pos s; tbl := tbl s; rel := rel s |}.
Definition set_pos s p := {| buf := buf s; pos := p; tbl := tbl s; rel := rel s |}.
Definition set_tbl s t := {| buf := buf s; pos := pos s; tbl := t; rel := rel s |}.
Definition set_rel s r := {| buf := buf s; pos := pos s; tbl := tbl s; rel := r |}.

(** Buffcode.sml 17-23 *)
Definition realloc_out_buffer (s : st) : st :=
  let len := zlen (buf s) in set_buf s (buf s ++ repeat 0 (Z.to_nat (2 * len - len))).
(** Buffcode.sml 27-33; Char.chr does not raise as the argument is in 0..255 *)
Definition out (b : Z) (s : st) : outcome st :=
  let s := if pos s <? zlen (buf s) then s else realloc_out_buffer s in
  do b' <- update_chk (buf s) (pos s) (andb_ b 255);
  Ret (set_pos (set_buf s b') (pos s + 1)).
(** Buffcode.sml 35-37 *)
Definition out_short (x : Z) (s : st) : outcome st :=
  do s <- out x s; out (rshiftuns_ x 8) s.
(** Buffcode.sml 39-45 *)
Definition out_long (l : Z) (s : st) : outcome st :=
  do s <- out l s;
  do s <- out (rshiftuns_ l 8) s;
  do s <- out (rshiftuns_ l 16) s;
  out (rshiftsig_ l 24) s.

(** *** Labels.sml *)
(** Instruct.sml 50 *)
Definition Nolabel : Z := -1.
(** Labels.sml 19-26 *)
Definition extend_label_table (needed : Z) (s : st) : outcome st :=
  let old := zlen (tbl s) in
  if old =? 0 then Raise Div
  else
    let new_len := (needed / old + 1) * old in
    if new_len <? old then Raise Subscript
    else Ret (set_tbl s (tbl s ++ repeat (Label_undefined []) (Z.to_nat (new_len - old)))).

(** Labels.sml 41-43 *)
Fixpoint backpatch (currpos : Z) (L : list (Z * Z)) (s : st) : outcome st :=
  match L with
  | [] => Ret s
  | (p, orig) :: L =>
      do s <- out_long (currpos - orig) (set_pos s p);
      backpatch currpos L s
  end.

(** Labels.sml 28-47; fatalError raises *)
Definition define_label (lbl : Z) (s : st) : outcome st :=
  do s <- (if lbl <? zlen (tbl s) then Ret s else extend_label_table lbl s);
  do d <- sub_chk (tbl s) lbl;
  match d with
  | Label_defined _ => Raise FailExn
  | Label_undefined L =>
      let currpos := pos s in
      do t <- update_chk (tbl s) lbl (Label_defined currpos);
      let s := set_tbl s t in
      match L with
      | [] => Ret s
      | _ => do s <- backpatch currpos L s; Ret (set_pos s currpos)
      end
  end.

(** Labels.sml 49-63 *)
Definition out_label_with_orig (orig lbl : Z) (s : st) : outcome st :=
  do s <- (if lbl =? Nolabel then Raise FailExn
           else if zlen (tbl s) <=? lbl then extend_label_table lbl s
           else Ret s);
  do d <- sub_chk (tbl s) lbl;
  match d with
  | Label_defined def => out_long (def - orig) s
  | Label_undefined L =>
      do t <- update_chk (tbl s) lbl (Label_undefined ((pos s, orig) :: L));
      out_long 0 (set_tbl s t)
  end.

(** Labels.sml 65 *)
Definition out_label (l : Z) (s : st) : outcome st := out_label_with_orig (pos s) l s.

(** *** Reloc.sml 16-39 *)
Definition enter (r : reloc) (s : st) : st := set_rel s ((r, pos s) :: rel s).
Definition slot_for_literal (sc : Z) (s : st) : outcome st := out_long 0 (enter (Reloc_literal sc) s).
Definition slot_for_get_global (uid : Z) (s : st) : outcome st := out_long 0 (enter (Reloc_getglobal uid) s).
Definition slot_for_set_global (uid : Z) (s : st) : outcome st := out_long 0 (enter (Reloc_setglobal uid) s).
Definition slot_for_c_prim (name : Z) (s : st) : outcome st := out_short 0 (enter (Reloc_primitive name) s).

(** *** Instructions: Const.sml, Prim.sml, Instruct.sml.  Reals, strings, other structured constants,
    global and primitive names are numbers that only serve to tell them apart. *)
Inductive constant := INTscon (i : Z) | WORDscon (w : Z) | CHARscon (c : Z) | EMPTYsc (t : Z) | OTHERsc (sc : Z).
Inductive prim_test := PTeq | PTnoteq | PTnoteqimm (i : Z) | PTlt | PTle | PTgt | PTge.
Inductive bool_test := Peq_test | Pnoteq_test | Pint_test (t : prim_test) | Pfloat_test (t : prim_test)
  | Pstring_test (t : prim_test) | Pword_test (t : prim_test) | Pnoteqtag_test (tag : Z).
(** Psimple op: the primitives that Prim_opc.sml maps to one opcode *)
Inductive primitive := Pidentity | Pdummy (n : Z) | Ptest (t : bool_test) | Pccall (name arity : Z) | Patom (t : Z) | Psimple (opcode : Z) | Pbad.
Inductive instr :=
| Kquote (c : constant) | Kget_global (uid : Z) | Kset_global (uid : Z) | Kaccess (n : Z) | Kenvacc (n : Z) | Kassign (n : Z)
| Kgetfield (n : Z) | Ksetfield (n : Z) | Kpush | Kpop (n : Z) | Krestart | Kgrab (n : Z) | Kapply (n : Z) | Kappterm (n z : Z)
| Kpush_retaddr (lbl : Z) | Kcheck_signals | Kreturn (n : Z) | Kclosure (lbl sz : Z) | Kclosurerec (lbl sz : Z) | Kraise
| Kmakeblock (tag n : Z) | Kprim (p : primitive) | Kpushtrap (lbl : Z) | Kpoptrap | Klabel (lbl : Z) | Kbranch (lbl : Z)
| Kbranchif (lbl : Z) | Kbranchifnot (lbl : Z) | Kstrictbranchif (lbl : Z) | Kstrictbranchifnot (lbl : Z)
| Ktest (t : bool_test) (lbl : Z) | Kbranchinterval (low high lbl_low lbl_high : Z) | Kswitch (lbls : list Z).

(** *** Emitcode.sml.  An emitting function is a list of calls of the functions above. *)
Inductive call :=
| Out (b : Z) | Short (x : Z) | Long (l : Z) | Label (lbl : Z) | Table (lbls : list Z) | Def (lbl : Z)
| Lit (sc : Z) | Get (uid : Z) | Set_ (uid : Z) | CPrim (name : Z) | Fail.

(** lines 22-36; maxint_byte is 255 (Config.mlp 9) *)
Definition checkByte (n : Z) : list call := if 255 <? n then [Fail] else [].
Definition checkShort (n : Z) : list call := if 65535 <? n then [Fail] else [].

(** lines 38-46 *)
Definition out_bool_test (tst : Z) (t : prim_test) : list call :=
  match t with
  | PTeq => [Out tst] | PTnoteq => [Out (tst + 1)] | PTlt => [Out (tst + 2)] | PTgt => [Out (tst + 3)]
  | PTle => [Out (tst + 4)] | PTge => [Out (tst + 5)] | PTnoteqimm _ => [Fail]
  end.

(** lines 48-65; literals of 64-bit constants are numbered by their values here *)
Definition out_int_const (i : Z) : list call :=
  if (-32768 <=? i) && (i <=? 32767) then
    if (0 <=? i) && (i <=? 3) then [Out (CONST0 + i)]
    else
      let ii1 := i + i + 1 in
      if (0 <=? ii1) && (ii1 <=? 255) then [Out CONSTBYTE; Out ii1]
      else if (-32768 <=? ii1) && (ii1 <=? 32767) then [Out CONSTSHORT; Short ii1]
      else [Out CONSTINT; Long i]
  else if (-1073741824 <=? i) && (i <=? 1073741823) then [Out CONSTINT; Long i]
  else [Out GETGLOBAL; Lit i].

(** lines 70-87 *)
Definition out_push_int_const (i : Z) : list call :=
  if (-32768 <=? i) && (i <=? 32767) then
    if (0 <=? i) && (i <=? 3) then [Out (PUSHCONST0 + i)]
    else
      let ii1 := i + i + 1 in
      if (0 <=? ii1) && (ii1 <=? 255) then [Out PUSH; Out CONSTBYTE; Out ii1]
      else if (-32768 <=? ii1) && (ii1 <=? 32767) then [Out PUSH; Out CONSTSHORT; Short ii1]
      else [Out PUSHCONSTINT; Long i]
  else if (-1073741824 <=? i) && (i <=? 1073741823) then [Out PUSHCONSTINT; Long i]
  else [Out PUSH_GETGLOBAL; Lit i].

(** lines 95-101 *)
Definition out_header (n tag : Z) : list call :=
  [Out tag; Out (n * 4); Out (rshiftuns_ n 6); Out (rshiftuns_ n 14)].

(** lines 103-247 *)
Definition emit_zam (zam : instr) : list call :=
  match zam with
  | Kquote (INTscon i) => out_int_const i
  | Kquote (WORDscon w) => out_int_const w
  | Kquote (CHARscon c) => out_int_const c
  | Kquote (EMPTYsc t) => if t <? 10 then [Out (ATOM0 + t)] else [Out ATOM; Out t]
  | Kquote (OTHERsc sc) => [Out GETGLOBAL; Lit sc]
  | Kget_global uid => [Out GETGLOBAL; Get uid]
  | Kset_global uid => [Out SETGLOBAL; Set_ uid]
  | Kgetfield n => checkShort n ++ if n <? 4 then [Out (GETFIELD0 + n)] else [Out GETFIELD; Short n]
  | Ksetfield n => checkShort n ++ if n <? 4 then [Out (SETFIELD0 + n)] else [Out SETFIELD; Short n]
  | Kaccess n => checkShort n ++ if n <? 8 then [Out (ACC0 + n)] else [Out ACCESS; Short n]
  | Kenvacc m => let n := m + 1 in checkShort n ++ if n <? 8 then [Out (ENV1 + m)] else [Out ENVACC; Short n]
  | Kassign n => checkShort n ++ [Out ASSIGN; Short n]
  | Kapply n => checkByte n ++ if n <? 5 then [Out (APPLY1 + n - 1)] else [Out APPLY; Out n]
  | Kappterm n z => checkByte n ++ (if n <? 5 then [Out (APPTERM1 + n - 1)] else [Out APPTERM; Out n]) ++ checkShort z ++ [Short z]
  | Kpop n => checkShort n ++ [Out POP; Short n]
  | Kgrab n => checkByte n ++ [Out GRAB; Out n]
  | Kreturn n => checkShort n ++ if n <? 3 then [Out (RETURN1 + n - 1)] else [Out RETURN; Short n]
  | Kmakeblock tag n =>
      if n <=? 0 then [Fail]
      else if n <? 5 then [Out (MAKEBLOCK1 + n - 1); Out tag]
      else Out MAKEBLOCK :: out_header n tag
  | Klabel lbl => if lbl =? Nolabel then [Fail] else [Def lbl]
  | Kclosure lbl sz => [Out CLOSURE; Out sz; Label lbl]
  | Kclosurerec lbl sz => [Out CLOSREC; Out (sz - 1); Label lbl]
  | Kpushtrap lbl => [Out PUSHTRAP; Label lbl]
  | Kpush_retaddr lbl => [Out PUSH_RETADDR; Label lbl]
  | Kbranch lbl => [Out BRANCH; Label lbl]
  | Kbranchif lbl => [Out BRANCHIF; Label lbl]
  | Kbranchifnot lbl => [Out BRANCHIFNOT; Label lbl]
  | Kstrictbranchif lbl => [Out BRANCHIF; Label lbl]
  | Kstrictbranchifnot lbl => [Out BRANCHIFNOT; Label lbl]
  | Kswitch lbls => [Out SWITCH; Out (zlen lbls)] ++ checkByte (zlen lbls) ++ [Table lbls]
  | Ktest tst lbl =>
      match tst with
      | Peq_test => [Out BRANCHIFEQ; Label lbl]
      | Pnoteq_test => [Out BRANCHIFNEQ; Label lbl]
      | Pint_test (PTnoteqimm i) => [Out PUSH] ++ out_push_int_const i ++ [Out EQ; Out POPBRANCHIFNOT; Label lbl]
      | Pint_test x => out_bool_test BRANCHIFEQ x ++ [Label lbl]
      | Pfloat_test (PTnoteqimm f) => [Out PUSH; Out PUSH_GETGLOBAL; Lit f; Out EQFLOAT; Out POPBRANCHIFNOT; Label lbl]
      | Pfloat_test x => out_bool_test EQFLOAT x ++ [Out BRANCHIF; Label lbl]
      | Pstring_test (PTnoteqimm x) => [Out PUSH; Out PUSH_GETGLOBAL; Lit x; Out EQSTRING; Out POPBRANCHIFNOT; Label lbl]
      | Pstring_test x => out_bool_test EQSTRING x ++ [Out BRANCHIF; Label lbl]
      | Pword_test (PTnoteqimm w) => [Out PUSH] ++ out_push_int_const w ++ [Out EQUNSIGN; Out POPBRANCHIFNOT; Label lbl]
      | Pword_test x => out_bool_test EQUNSIGN x ++ [Out BRANCHIF; Label lbl]
      | Pnoteqtag_test tag => [Out BRANCHIFNEQTAG; Out tag; Label lbl]
      end
  | Kbranchinterval low high lbl_low lbl_high =>
      out_push_int_const low ++ (if negb (low =? high) then out_push_int_const high else [Out PUSH]) ++
      [Out BRANCHINTERVAL; Label lbl_low; Label lbl_high]
  | Kprim p =>
      match p with
      | Pdummy n => checkShort n ++ [Out DUMMY; Short n]
      | Ptest Peq_test => [Out EQ]
      | Ptest Pnoteq_test => [Out NEQ]
      | Ptest (Pint_test t) => out_bool_test EQ t
      | Ptest (Pfloat_test t) => out_bool_test EQFLOAT t
      | Ptest (Pstring_test t) => out_bool_test EQSTRING t
      | Ptest (Pword_test t) => out_bool_test EQUNSIGN t
      | Ptest (Pnoteqtag_test _) => [Fail]
      | Patom t => if t <? 10 then [Out (ATOM0 + t)] else [Out ATOM; Out t]
      | Pccall name arity => (if arity <=? 5 then [Out (C_CALL1 + arity - 1)] else [Out C_CALLN; Out arity]) ++ [CPrim name]
      | Pidentity => []
      | Psimple op => [Out op]
      | Pbad => [Fail]
      end
  | Kpush => [Out PUSH]
  | Kraise => [Out RAISE]
  | Krestart => [Out RESTART]
  | Kpoptrap => [Out POPTRAP]
  | Kcheck_signals => [Out CHECK_SIGNALS]
  end.

(** lines 249-325 *)
Fixpoint emit (zams : list instr) : list call :=
  match zams with
  | [] => []
  | Kpush :: ((Kquote (INTscon i) :: C)) => out_push_int_const i ++ emit C
  | Kpush :: ((Kquote (WORDscon i) :: C)) => out_push_int_const i ++ emit C
  | Kpush :: ((Kquote (CHARscon i) :: C)) => out_push_int_const i ++ emit C
  | Kpush :: ((Kquote (EMPTYsc t) :: C)) => (if t =? 0 then [Out PUSHATOM0] else [Out PUSHATOM; Out t]) ++ emit C
  | Kpush :: ((Kquote (OTHERsc sc) :: C)) => [Out PUSH_GETGLOBAL; Lit sc] ++ emit C
  | Kpush :: ((Kaccess n :: C)) => checkShort n ++ (if n <? 8 then [Out (PUSHACC0 + n)] else [Out PUSHACC; Short n]) ++ emit C
  | Kpush :: ((Kenvacc 0 :: ((Kapply n :: C)))) =>
      checkByte n ++ (if n <? 5 then [Out (PUSH_ENV1_APPLY1 + n - 1)] else [Out PUSHENV1; Out APPLY; Out n]) ++ emit C
  | Kpush :: ((Kenvacc 0 :: ((Kappterm n z :: C)))) =>
      (if n <? 5 then [Out (PUSH_ENV1_APPTERM1 + n - 1)] else checkByte n ++ [Out PUSHENV1; Out APPTERM; Out n]) ++
      checkShort z ++ [Short z] ++ emit C
  | Kpush :: ((Kenvacc m :: C)) =>
      let n := m + 1 in checkShort n ++ (if n <? 8 then [Out (PUSHENV1 + m)] else [Out PUSHENVACC; Short n]) ++ emit C
  | Kpush :: ((Kget_global uid :: ((Kapply n :: C)))) =>
      (if n <? 5 then [Out (PUSH_GETGLOBAL_APPLY1 + n - 1); Get uid]
       else checkByte n ++ [Out PUSH_GETGLOBAL; Get uid; Out APPLY; Out n]) ++ emit C
  | Kpush :: ((Kget_global uid :: ((Kappterm n z :: C)))) =>
      (if n <? 5 then [Out (PUSH_GETGLOBAL_APPTERM1 + n - 1)] ++ checkShort z ++ [Short z; Get uid]
       else checkByte n ++ [Out PUSH_GETGLOBAL; Get uid; Out APPTERM; Out n] ++ checkShort z ++ [Short z]) ++ emit C
  | Kpush :: ((Kget_global uid :: C)) => [Out PUSH_GETGLOBAL; Get uid] ++ emit C
  | Kgetfield 0 :: ((Kgetfield 0 :: C)) => [Out GETFIELD0_0] ++ emit C
  | Kgetfield 0 :: ((Kgetfield 1 :: C)) => [Out GETFIELD0_1] ++ emit C
  | Kgetfield 1 :: ((Kgetfield 0 :: C)) => [Out GETFIELD1_0] ++ emit C
  | Kgetfield 1 :: ((Kgetfield 1 :: C)) => [Out GETFIELD1_1] ++ emit C
  | zam :: C => emit_zam zam ++ emit C
  end.

(** executing the calls; [Table] is the loop of lines 170-174 *)
Fixpoint out_table (orig : Z) (lbls : list Z) (s : st) : outcome st :=
  match lbls with
  | [] => Ret s
  | l :: lbls => do s <- out_label_with_orig orig l s; out_table orig lbls s
  end.
Definition do_call (c : call) (s : st) : outcome st :=
  match c with
  | Out b => out b s | Short x => out_short x s | Long l => out_long l s
  | Label l => out_label l s | Table ls => out_table (pos s) ls s | Def l => define_label l s
  | Lit sc => slot_for_literal sc s | Get u => slot_for_get_global u s | Set_ u => slot_for_set_global u s
  | CPrim n => slot_for_c_prim n s
  | Fail => Raise FailExn
  end.
Fixpoint do_calls (cs : list call) (s : st) : outcome st :=
  match cs with
  | [] => Ret s
  | c :: cs => do s <- do_call c s; do_calls cs s
  end.

(** Emit_phr.sml 19-30: the buffer is what the previous phrase left *)
Definition emit_phrase (buffer : list Z) (funcs inits : list instr) : outcome st :=
  let s := {| buf := buffer; pos := 0; tbl := repeat (Label_undefined []) 16; rel := [] |} in
  match funcs with
  | [] => do_calls (emit inits) s
  | _ =>
      do s <- do_calls (emit inits) s;
      do s <- do_calls (emit [Kbranch 0]) s;
      do s <- do_calls (emit funcs) s;
      do_calls (emit [Klabel 0]) s
  end.
