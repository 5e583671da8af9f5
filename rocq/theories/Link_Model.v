(** Model of linking: compiler/Link.sml, Symtable.sml, Patch.sml.

    Names of units, identifiers, signature stamps, names of primitives and
    constants are numbers.  Units are found by their names (no search path, no
    suffixes).  Hash tables are association lists, latest first.  Exception
    Toplevel, raised after a message, is NotFound here.  The code of a phrase is
    kept in its record instead of its position in the file.  The parts of the
    executable before and after code and data (header, trailer, symbols) are
    left out. *)
From Verif Require Import Base ArrayLib Mem.

(** a global name: unit, identifier, stamp (Code_dec.sml 8: QualifiedIdent * int) *)
Definition uid : Type := Z * Z * Z.
Definition uid_eqb (a b : uid) : bool :=
  let '(a1, a2, a3) := a in let '(b1, b2, b3) := b in (a1 =? b1) && (a2 =? b2) && (a3 =? b3).

(** Code_dec.sml 7-12 *)
Inductive reloc := Reloc_getglobal (g : uid) | Reloc_literal (sc : Z) | Reloc_primitive (name : Z) | Reloc_setglobal (g : uid).
(** Code_dec.sml 14-21 *)
Record phrase := mkPhr { code : list Z; lits : list (Z * list Z); others : list (reloc * Z); pure : bool }.
(** Code_dec.sml 23-30; the list of exceptions is not used.  phrase_index: the
    latest phrase first (Emit_phr.sml 32-37); mentions: in the order of
    Hasht.fold *)
Record tables := mkTab { phrase_index : list phrase; val_ren : list (Z * Z); sig_stamp : Z; mentions : list (Z * Z) }.

(** ** First pass: check the consistency of files *)
Section Check.
(** the compiled units that can be found *)
Variable files : list (Z * tables).
Variable autolink : bool.
Variable reserved : list Z.

Definition memZ (x : Z) (l : list Z) : bool := existsb (Z.eqb x) l.
Fixpoint findZ {A} (l : list (Z * A)) (x : Z) : option A :=
  match l with [] => None | (y, a) :: l => if y =? x then Some a else findZ l x end.

(** Link.sml 11-27 *)
Definition read_file (name : Z) : outcome tables :=
  match findZ files name with Some t => Ret t | None => Raise FailExn end.

(** watchDog and the units processed, latest first *)
Definition cstate : Type := list (Z * Z) * list (Z * tables).

(** Link.sml 31-90.  WrongStamp and NotYet are raised only for a unit that is
    mentioned, and needs turns them into Fail; so they are Fail here. *)
Fixpoint check_file (fuel : nat) (uname : Z) (stampOpt : option Z) (pending : list Z) (st : cstate) : outcome cstate :=
  match fuel with
  | O => Diverge
  | S fuel =>
      if memZ uname pending then Raise FailExn
      else if memZ uname reserved then Raise FailExn
      else
        match findZ (fst st) uname with
        | Some stamp' =>
            match stampOpt with
            | Some stamp => if stamp =? stamp' then Ret st else Raise FailExn
            | None => Ret st
            end
        | None =>
            do t <- (match stampOpt with
                     | None => read_file uname
                     | Some stamp =>
                         if autolink then
                           do t <- read_file uname;
                           if stamp =? sig_stamp t then Ret t else Raise FailExn
                         else Raise FailExn
                     end);
            do st <- (fix needs (l : list (Z * Z)) (st : cstate) : outcome cstate :=
                        match l with
                        | [] => Ret st
                        | (sub, stamp) :: l => do st <- check_file fuel sub (Some stamp) (uname :: pending) st; needs l st
                        end) (mentions t) st;
            Ret ((uname, sig_stamp t) :: fst st, (uname, t) :: snd st)
        end
  end.
(** Link.sml 225: foldL check_file [] unit_list *)
Fixpoint check_files (fuel : nat) (units : list Z) (st : cstate) : outcome cstate :=
  match units with
  | [] => Ret st
  | u :: units => do st <- check_file fuel u None [] st; check_files fuel units st
  end.
End Check.

(** ** Second pass: determine which phrases are required (Link.sml 95-157) *)
(** missing_globals *)
Definition is_in_missing (m : list uid) (g : uid) : bool := existsb (uid_eqb g) m.
Definition remove_from_missing (g : uid) (m : list uid) : list uid := filter (fun h => negb (uid_eqb g h)) m.
Definition add_to_missing (g : uid) (m : list uid) : list uid := g :: m.

Definition is_required (m : list uid) (r : reloc * Z) : bool :=
  match fst r with Reloc_setglobal g => is_in_missing m g | _ => false end.
Definition remove_required (m : list uid) (r : reloc * Z) : list uid :=
  match fst r with Reloc_setglobal g => remove_from_missing g m | _ => m end.
Definition add_required (m : list uid) (r : reloc * Z) : list uid :=
  match fst r with Reloc_getglobal g => add_to_missing g m | _ => m end.

Definition scan_val (uname : Z) (v : Z * Z) (s : list uid * list (Z * Z)) : list uid * list (Z * Z) :=
  let '(id, stamp) := v in
  let '(m, tolink) := s in
  if is_in_missing m (uname, id, 0) then
    (add_to_missing (uname, id, stamp) (remove_from_missing (uname, id, 0) m), (id, stamp) :: tolink)
  else s.
Definition scan_phrase (phr : phrase) (s : list uid * list phrase) : list uid * list phrase :=
  let '(m, tolink) := s in
  if negb (pure phr) || existsb (is_required m) (others phr) then
    (fold_left add_required (others phr) (fold_left remove_required (others phr) m), phr :: tolink)
  else s.
(** what link_object gets: unit, required phrases, exported values *)
Record object := mkObj { o_unit : Z; o_required : list phrase; o_exported : list (Z * Z) }.
Definition scan_file (u : Z * tables) (s : list uid * list object) : list uid * list object :=
  let '(uname, t) := u in
  let '(m, tolink) := s in
  let '(m, exportedV) := fold_left (fun s v => scan_val uname v s) (val_ren t) (m, []) in
  let '(m, required) := fold_left (fun s p => scan_phrase p s) (phrase_index t) (m, []) in
  (m, mkObj uname required exportedV :: tolink).
Definition scan_files (toscan : list (Z * tables)) : list uid * list object :=
  fold_left (fun s u => scan_file u s) toscan ([], []).

(** ** Third pass: link in the required phrases *)
(** Symtable.sml 38-43: global_table (count and table) and literal_table *)
Record ltab := mkL { cnt : Z; tbl : list (uid * Z); litt : list (Z * Z) }.
Fixpoint find_uid (l : list (uid * Z)) (g : uid) : option Z :=
  match l with [] => None | (h, s) :: l => if uid_eqb h g then Some s else find_uid l g end.

(** Symtable.sml 45-67 *)
Definition get_slot_for_variable (g : uid) (t : ltab) : outcome Z :=
  match find_uid (tbl t) g with Some s => Ret s | None => Raise NotFound end.
(** Symtable.sml 69-71, 24-29 *)
Definition get_slot_for_defined_variable (g : uid) (t : ltab) : Z * ltab :=
  (cnt t, mkL (cnt t + 1) ((g, cnt t) :: tbl t) (litt t)).
(** Symtable.sml 73-78 *)
Definition get_slot_for_literal (sc : Z) (t : ltab) : Z * ltab :=
  (cnt t, mkL (cnt t + 1) (tbl t) ((cnt t, sc) :: litt t)).
(** Symtable.sml 84-87 *)
Definition defineGlobalValueAlias (g g' : uid) (t : ltab) : outcome ltab :=
  do slot <- get_slot_for_variable g' t; Ret (mkL (cnt t) ((g, slot) :: tbl t) (litt t)).

(** Symtable.sml 151-154: the names of the primitives, numbered from 0 *)
Definition set_c_primitives (prims : list Z) : list (Z * Z) :=
  snd (fold_left (fun s p => let '(i, l) := s in (i + 1, (p, i) :: l)) prims (0, [])).
(** Symtable.sml 156-163 *)
Definition get_num_of_prim (tab : list (Z * Z)) (name : Z) : outcome Z :=
  match findZ tab name with Some i => Ret i | None => Raise NotFound end.

(** Patch.sml 11-17; Char.chr raises Chr *)
Definition patch_short (buff : list Z) (pos v : Z) : outcome (list Z) :=
  if 255 <? Z.shiftr v 8 then Raise Chr else putn buff pos [Z.land v 255; Z.shiftr v 8].
(** Patch.sml 19-27 *)
Definition patch_long (buff : list Z) (pos v : Z) : outcome (list Z) :=
  putn buff pos [Z.land 255 v; Z.land 255 (Z.shiftr v 8); Z.land 255 (Z.shiftr v 16); Z.land 255 (Z.shiftr v 24)].

Section Patch.
Variable prims : list (Z * Z).
(** Patch.sml 34-37, relliteral *)
Fixpoint patch_all (poss : list Z) (slot : Z) (buff : list Z) : outcome (list Z) :=
  match poss with [] => Ret buff | pos :: poss => do buff <- patch_long buff pos slot; patch_all poss slot buff end.
Fixpoint relliterals (l : list (Z * list Z)) (buff : list Z) (t : ltab) : outcome (list Z * ltab) :=
  match l with
  | [] => Ret (buff, t)
  | (lit, poss) :: l =>
      let '(slot, t) := get_slot_for_literal lit t in
      do buff <- patch_all poss slot buff;
      relliterals l buff t
  end.
(** Patch.sml 38-45, relother *)
Definition relother (r : reloc) (pos : Z) (buff : list Z) (t : ltab) : outcome (list Z * ltab) :=
  match r with
  | Reloc_literal sc => let '(slot, t) := get_slot_for_literal sc t in do buff <- patch_long buff pos slot; Ret (buff, t)
  | Reloc_getglobal g => do slot <- get_slot_for_variable g t; do buff <- patch_long buff pos slot; Ret (buff, t)
  | Reloc_setglobal g => let '(slot, t) := get_slot_for_defined_variable g t in do buff <- patch_long buff pos slot; Ret (buff, t)
  | Reloc_primitive name => do n <- get_num_of_prim prims name; do buff <- patch_short buff pos n; Ret (buff, t)
  end.
Fixpoint relothers (l : list (reloc * Z)) (buff : list Z) (t : ltab) : outcome (list Z * ltab) :=
  match l with
  | [] => Ret (buff, t)
  | (r, pos) :: l => do (buff, t) <- relother r pos buff t; relothers l buff t
  end.
(** Patch.sml 33-49, offset 0 *)
Definition patch_object (phr : phrase) (t : ltab) : outcome (list Z * ltab) :=
  do (buff, t) <- relliterals (lits phr) (code phr) t;
  relothers (others phr) buff t.

(** Link.sml 161-184: the code of the phrases, then the exported names *)
Fixpoint link_phrases (l : list phrase) (t : ltab) : outcome (list (list Z) * ltab) :=
  match l with
  | [] => Ret ([], t)
  | p :: l => do (c, t) <- patch_object p t; do (cs, t) <- link_phrases l t; Ret (c :: cs, t)
  end.
(** Symtable.sml 165-172 *)
Fixpoint exportPublicNames (uname : Z) (l : list (Z * Z)) (t : ltab) : outcome ltab :=
  match l with
  | [] => Ret t
  | (id, stamp) :: l => do t <- defineGlobalValueAlias (uname, id, 0) (uname, id, stamp) t; exportPublicNames uname l t
  end.
Definition link_object (o : object) (t : ltab) : outcome (list (list Z) * ltab) :=
  do (cs, t) <- link_phrases (o_required o) t;
  do t <- exportPublicNames (o_unit o) (o_exported o) t;
  Ret (cs, t).
Fixpoint link_objects (l : list object) (t : ltab) : outcome (list (list (list Z)) * ltab) :=
  match l with
  | [] => Ret ([], t)
  | o :: l => do (cs, t) <- link_object o t; do (css, t) <- link_objects l t; Ret (cs :: css, t)
  end.
End Patch.

(** Symtable.sml 196-213, reset_linker_tables; called by Mainl before linking *)
Definition reset_linker_tables (predef : list (Z * Z)) : ltab :=
  fold_left (fun t q => snd (get_slot_for_defined_variable (fst q, snd q, 0) t)) predef (mkL 0 [] []).

(** Link.sml 194-202: the table of globals; a constant is [Some], the initial
    value of other globals [None] (the integer 0) *)
Fixpoint fill_data (l : list (Z * Z)) (globals : list (option Z)) : outcome (list (option Z)) :=
  match l with
  | [] => Ret globals
  | (n, sc) :: l => do globals <- update_raw globals n (Some sc); fill_data l globals
  end.
Definition emit_data (t : ltab) : outcome (list (option Z)) :=
  fill_data (litt t) (repeat None (Z.to_nat (cnt t))).

(** Link.sml 221-271: the code of the phrases, by unit, and the table of
    globals; the executable has the pieces of code one after the other *)
Definition link (fuel : nat) (files : list (Z * tables)) (autolink : bool) (reserved : list Z) (predef : list (Z * Z)) (prims : list Z)
  (unit_list : list Z) : outcome (list (list (list Z)) * list (option Z)) :=
  do st <- check_files files autolink reserved fuel unit_list ([], []);
  let '(_, tolink) := scan_files (snd st) in
  do (css, t) <- link_objects (set_c_primitives prims) tolink (reset_linker_tables predef);
  do data <- emit_data t;
  Ret (css, data).
