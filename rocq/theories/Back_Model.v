(** Model of src/compiler/Back.sml: the translation of lambda terms to instructions.
    References and arrays of the compiler are the fields of the state [bst], threaded in the order in
    which SML evaluates; fatalError is [Raise ImpossibleExn]. *)
From Verif Require Import Base Opcodes Lex_Model.
From Verif Require Export Zam_Model.

(** ** Lambda terms *)
(** Const.sml 22-27; reals and strings stand for themselves by a number *)
Inductive scon := SInt (i : Z) | SWord (w : Z) | SChar (c : Z) | SReal (k : Z) | SString (k : Z).
(** Prim.sml; the primitives that are treated alike are [Pp] *)
Inductive lprim :=
| Pget_global (uid : Z) | Pset_global (uid : Z) | Pmakeblock (tag span : Z) | Pfield (i : Z) | Psetfield (i : Z)
| Praise | Pclosure (lbl sz : Z) | Pp (q : primitive).
Definition Pnot := Psimple BOOLNOT.
Definition Pupdate := Psimple UPDATE.
Definition Ptag_of := Psimple TAGOF.

(** Lambda.sml 9-30.  A node Lshared (exp_ref, lbl_ref) is given by its number; the contents of the two
    references are in the state.  A block tag CONtag (t, span) in a switch is given by t. *)
Inductive lam :=
| Lvar (n : Z) | Lconst (c : constant) | Lapply (f : lam) (args : list lam) | Lfn (b : lam)
| Llet (args : list lam) (b : lam) | Lletrec (args : list lam) (b : lam) | Lprim (p : lprim) (es : list lam)
| Lcase (e : lam) (cl : list (scon * lam)) | Lswitch (size : Z) (e : lam) (cl : list (Z * lam))
| Lstaticfail | Lstatichandle (b h : lam) | Lhandle (b h : lam) | Lif (c t e : lam) | Lseq (a b : lam)
| Lwhile (c b : lam) | Landalso (a b : lam) | Lorelse (a b : lam) | Lunspec | Lshared (k : nat) | Lassign (n : Z) (e : lam).

(** Const.sml 40-41 *)
Definition constUnit := EMPTYsc 0.
(** Instruct.sml 56 *)
Definition Nolabel : Z := -1.

(** a use of an Lshared node: the node, how many functions were still to be compiled, the label and the stack
    size for failures, the stack size, the stack slots of the variables, and the code to follow *)
Record visit := mkV { v_k : nat; v_u : nat; v_sf : Z * Z; v_sz : Z; v_vs : list Z; v_C : list instr }.
Record bst := mkB {
  lc : Z;                                    (* labelCounter *)
  lnot : Z;                                  (* labelNotCtr *)
  sh : list (lam * Z);                       (* the contents of the references of the Lshared nodes *)
  still : list (Z * Z * list Z * Z * lam);   (* stillToCompile *)
  fvr : list Z; mdr : Z;                     (* fv and md of the current call of UNdeBruijn *)
  va : list Z;                               (* the array of the current env *)
  seen : list visit }.                       (* not in the code: how the Lshared nodes were met, which nothing depends on *)
Definition M A := bst -> outcome (A * bst).
Definition mret {A} (a : A) : M A := fun s => Ret (a, s).
Definition mbind {A B} (m : M A) (f : A -> M B) : M B := fun s => do (a, s') <- m s; f a s'.
Notation "'let*' x := m 'in' k" := (mbind m (fun x => k)) (at level 200, x pattern, m at level 100, k at level 200).
Definition fatal {A} : M A := fun _ => Raise ImpossibleExn.

Fixpoint mmapl {A B} (f : A -> M B) (l : list A) : M (list B) :=
  match l with [] => mret [] | x :: r => let* y := f x in let* ys := mmapl f r in mret (y :: ys) end.

(** Back.sml 9-12 *)
Definition isReturn (C : list instr) : bool :=
  match C with Kreturn _ :: _ => true | Klabel _ :: Kreturn _ :: _ => true | _ => false end.
(** Back.sml 22-24 *)
Definition new_label : M Z := fun s => Ret (lc s + 1, mkB (lc s + 1) (lnot s) (sh s) (still s) (fvr s) (mdr s) (va s) (seen s)).
(** Back.sml 41-43 *)
Definition newLabelNot : M unit := fun s => Ret (tt, mkB (lc s) (lnot s - 1) (sh s) (still s) (fvr s) (mdr s) (va s) (seen s)).
(** Back.sml 47-55 *)
Definition labelCode (C : list instr) : M (Z * list instr) :=
  match C with
  | Kbranch lbl :: _ => mret (lbl, C)
  | Klabel lbl :: _ => mret (lbl, C)
  | _ => let* lbl := new_label in mret (lbl, Klabel lbl :: C)
  end.
(** Back.sml 60-70 *)
Definition makeBranch (C : list instr) : M (instr * list instr) :=
  match C with
  | Kreturn n :: _ => mret (Kreturn n, C)
  | Kbranch l :: _ => mret (Kbranch l, C)
  | Kraise :: _ => mret (Kraise, C)
  | Klabel _ :: Kreturn n :: _ => mret (Kreturn n, C)
  | Klabel lbl :: _ => mret (Kbranch lbl, C)
  | _ => let* lbl := new_label in mret (Kbranch lbl, Klabel lbl :: C)
  end.
(** Back.sml 74-81 *)
Fixpoint discardDeadCode (C : list instr) : list instr :=
  match C with
  | [] => []
  | Klabel _ :: _ => C
  | Krestart :: _ => C
  | Kset_global _ :: _ => C
  | _ :: rest => discardDeadCode rest
  end.

(** Back.sml 98-106: Array.sub raises Subscript outside the array, which is handled as fatalError *)
Fixpoint fv_index (n : Z) (i : Z) (fv : list Z) : option Z :=
  match fv with [] => None | x :: r => if x =? n then Some i else fv_index n (i + 1) r end.
Definition va_sub (n : Z) (va : list Z) : option Z := if n <? 0 then None else nth_error va (Z.to_nat n).
Definition findEnv (fv : list Z) (sz n : Z) : M instr := fun s =>
  if n <? 0 then match fv_index n 0 fv with Some i => Ret (Kenvacc i, s) | None => Raise ImpossibleExn end
  else match va_sub n (va s) with
       | Some i => if i <? 0 then Raise ImpossibleExn else Ret (Kaccess (sz - i), s)
       | None => Raise ImpossibleExn end.
(** Back.sml 107-113 *)
Definition findStk (sz n : Z) : M instr := fun s =>
  match va_sub n (va s) with
  | Some i => if i <? 0 then Raise ImpossibleExn else Ret (Kassign (sz - i), s)
  | None => Raise ImpossibleExn end.
(** Back.sml 117-124 *)
Definition bindEnv (n z : Z) : M Z := fun s =>
  if (0 <=? n) && (n <? Z.of_nat (length (va s))) then
    Ret (n + 1, mkB (lc s) (lnot s) (sh s) (still s) (fvr s) (mdr s) (set_nth (va s) (Z.to_nat n) z) (seen s))
  else Raise ImpossibleExn.

(** Back.sml 128-137 *)
Fixpoint addPop_ (n : Z) (C : list instr) {struct C} : list instr :=
  if n =? 0 then C
  else match C with
       | Kpop m :: C1 => addPop_ (n + m) C1
       | Kreturn m :: C1 => Kreturn (n + m) :: C1
       | Klabel _ :: Kreturn m :: _ => Kreturn (n + m) :: C
       | Kraise :: _ => C
       | _ => Kpop n :: C
       end.
Definition addPop := addPop_.

(** Back.sml 143-158 *)
Definition add_SwitchTable (t : list Z) (C : list instr) : M (list instr) :=
  match t with
  | [] => fun _ => Raise Subscript
  | l0 :: r =>
      if forallb (fun l => l =? l0) r then
        match C with
        | Klabel lbl :: _ => if lbl =? l0 then mret C else mret (Kbranch l0 :: discardDeadCode C)
        | _ => mret (Kbranch l0 :: discardDeadCode C)
        end
      else mret (Kswitch t :: C)
  end.

(** ** N-way integer branches: Back.sml 160-225 *)
Inductive dtree := DTfail | DTinterval (l : dtree) (low : Z) (act : list lam) (high : Z) (r : dtree).

(** subtraction of integers of 63 bits *)
Definition isub (a b : Z) : outcome Z := if in_intb (a - b) then Ret (a - b) else Raise Overflow.
Definition key (l : list (Z * lam)) (i : nat) : outcome Z :=
  match nth_error l i with Some (k, _) => Ret k | None => Raise Subscript end.

(** extractAct, 186-194 *)
Fixpoint fill (l : list (Z * lam)) (low : Z) (i : nat) (n : nat) (a : list lam) : outcome (list lam) :=
  match n with
  | O => Ret a
  | S n => match nth_error l i with
           | Some (k, act) => do d <- isub k low;
                              if (0 <=? d) && (d <? Z.of_nat (length a)) then fill l low (S i) n (set_nth a (Z.to_nat d) act)
                              else Raise Subscript
           | None => Raise Subscript
           end
  end.
Definition extractAct (l : list (Z * lam)) (start stop : nat) : outcome (list lam) :=
  do hi <- key l stop; do lo <- key l start; do d <- isub hi lo;
  fill l lo start (S (stop - start)) (repeat Lstaticfail (Z.to_nat (d + 1))).

(** the while loop of partition, 202-204 *)
Fixpoint find_stop (l : list (Z * lam)) (start : nat) (stop : nat) : outcome nat :=
  do a <- key l stop; do b <- key l start; do d <- isub a b;
  if (d >=? 255) || (d >? 4 * (Z.of_nat stop - Z.of_nat start)) then
    match stop with S stop => find_stop l start stop | O => Raise Subscript end
  else Ret stop.
(** partition, 199-213 *)
Fixpoint partition (fuel : nat) (l : list (Z * lam)) (start : nat) : outcome (list (Z * list lam * Z)) :=
  match fuel with
  | O => Diverge
  | S fuel =>
      if Nat.leb (length l) start then Ret []
      else
        do stop <- find_stop l start (length l - 1);
        do lo <- key l start; do act <- extractAct l start stop; do hi <- key l stop;
        do r <- partition fuel l (S stop);
        Ret ((lo, act, hi) :: r)
  end.
(** make_tree, 215-223; the tree over part[start], ..., part[start + n - 1] *)
Fixpoint make_tree (fuel : nat) (part : list (Z * list lam * Z)) : dtree :=
  match fuel with
  | O => DTfail
  | S fuel =>
      match part with
      | [] => DTfail
      | _ => let m := Nat.div2 (length part - 1) in
             match skipn m part with
             | (lo, act, hi) :: r => DTinterval (make_tree fuel (firstn m part)) lo act hi (make_tree fuel r)
             | [] => DTfail
             end
      end
  end.
Definition compileNBranch (clauses : list (Z * lam)) : outcome dtree :=
  do l <- sort (fun a b => fst a <=? fst b) clauses;
  do part <- partition (S (length l)) l 0;
  Ret (make_tree (S (length part)) part).

(** Back.sml 229-247 *)
Definition invertPrimTest (t : prim_test) : outcome prim_test :=
  match t with
  | PTeq => Ret PTnoteq | PTnoteq => Ret PTeq | PTnoteqimm _ => Raise ImpossibleExn | PTlt => Ret PTge
  | PTle => Ret PTgt | PTgt => Ret PTle | PTge => Ret PTlt
  end.
Definition invertBoolTest (t : bool_test) : outcome bool_test :=
  match t with
  | Peq_test => Ret Pnoteq_test | Pnoteq_test => Ret Peq_test
  | Pint_test t => do t <- invertPrimTest t; Ret (Pint_test t)
  | Pfloat_test t => do t <- invertPrimTest t; Ret (Pfloat_test t)
  | Pstring_test t => do t <- invertPrimTest t; Ret (Pstring_test t)
  | Pword_test t => do t <- invertPrimTest t; Ret (Pword_test t)
  | Pnoteqtag_test _ => Raise ImpossibleExn
  end.
(** Back.sml 251-257 *)
Definition testForAtom (c : scon) : bool_test :=
  match c with
  | SInt x => Pint_test (PTnoteqimm x) | SWord x => Pword_test (PTnoteqimm x) | SChar x => Pint_test (PTnoteqimm x)
  | SReal x => Pfloat_test (PTnoteqimm x) | SString x => Pstring_test (PTnoteqimm x)
  end.
(** Const.sml 44-47 *)
Definition intOfAtom (c : scon) : outcome Z :=
  match c with SInt i | SWord i | SChar i => Ret i | _ => Raise ImpossibleExn end.
Definition int_like (c : scon) : bool := match c with SInt _ | SWord _ | SChar _ => true | _ => false end.
Fixpoint int_clauses (cl : list (scon * lam)) : outcome (list (Z * lam)) :=
  match cl with
  | [] => Ret []
  | (c, e) :: r => do i <- intOfAtom c; do r <- int_clauses r; Ret ((i, e) :: r)
  end.

Definition lift {A} (o : outcome A) : M A := fun s => do a <- o; Ret (a, s).

(** ** Lifting functions to the top level: UNdeBruijn, Back.sml 277-440 *)
Fixpoint ins (x : Z) (l : list Z) : list Z :=
  match l with
  | [] => [x]
  | y :: r => if x >? y then x :: l else if x =? y then l else y :: ins x r
  end.
Definition extClo (id : Z) : M unit := fun s =>
  Ret (tt, if id >=? 0 then s else mkB (lc s) (lnot s) (sh s) (still s) (ins id (fvr s)) (mdr s) (va s) (seen s)).
Definition get_sh (k : nat) : M (lam * Z) := fun s =>
  match nth_error (sh s) k with Some x => Ret (x, s) | None => Raise Subscript end.
Definition set_sh_exp (k : nat) (e : lam) : M unit := fun s =>
  match nth_error (sh s) k with
  | Some (_, l) => Ret (tt, mkB (lc s) (lnot s) (set_nth (sh s) k (e, l)) (still s) (fvr s) (mdr s) (va s) (seen s))
  | None => Raise Subscript end.
Definition set_sh_lbl (k : nat) (l : Z) : M unit := fun s =>
  match nth_error (sh s) k with
  | Some (e, _) => Ret (tt, mkB (lc s) (lnot s) (set_nth (sh s) k (e, l)) (still s) (fvr s) (mdr s) (va s) (seen s))
  | None => Raise Subscript end.

(** the exception Refs'R'Us is [None]; the state is kept *)
Definition obind {A B} (m : M (option A)) (f : A -> M (option B)) : M (option B) :=
  mbind m (fun o => match o with Some a => f a | None => mret None end).
Notation "'let?' x := m 'in' k" := (obind m (fun x => k)) (at level 200, x pattern, m at level 100, k at level 200).
Definition some {A} (a : A) : M (option A) := mret (Some a).
Fixpoint omapl {A B} (f : A -> M (option B)) (l : list A) : M (option (list B)) :=
  match l with [] => some [] | x :: r => let? y := f x in let? ys := omapl f r in some (y :: ys) end.

(** unref, 293-348 *)
Fixpoint unref (fuel : nat) (i : Z) (e : lam) : M (option lam) :=
  match fuel with
  | O => fun _ => Diverge
  | S fuel =>
      let un := unref fuel i in
      let uncl {T} (cl : list (T * lam)) := omapl (fun '(t, a) => let? a := un a in some (t, a)) cl in
      match e with
      | Lvar n => if n =? i then mret None else some e
      | Lassign n e' => let? e' := un e' in some (Lassign n e')
      | Lconst _ => some e
      | Lapply b args => let? b := un b in let? args := omapl un args in some (Lapply b args)
      | Lfn _ => fatal
      | Llet args b => let? args := omapl un args in let? b := un b in some (Llet args b)
      | Lletrec args b => let? args := omapl un args in let? b := un b in some (Lletrec args b)
      | Lprim (Pfield 0) [Lvar v] => some (if v =? i then Lvar v else e)
      | Lprim (Psetfield 0) [Lvar v; e'] =>
          let? e' := un e' in some (if v =? i then Lassign i e' else Lprim (Psetfield 0) [Lvar v; e'])
      | Lprim p es => let? es := omapl un es in some (Lprim p es)
      | Lstatichandle b h => let? b := un b in let? h := un h in some (Lstatichandle b h)
      | Lstaticfail => some e
      | Lhandle b h => let? b := un b in let? h := un h in some (Lhandle b h)
      | Lif c t f => let? c := un c in let? t := un t in let? f := un f in some (Lif c t f)
      | Lseq a b => let? a := un a in let? b := un b in some (Lseq a b)
      | Lwhile a b => let? a := un a in let? b := un b in some (Lwhile a b)
      | Landalso a b => let? a := un a in let? b := un b in some (Landalso a b)
      | Lorelse a b => let? a := un a in let? b := un b in some (Lorelse a b)
      | Lcase a cl => let? a := un a in let? cl := uncl cl in some (Lcase a cl)
      | Lswitch n a cl => let? a := un a in let? cl := uncl cl in some (Lswitch n a cl)
      | Lunspec => some e
      | Lshared k =>
          let* (c, l) := get_sh k in
          fun s => if l =? lnot s then Ret (Some e, s)
                   else (let* _ := set_sh_lbl k (lnot s) in
                         let? c' := un c in
                         let* _ := set_sh_exp k c' in some e) s
      end
  end.

(** opt_refs, 368-384; the list is that of the lifted arguments, last one first *)
Fixpoint opt_refs (fuel : nat) (b : lam) (i : Z) (l : list lam) (acc : list lam) : M lam :=
  match l with
  | [] => mret (Llet acc b)
  | (Lprim (Pmakeblock t 1) [e] as exp) :: rest =>
      let* _ := newLabelNot in
      let* r := (let? acc' := omapl (unref fuel i) acc in let? b' := unref fuel i b in some (acc', b')) in
      match r with
      | Some (acc', b') => opt_refs fuel b' (i - 1) rest (e :: acc')
      | None => opt_refs fuel b (i - 1) rest (exp :: acc)
      end
  | exp :: rest => opt_refs fuel b (i - 1) rest (exp :: acc)
  end.

Definition set_md (depth : Z) : M unit := fun s =>
  Ret (tt, if depth >? mdr s then mkB (lc s) (lnot s) (sh s) (still s) (fvr s) depth (va s) (seen s) else s).
(** each call of UNdeBruijn has references fv and md of its own *)
Definition fresh_refs {A} (m : M A) : M A := fun s =>
  do (a, s') <- m (mkB (lc s) (lnot s) (sh s) (still s) [] 0 (va s) (seen s));
  Ret (a, mkB (lc s') (lnot s') (sh s') (still s') (fvr s) (mdr s) (va s') (seen s')).

(** liftbd, 417-428, given lftexp *)
Definition liftbd (lft : Z -> lam -> M lam) (depth : Z) (e : lam) : M (Z * lam) :=
  let* e' := lft depth e in
  let* lbl := new_label in
  fun s =>
    let fre := map (fun id => Lvar (-1 - id)) (fvr s) in
    let qfv := Z.of_nat (length fre) in
    Ret ((qfv, Lprim (Pclosure lbl qfv) fre),
         mkB (lc s) (lnot s) (sh s) ((lbl, depth, fvr s, mdr s, e') :: still s) (fvr s) (mdr s) (va s) (seen s)).
(** liftfn, 430-433 *)
Fixpoint liftfn (lft : Z -> lam -> M lam) (depth : Z) (e : lam) : M (Z * lam) :=
  match e with
  | Lfn b => liftfn lft (depth + 1) b
  | _ => liftbd lft depth e
  end.

(** lftexp, 350-415, and liftit, 435-438 *)
Fixpoint lftexp (fuel : nat) (depth : Z) (e : lam) : M lam :=
  match fuel with
  | O => fun _ => Diverge
  | S fuel =>
      let lft := lftexp fuel in
      let lftcl {T} (cl : list (T * lam)) := mmapl (fun '(t, a) => let* a := lft depth a in mret (t, a)) cl in
      let* _ := set_md depth in
      match e with
      | Lvar n => let id := depth - n - 1 in let* _ := extClo id in mret (Lvar id)
      | Lassign n e' => let id := depth - n - 1 in
                        let* _ := extClo id in let* e' := lft depth e' in mret (Lassign id e')
      | Lconst _ => mret e
      | Lapply b args => let* b := lft depth b in let* args := mmapl (lft depth) args in mret (Lapply b args)
      | Lfn b =>
          let* (qfv, e') := fresh_refs (liftfn lft 1 b) in
          if qfv >? 0 then lft depth e' else mret e'
      | Llet [arg] (Lprim p [Lvar 0]) => let* arg := lft depth arg in mret (Lprim p [arg])
      | Llet args b =>
          (fix lift_args (ea : Z) (l : list lam) (acc : list lam) : M lam :=
             match l with
             | [] => let* b' := lft ea b in opt_refs fuel b' (ea - 1) acc []
             | x :: r => let* x := lft ea x in lift_args (ea + 1) r (x :: acc)
             end) depth args []
      | Lletrec args b =>
          let ea := depth + Z.of_nat (length args) in
          let* args := mmapl (lft ea) args in let* b := lft ea b in mret (Lletrec args b)
      | Lprim p es => let* es := mmapl (lft depth) es in mret (Lprim p es)
      | Lstatichandle b h => let* b := lft depth b in let* h := lft depth h in mret (Lstatichandle b h)
      | Lstaticfail => mret e
      | Lhandle b h => let* b := lft depth b in let* h := lft (depth + 1) h in mret (Lhandle b h)
      | Lif c t f => let* c := lft depth c in let* t := lft depth t in let* f := lft depth f in mret (Lif c t f)
      | Lseq a b => let* a := lft depth a in let* b := lft depth b in mret (Lseq a b)
      | Lwhile a b => let* a := lft depth a in let* b := lft depth b in mret (Lwhile a b)
      | Landalso a b => let* a := lft depth a in let* b := lft depth b in mret (Landalso a b)
      | Lorelse a b => let* a := lft depth a in let* b := lft depth b in mret (Lorelse a b)
      | Lcase a cl => let* a := lft depth a in let* cl := lftcl cl in mret (Lcase a cl)
      | Lswitch n a cl => let* a := lft depth a in let* cl := lftcl cl in mret (Lswitch n a cl)
      | Lunspec => mret e
      | Lshared k =>
          let* (c, l) := get_sh k in
          fun s => if l =? Nolabel
                   then (let* _ := set_sh_lbl k (lnot s) in
                         let* c' := lft depth c in
                         let* _ := set_sh_exp k c' in mret e) s
                   else Ret (e, s)
      end
  end.
Definition UNdeBruijn (fuel : nat) (e : lam) : M (Z * lam) :=
  fresh_refs
    (match e with
     | Lfn b => liftfn (lftexp fuel) 1 b
     | _ => let* e' := lftexp fuel 0 e in fun s => Ret ((Z.of_nat (length (fvr s)), e'), s)
     end).

(** ** Generating code: compileExp, Back.sml 457-822 *)
Section Compile.
(** compexp, and the list of the free variables of the environment *)
Variable cx : Z * Z -> Z -> Z -> lam -> list instr -> M (list instr).
Variable fv : list Z.

(** compExpList', compExpList, 699-706: the last argument is computed first *)
Fixpoint compExpList' (sf : Z * Z) (sz dp : Z) (l : list lam) (C : list instr) : M (list instr) :=
  match l with
  | [] => mret C
  | [e] => cx sf sz dp e C
  | e :: rest => let* C1 := cx sf sz dp e C in compExpList' sf (sz - 1) dp rest (Kpush :: C1)
  end.
Definition compExpList sf sz dp l C := compExpList' sf (sz + Z.of_nat (length l) - 1) dp l C.
(** compExpListLR, 709-714 *)
Fixpoint compExpListLR (sf : Z * Z) (sz dp : Z) (l : list lam) (C : list instr) : M (list instr) :=
  match l with
  | [] => mret C
  | [e] => cx sf sz dp e C
  | e :: rest => let* C1 := compExpListLR sf (sz + 1) dp rest C in cx sf sz dp e (Kpush :: C1)
  end.

Definition is_fail (e : lam) : bool := match e with Lstaticfail => true | _ => false end.
(** compTest2, 716-743 *)
Definition compTest2 (sf : Z * Z) (sz dp : Z) (cond ifso ifnot : lam) (C : list instr) : M (list instr) :=
  let '(sflbl, sftsz) := sf in
  let* Cc :=
    if is_fail ifso && (sz =? sftsz) then let* C1 := cx sf sz dp ifnot C in mret (Kbranchif sflbl :: C1)
    else if is_fail ifnot && (sz =? sftsz) then let* C1 := cx sf sz dp ifso C in mret (Kbranchifnot sflbl :: C1)
    else
      let* (branch1, C1) := makeBranch C in
      let* Cn := cx sf sz dp ifnot C1 in
      let* (lbl2, C2) := labelCode Cn in
      let* Cs := cx sf sz dp ifso (branch1 :: discardDeadCode C2) in
      mret (Kbranchifnot lbl2 :: Cs) in
  cx sf sz dp cond Cc.

(** compTests, 745-758 *)
Fixpoint comp_tests (sf : Z * Z) (sz dp : Z) (branch1 : instr) (C1 : list instr) (cl : list (bool_test * lam)) : M (list instr) :=
  match cl with
  | [] => fatal
  | [(t, e)] => let* Ce := cx sf sz dp e C1 in mret (Ktest t (fst sf) :: Ce)
  | (t, e) :: rest =>
      let* lbl := new_label in
      let* Cr := comp_tests sf sz dp branch1 C1 rest in
      let* Ce := cx sf sz dp e (branch1 :: Klabel lbl :: Cr) in
      mret (Ktest t lbl :: Ce)
  end.
Definition compTests (sf : Z * Z) (sz dp : Z) (cl : list (bool_test * lam)) (C : list instr) : M (list instr) :=
  let* (branch1, C1) := makeBranch C in
  if negb (sz =? snd sf) then fatal else comp_tests sf sz dp branch1 C1 cl.

(** compSwitch, 760-773; gives the table and the code *)
Fixpoint comp_cases (sf : Z * Z) (sz dp : Z) (branch1 : instr) (C : list instr) (v : list lam) : M (list Z * list instr) :=
  match v with
  | [] => mret ([], C)
  | e :: v =>
      let* (t, C1) := comp_cases sf sz dp branch1 C v in
      let* Ce := cx sf sz dp e (branch1 :: discardDeadCode C1) in
      let* (lbl, C2) := labelCode Ce in
      mret (lbl :: t, C2)
  end.
Definition compSwitch sf sz dp (v : list lam) (branch1 : instr) (C : list instr) : M (list instr) :=
  let* (t, C1) := comp_cases sf sz dp branch1 C v in
  add_SwitchTable t (discardDeadCode C1).

(** compDecision, 775-798 *)
Fixpoint comp_dec (sf : Z * Z) (sz dp : Z) (branch1 : instr) (t : dtree) (C : list instr) : M (list instr) :=
  match t with
  | DTfail => mret (Kbranch (fst sf) :: discardDeadCode C)
  | DTinterval dl low act high dr =>
      let* (lbl_right, Cright) :=
        match dr with DTfail => mret (fst sf, C) | _ => let* Cr := comp_dec sf sz dp branch1 dr C in labelCode Cr end in
      let* (lbl_left, Cleft) :=
        match dl with DTfail => mret (fst sf, Cright) | _ => let* Cl := comp_dec sf sz dp branch1 dl Cright in labelCode Cl end in
      let* Ca := match act with
                 | [a] => cx sf sz dp a (branch1 :: discardDeadCode Cleft)
                 | _ => compSwitch sf sz dp act branch1 Cleft
                 end in
      mret (Kbranchinterval low high lbl_left lbl_right :: Ca)
  end.
Definition compDecision sf sz dp (t : dtree) (C : list instr) : M (list instr) :=
  let* (branch1, C1) := makeBranch C in
  if negb (sz =? snd sf) then fatal else comp_dec sf sz dp branch1 t C1.

(** compDirectSwitch, 800-822 *)
Definition upd_table (t : list Z) (i l : Z) : M (list Z) :=
  if (0 <=? i) && (i <? Z.of_nat (length t)) then mret (set_nth t (Z.to_nat i) l) else (fun _ => Raise Subscript).
Fixpoint comp_case (sf : Z * Z) (sz dp : Z) (branch1 : instr) (C1 : list instr) (t : list Z) (cl : list (Z * lam)) : M (list Z * list instr) :=
  match cl with
  | [] => fatal
  | [(tag, e)] =>
      let* Ce := cx sf sz dp e C1 in
      let* (lbl, C2) := labelCode Ce in
      let* t := upd_table t tag lbl in mret (t, C2)
  | (tag, e) :: rest =>
      let* (t, Cr) := comp_case sf sz dp branch1 C1 t rest in
      let* Ce := cx sf sz dp e (branch1 :: discardDeadCode Cr) in
      let* (lbl, C2) := labelCode Ce in
      let* t := upd_table t tag lbl in mret (t, C2)
  end.
Definition compDirectSwitch sf sz dp (size : Z) (cl : list (Z * lam)) (C : list instr) : M (list instr) :=
  let* (branch1, C1) := makeBranch C in
  if negb (sz =? snd sf) && negb (size =? Z.of_nat (length cl)) then fatal
  else
    let* (t, C2) := comp_case sf sz dp branch1 C1 (repeat (fst sf) (Z.to_nat size)) cl in
    add_SwitchTable t (discardDeadCode C2).

(** complet, 498-506 *)
Fixpoint complet (sf : Z * Z) (na sz dp : Z) (args : list lam) (b : lam) (C : list instr) : M (list instr) :=
  match args with
  | [] => cx sf sz dp b (addPop na C)
  | e :: rest =>
      let z := sz + 1 in
      let* dp' := bindEnv dp z in
      let* C1 := complet sf na z dp' rest b C in
      cx sf sz dp e (Kpush :: C1)
  end.
(** comparg and initarg, 522-540 *)
Fixpoint comparg (sf : Z * Z) (na sz dp i : Z) (args : list lam) (b : lam) (C : list instr) : M (list instr) :=
  match args with
  | [] => cx sf sz dp b (addPop na C)
  | (Lprim (Pclosure lbl csz) fre as e) :: r =>
      let* C1 := comparg sf na sz dp (i - 1) r b C in
      cx sf sz dp e (Kpush :: Kaccess i :: Kprim Pupdate :: C1)
  | _ => fatal
  end.
Fixpoint initarg (sf : Z * Z) (na sz dp : Z) (l args : list lam) (b : lam) (C : list instr) : M (list instr) :=
  match l with
  | [] => comparg sf na sz dp na args b C
  | Lprim (Pclosure lbl csz) fre :: r =>
      let z := sz + 1 in
      let* dp' := bindEnv dp z in
      let* C1 := initarg sf na z dp' r args b C in
      mret (Kprim (Pdummy csz) :: Kpush :: C1)
  | _ => fatal
  end.
End Compile.

(** not in the code *)
Definition note (k : nat) (sf : Z * Z) (sz dp : Z) (C : list instr) : M unit := fun s =>
  Ret (tt, mkB (lc s) (lnot s) (sh s) (still s) (fvr s) (mdr s) (va s)
                (mkV k (length (still s)) sf sz (firstn (Z.to_nat dp) (va s)) C :: seen s)).

(** compexp, Back.sml 461-697 *)
Fixpoint compexp (fuel : nat) (fv : list Z) (sf : Z * Z) (sz dp : Z) (e : lam) (C : list instr) : M (list instr) :=
  match fuel with
  | O => fun _ => Diverge
  | S fuel =>
      let cx := compexp fuel fv in
      match e with
      | Lvar n => let* i := findEnv fv sz n in mret (i :: C)
      | Lassign n e' => let* i := findStk sz n in cx sf sz dp e' (i :: C)
      | Lconst c =>
          mret (match C with
                | Kquote _ :: _ | Kget_global _ :: _ | Kaccess _ :: _ | Kenvacc _ :: _ => C
                | _ => Kquote c :: C end)
      | Lapply b args =>
          let na := Z.of_nat (length args) in
          if isReturn C then
            let* C1 := cx sf (sz + na) dp b (Kappterm na (sz + na) :: discardDeadCode C) in
            compExpList cx sf sz dp args (Kpush :: C1)
          else if na <? 5 then
            let* C1 := cx sf (sz + na) dp b (Kapply na :: C) in
            compExpList cx sf sz dp args (Kpush :: C1)
          else
            let* (lbl, C1) := labelCode C in
            let* C2 := cx sf (sz + 3 + na) dp b (Kapply na :: C1) in
            let* C3 := compExpList cx sf (sz + 3) dp args (Kpush :: C2) in
            mret (Kpush_retaddr lbl :: C3)
      | Lfn _ => fatal
      | Llet [arg] Lunspec => cx sf sz dp arg C
      | Llet args b => complet cx sf (Z.of_nat (length args)) sz dp args b C
      | Lletrec [Lprim (Pclosure lbl csz) fre] b =>
          let z := sz + 1 in
          let* d := bindEnv dp z in
          let* Cb := cx sf z d b (addPop 1 C) in
          let C1 := Kpush :: Cb in
          match fre with
          | Lvar n :: rest => if n =? dp then compExpList cx sf sz dp rest (Kclosurerec lbl csz :: C1)
                              else compExpList cx sf sz dp fre (Kclosure lbl csz :: C1)
          | [] => mret (Kclosure lbl 0 :: C1)
          | _ => fatal
          end
      | Lletrec args b => initarg cx sf (Z.of_nat (length args)) sz dp args args b C
      | Lprim (Pp (Psimple op)) [e1; Lconst (INTscon 1)] =>
          if op =? SMLADDINT then cx sf sz dp e1 (Kprim (Psimple SMLSUCCINT) :: C)
          else if op =? SMLSUBINT then cx sf sz dp e1 (Kprim (Psimple SMLPREDINT) :: C)
          else compExpListLR cx sf sz dp [e1; Lconst (INTscon 1)] (Kprim (Psimple op) :: C)
      | Lprim (Pget_global uid) [] => mret (Kget_global uid :: C)
      | Lprim (Pset_global uid) [e] => cx sf sz dp e (Kset_global uid :: C)
      | Lprim (Pget_global _) _ | Lprim (Pset_global _) _ => fatal   (* Kprim of these is fatal in Emitcode *)
      | Lprim (Pfield i) es => compExpListLR cx sf sz dp es (Kgetfield i :: C)
      | Lprim (Psetfield i) es => compExpListLR cx sf sz dp es (Ksetfield i :: C)
      | Lprim (Pmakeblock t _) es => compExpListLR cx sf sz dp es (Kmakeblock t (Z.of_nat (length es)) :: C)
      | Lprim (Pp (Psimple op)) [e1] =>
          if op =? BOOLNOT then
            match C with
            | Kbranchif lbl :: C' => cx sf sz dp e1 (Kbranchifnot lbl :: C')
            | Kbranchifnot lbl :: C' => cx sf sz dp e1 (Kbranchif lbl :: C')
            | _ => cx sf sz dp e1 (Kprim Pnot :: C)
            end
          else compExpListLR cx sf sz dp [e1] (Kprim (Psimple op) :: C)
      | Lprim (Pp (Ptest t)) es =>
          match C with
          | Kbranchif lbl :: C' => compExpListLR cx sf sz dp es (Ktest t lbl :: C')
          | Kbranchifnot lbl :: C' => let* t := lift (invertBoolTest t) in compExpListLR cx sf sz dp es (Ktest t lbl :: C')
          | _ => compExpListLR cx sf sz dp es (Kprim (Ptest t) :: C)
          end
      | Lprim Praise es => compExpListLR cx sf sz dp es (Kraise :: discardDeadCode C)
      | Lprim (Pclosure lbl csz) es => compExpList cx sf sz dp es (Kclosure lbl csz :: C)
      | Lprim (Pp Pidentity) es => compExpListLR cx sf sz dp es C
      | Lprim (Pp q) es => compExpListLR cx sf sz dp es (Kprim q :: C)
      | Lstatichandle b Lstaticfail => cx sf sz dp b C
      | Lstatichandle b h =>
          let* (branch1, C1) := makeBranch C in
          let* Ch := cx sf sz dp h C1 in
          let* (handle2, C2) := labelCode Ch in
          cx (handle2, sz) sz dp b (branch1 :: discardDeadCode C2)
      | Lstaticfail => mret (addPop (sz - snd sf) (Kbranch (fst sf) :: discardDeadCode C))
      | Lhandle b h =>
          let* (branch1, C1) := makeBranch C in
          let* lbl2 := new_label in
          let z := sz + 1 in
          let* d := bindEnv dp z in
          let* Ch := cx sf z d h (addPop 1 C1) in
          let* Cb := cx sf (sz + 4) dp b (Kpoptrap :: branch1 :: Klabel lbl2 :: Kpush :: Ch) in
          mret (Kpushtrap lbl2 :: Cb)
      | Lif c t f => compTest2 cx sf sz dp c t f C
      | Lseq a b => let* C1 := cx sf sz dp b C in cx sf sz dp a C1
      | Lwhile c b =>
          let* lbl2 := new_label in
          let* Cc := cx sf sz dp c (Kbranchif lbl2 :: Kquote constUnit :: C) in
          let* (lbl1, C1) := labelCode Cc in
          let* Cb := cx sf sz dp b C1 in
          mret (Kbranch lbl1 :: Klabel lbl2 :: Kcheck_signals :: Cb)
      | Landalso a b =>
          match C with
          | Kbranch lbl :: _ | Klabel lbl :: _ =>
              let* C1 := cx sf sz dp b C in cx sf sz dp a (Kstrictbranchifnot lbl :: C1)
          | Kbranchifnot lbl :: _ => let* C1 := cx sf sz dp b C in cx sf sz dp a (Kbranchifnot lbl :: C1)
          | Kbranchif lbl :: C' =>
              let* (lbl1, C1) := labelCode C' in
              let* C2 := cx sf sz dp b (Kbranchif lbl :: C1) in
              cx sf sz dp a (Kbranchifnot lbl1 :: C2)
          | _ => let* lbl := new_label in
                 let* C1 := cx sf sz dp b (Klabel lbl :: C) in
                 cx sf sz dp a (Kstrictbranchifnot lbl :: C1)
          end
      | Lorelse a b =>
          match C with
          | Kbranch lbl :: _ | Klabel lbl :: _ =>
              let* C1 := cx sf sz dp b C in cx sf sz dp a (Kstrictbranchif lbl :: C1)
          | Kbranchif lbl :: _ => let* C1 := cx sf sz dp b C in cx sf sz dp a (Kbranchif lbl :: C1)
          | Kbranchifnot lbl :: C' =>
              let* (lbl1, C1) := labelCode C' in
              let* C2 := cx sf sz dp b (Kbranchifnot lbl :: C1) in
              cx sf sz dp a (Kbranchif lbl1 :: C2)
          | _ => let* lbl := new_label in
                 let* C1 := cx sf sz dp b (Klabel lbl :: C) in
                 cx sf sz dp a (Kstrictbranchif lbl :: C1)
          end
      | Lcase a cl =>
          let* C1 :=
            match cl with
            | (c, _) :: _ =>
                if int_like c then let* t := lift (do l <- int_clauses cl; compileNBranch l) in compDecision cx sf sz dp t C
                else compTests cx sf sz dp (map (fun '(c, e) => (testForAtom c, e)) cl) C
            | [] => compTests cx sf sz dp [] C
            end in
          cx sf sz dp a C1
      | Lswitch 1 _ [(_, e)] => cx sf sz dp e C
      | Lswitch 2 a [(0, e0)] => compTest2 cx sf sz dp a Lstaticfail e0 C
      | Lswitch 2 a [(1, e1)] => compTest2 cx sf sz dp a e1 Lstaticfail C
      | Lswitch 2 a [(0, e0); (1, e1)] => compTest2 cx sf sz dp a e1 e0 C
      | Lswitch 2 a [(1, e1); (0, e0)] => compTest2 cx sf sz dp a e1 e0 C
      | Lswitch size a cl =>
          let* C1 :=
            if Z.of_nat (length cl) >=? size - 5 then compDirectSwitch cx sf sz dp size cl C
            else let* t := lift (compileNBranch cl) in compDecision cx sf sz dp t C in
          cx sf sz dp a (Kprim Ptag_of :: C1)
      | Lunspec => mret C
      | Lshared k =>
          let* _ := note k sf sz dp C in
          let* (c, l) := get_sh k in
          if l <? 0 then
            let* Cc := cx sf sz dp c C in
            let* (lbl, C1) := labelCode Cc in
            let* _ := set_sh_lbl k lbl in mret C1
          else mret (Kbranch l :: discardDeadCode C)
      end
  end.

(** compileRest, Back.sml 826-842 *)
Definition set_va (v : list Z) : M unit := fun s => Ret (tt, mkB (lc s) (lnot s) (sh s) (still s) (fvr s) (mdr s) v (seen s)).
Fixpoint inienv (nargs : nat) (a sz : Z) : M unit :=
  match nargs with
  | O => mret tt
  | S n => let* a' := bindEnv a sz in inienv n a' (sz - 1)
  end.
Fixpoint compileRest (fuel cfuel : nat) (C : list instr) : M (list instr) :=
  match fuel with
  | O => fun _ => Diverge
  | S fuel => fun s =>
      match still s with
      | [] => Ret (C, s)
      | (lbl, nargs, fv, maxstk, e) :: rest =>
          (let* _ := set_va (repeat (-1) (Z.to_nat maxstk)) in
           let* _ := inienv (Z.to_nat nargs) 0 nargs in
           let* C' := compexp cfuel fv (Nolabel, 0) nargs nargs e (Kreturn nargs :: discardDeadCode C) in
           compileRest fuel cfuel
             (if nargs >? 1 then Krestart :: Klabel lbl :: Kgrab (nargs - 1) :: C' else Klabel lbl :: C'))
          (mkB (lc s) (lnot s) (sh s) rest (fvr s) (mdr s) (va s) (seen s))
      end
  end.

(** compileLambda, Back.sml 844-857: the initialisation code and the code of the functions *)
Definition compileLambda (fuel : nat) (e : lam) (shared : list lam) : outcome (list instr * list instr) :=
  do (qe, s) <- UNdeBruijn fuel e (mkB 0 (Nolabel - 1) (map (fun c => (c, Nolabel)) shared) [] [] 0 (repeat (-1) (Z.to_nat 4000)) []);
  do (inits, s) <- compexp fuel [] (Nolabel, 0) 0 0 (snd qe) [] s;
  do (funcs, _) <- compileRest (S (length (still s))) fuel [] s;
  Ret (inits, funcs).
