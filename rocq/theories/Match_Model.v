(** Model of src/compiler/Match.sml: compilation of matches to decision dags and to lambda code.
    Locations, types and variable names inside patterns are dropped. *)
From Verif Require Import Base.

(** Const.sml 22-28; real constants are not modelled *)
Inductive scon := INTscon (i : Z) | WORDscon (w : Z) | CHARscon (c : Z) | STRINGscon (s : list Z).
(** Lambda.sml 8-29: the accesses the match compiler makes.  [Lexn e]: the lambda term that accesses the name of
    the exception constructor [e] (Tr_env.sml 118-124) *)
Inductive lam := Lvar (i : Z) | Pfield (i : Z) (l : lam) | Pvectlength (l : lam) | Lexn (e : Z).
(** Globals.sml 157-163 *)
Record coninfo := CI { conTag : Z; conSpan : Z; conIsGreedy : bool }.
(** Asynt.sml, Pat'.  RECpat is RECpat(ref (TUPLErp _)); unresolved INFIXpat and RECrp are gone by then *)
Inductive pat :=
| SCONpat (c : scon)
| VARpat (x : Z)
| WILDCARDpat
| NILpat (ci : coninfo)
| CONSpat (ci : coninfo) (p : pat)
| EXNILpat (e : Z)
| EXCONSpat (e : Z) (p : pat)
| EXNAMEpat (l : lam)
| REFpat (p : pat)
| RECpat (ps : list pat)
| VECpat (ps : list pat)
| PARpat (p : pat)
| TYPEDpat (p : pat)
| LAYEREDpat (p q : pat).

Definition scon_dec (a b : scon) : {a = b} + {a <> b}.
Proof. decide equality; try apply Z.eq_dec. apply (list_eq_dec Z.eq_dec). Defined.
Definition lam_dec (a b : lam) : {a = b} + {a <> b}.
Proof. decide equality; apply Z.eq_dec. Defined.

(** Match.sml 18-22: the fields 0 .. n-1 of [obj] *)
Fixpoint split_loop (i : nat) (obj : lam) (oargs : list lam) : list lam :=
  match i with O => oargs | S i => split_loop i obj (Pfield (Z.of_nat i) obj :: oargs) end.
Definition splitPath (n : nat) (obj : lam) : list lam := split_loop n obj [].

(** Match.sml 32-34 *)
Definition mkExnPat (e : Z) (arg : pat) : pat := RECpat [EXNAMEpat (Lexn e); arg].
(** Match.sml 36-45 *)
Fixpoint simplifyPat (p : pat) : pat :=
  match p with
  | VARpat _ => WILDCARDpat
  | REFpat p => RECpat [p]
  | PARpat p => simplifyPat p
  | TYPEDpat p => simplifyPat p
  | LAYEREDpat _ p => simplifyPat p
  | EXNILpat e => mkExnPat e WILDCARDpat
  | EXCONSpat e p => mkExnPat e p
  | p => p
  end.

(** Match.sml 49-54 *)
Inductive con := SCon (c : scon) | Tup (n : nat) | Vec (n : nat) | CCon (tag span : Z) (arity : nat) | EExn (l : lam).
Definition con_dec (a b : con) : {a = b} + {a <> b}.
Proof. decide equality; try apply Z.eq_dec; try apply Nat.eq_dec; [apply scon_dec|apply lam_dec]. Defined.
(** Match.sml 56-61 *)
Definition span (c : con) : Z :=
  match c with
  | SCon (CHARscon _) => 256
  | SCon _ => 0
  | Tup _ => 1
  | Vec _ => 0
  | CCon _ s _ => s
  | EExn _ => 0
  end.
(** Match.sml 63-67 *)
Definition arity (c : con) : nat :=
  match c with SCon _ => 0 | Tup n => n | Vec n => n | CCon _ _ n => n | EExn _ => 0 end%nat.

(** Match.sml 71-77 *)
Inductive termd := Pos (c : con) (ds : list termd) | Neg (cs : list con).
Definition Bot : termd := Neg [].
Definition bots (n : nat) : list termd := repeat Bot n.

(** Match.sml 90-103 *)
Inductive matchresult := Yes | No | Maybe.
Definition staticmatch (pcon : con) (d : termd) : matchresult :=
  match d with
  | Pos scon _ =>
      if con_dec pcon scon then Yes
      else match pcon with EExn _ => Maybe | _ => No end
  | Neg nonset =>
      if in_dec con_dec pcon nonset then No
      else if span pcon =? 1 + Z.of_nat (length nonset) then Yes
      else Maybe
  end.

(** Match.sml 107-123 *)
Definition addneg (d : termd) (c : con) : termd := match d with Neg nonset => Neg (c :: nonset) | d => d end.
Definition context := list (con * list termd).
Fixpoint apply (ctx : context) (d : termd) : context :=
  match ctx with
  | [] => []
  | (con, args) :: rest =>
      if Nat.eqb (arity con) (length args + 1) then apply rest (Pos con (rev (d :: args)))
      else (con, d :: args) :: rest
  end.
Definition work := list (list pat * list lam * list termd).
Fixpoint builddsc (ctx : context) (d : termd) (w : work) : outcome termd :=
  match ctx, w with
  | [], [] => Ret d
  | (con, args) :: rest, (_, _, sargs) :: w => builddsc rest (Pos con (rev_append args (d :: sargs))) w
  | _, _ => Raise ImpossibleExn
  end.

(** Match.sml 129-139: decisions are references; here they are numbers of nodes in a list.  [Success i]: the right-hand
    side of rule [i] *)
Inductive dec := Failure | Success (i : nat) | IfEq (obj : lam) (c : con) (t e : nat).
Definition dec_dec (a b : dec) : {a = b} + {a <> b}.
Proof. decide equality; try apply Nat.eq_dec; [apply con_dec|apply lam_dec]. Defined.
(** the nodes made so far, and their [refs] counts *)
Record state := ST { nodes : list dec; refs : list nat }.
Fixpoint incr (n : nat) (l : list nat) : list nat :=
  match n, l with
  | O, x :: l => S x :: l
  | S n, x :: l => x :: incr n l
  | _, [] => []
  end.
(** Match.sml 138 *)
Definition incrnode (n : nat) (s : state) : state := ST (nodes s) (incr n (refs s)).
(** Match.sml 136-137 *)
Definition count (s : state) (n : nat) : nat := nth n (refs s) 0%nat.
Definition shared (s : state) (n : nat) : bool := Nat.ltb 1 (count s n).
Definition used (s : state) (n : nat) : bool := Nat.ltb 0 (count s n).
(** Match.sml 139 *)
Definition mkDecision (t : dec) (s : state) : nat * state := (length (nodes s), ST (nodes s ++ [t]) (refs s ++ [0%nat])).

Section Dag.
(** Hasht.find on the table of nodes (Match.sml 144-150): an equal node, or none.  The hash of a node depends on
    the counts reachable from it, which change, so that an equal node may be missed: any answer is allowed *)
Variable lookup : list dec -> dec -> option nat.
(** Match.sml 146-156 *)
Definition unique (obj : lam) (c : con) (t1 t2 : nat) (s : state) : nat * state :=
  if Nat.eqb t1 t2 then (t1, s)
  else
    let node := IfEq obj c t1 t2 in
    let fresh := mkDecision node (incrnode t2 (incrnode t1 s)) in
    match lookup (nodes s) node with
    | Some n => match nth_error (nodes s) n with
                | Some node' => if dec_dec node' node then (n, s) else fresh
                | None => fresh
                end
    | None => fresh
    end.

(** the rules: patterns and the node of the right-hand side *)
Definition rules := list (list pat * nat).
Variable failure : nat.
Variable objs1 : list lam.
Variable topctx : context.
(** Match.sml 182-189 *)
Definition mktest (fail : termd -> rules -> state -> outcome (nat * state)) (pcon : con) (obj : lam) (d : termd) (ctx : context)
  (w : work) (rs : rules) (conequal : termd -> state -> outcome (nat * state)) (s : state) : outcome (nat * state) :=
  match staticmatch pcon d with
  | Yes => conequal d s
  | No => do d <- builddsc ctx d w; fail d rs s
  | Maybe =>
      do (t, s) <- conequal (Pos pcon (bots (arity pcon))) s;
      do d <- builddsc ctx (addneg d pcon) w;
      do (e, s) <- fail d rs s;
      Ret (unique obj pcon t e s)
  end.
(** Match.sml 201-202, 230-231, 250-252 *)
Definition getsargs (n : nat) (d : termd) : list termd := match d with Neg _ => bots n | Pos _ sargs => sargs end.

(** Match.sml 168-260.  [fuel]: depth of the recursion *)
Fixpoint fail (fuel : nat) (d : termd) (rs : rules) (s : state) : outcome (nat * state) :=
  match fuel with
  | O => Diverge
  | S fuel =>
      match d, rs with
      | _, [] => Ret (failure, s)
      | Pos _ dscs, (pats1, rhs1) :: rulerest => succeed fuel topctx [(pats1, objs1, dscs)] rhs1 rulerest s
      | _, _ => Raise ImpossibleExn
      end
  end
with succeed (fuel : nat) (ctx : context) (w : work) (rhs : nat) (rs : rules) (s : state) : outcome (nat * state) :=
  match fuel with
  | O => Diverge
  | S fuel =>
      match w with
      | [] => Ret (rhs, s)
      | ([], [], []) :: workrest => succeed fuel ctx workrest rhs rs s
      | (pat1 :: patrest, obj1 :: objrest, dsc1 :: dscrest) :: workrest =>
          matchpat fuel pat1 obj1 dsc1 ctx ((patrest, objrest, dscrest) :: workrest) rhs rs s
      | _ => Raise ImpossibleExn
      end
  end
with matchpat (fuel : nat) (p : pat) (obj : lam) (d : termd) (ctx : context) (w : work) (rhs : nat) (rs : rules) (s : state) :
  outcome (nat * state) :=
  match fuel with
  | O => Diverge
  | S fuel =>
      let test pcon obj conequal := mktest (fail fuel) pcon obj d ctx w rs conequal s in
      let plain newdsc s := succeed fuel (apply ctx newdsc) w rhs rs s in
      match simplifyPat p with
      | SCONpat c => test (SCon c) obj plain
      | VECpat pats =>
          let n := length pats in
          test (Vec n) (Pvectlength obj)
            (match pats with
             | [] => plain
             | _ => fun _ s => succeed fuel ((Vec n, []) :: ctx) ((pats, splitPath n obj, getsargs n d) :: w) rhs rs s
             end)
      | WILDCARDpat => succeed fuel (apply ctx d) w rhs rs s
      | NILpat ci => test (CCon (conTag ci) (conSpan ci) 0) obj plain
      | CONSpat ci p =>
          let pcon := CCon (conTag ci) (conSpan ci) 1 in
          let oarg := if conIsGreedy ci || (conSpan ci =? 1) then obj else Pfield 0 obj in
          test pcon obj
            (fun _ s => succeed fuel ((pcon, []) :: ctx) (([p], [oarg], getsargs 1 d) :: w) rhs rs s)
      | EXNAMEpat l => test (EExn l) obj plain
      | RECpat [] => succeed fuel (apply ctx d) w rhs rs s
      | RECpat pats =>
          let n := length pats in
          succeed fuel ((Tup n, []) :: ctx) ((pats, splitPath n obj, getsargs n d) :: w) rhs rs s
      | _ => Raise ImpossibleExn
      end
  end.
End Dag.
(** Match.sml 163: the accesses of the arguments; the last one is the innermost variable *)
Definition arg_objs (n : nat) : list lam := rev (map (fun i => Lvar (Z.of_nat i)) (seq 0 n)).
(** Match.sml 158-263 *)
Definition makedag (lookup : list dec -> dec -> option nat) (fuel : nat) (failure : nat) (rs : rules) (s : state) :
  outcome (nat * state) :=
  match rs with
  | [] => Raise ImpossibleExn
  | (pats1, _) :: _ =>
      let n := length pats1 in
      fail lookup failure (arg_objs n) [(Tup n, [])] fuel (Pos (Tup n) (bots n)) rs s
  end.

(** ** Lambda code *)
(** the code the match compiler makes; [Crhs i]: the right-hand side of rule [i], [Cfailure]: the failure code *)
Inductive code :=
| Crhs (i : nat)
| Cfailure
| Cunspec
| Lcase (obj : lam) (cl : list (scon * code))
| Lswitch (size : Z) (obj : lam) (cl : list (Z * code))
| Lstatichandle (a b : code)
| Lif_eq (a b : lam) (t e : code)
| Lshared (c : code).

Section ToLambda.
Variable s : state.
Variable failLam : code.
(** Match.sml 269-274 *)
Definition getSCon (c : con) : outcome scon := match c with SCon c => Ret c | _ => Raise ImpossibleExn end.
Definition getCCon (c : con) : outcome Z := match c with CCon t _ _ => Ret t | _ => Raise ImpossibleExn end.
Definition getVec (c : con) : outcome scon := match c with Vec n => Ret (INTscon (Z.of_nat n)) | _ => Raise ImpossibleExn end.
(** Match.sml 276-284 *)
Fixpoint collect {A} (getcon : con -> outcome A) (last : lam) (fuel : nat) (cases : list (A * nat)) (otherwise : nat) :
  outcome (list (A * nat) * nat) :=
  match fuel with
  | O => Diverge
  | S fuel =>
      match nth_error (nodes s) otherwise with
      | Some (IfEq obj con thenact elseact) =>
          if lam_dec obj last then
            if shared s otherwise then Ret (cases, otherwise)
            else do c <- getcon con; collect getcon last fuel ((c, thenact) :: cases) elseact
          else Ret (cases, otherwise)
      | Some _ => Ret (cases, otherwise)
      | None => UB
      end
  end.
(** Match.sml 286-289 *)
Fixpoint revmap {A} (f : nat -> outcome code) (xys : list (A * nat)) (res : list (A * code)) : outcome (list (A * code)) :=
  match xys with
  | [] => Ret res
  | (x, y) :: xyr => do c <- f y; revmap f xyr ((x, c) :: res)
  end.
(** Match.sml 291-331: [toseq fuel n] is toseq of the tree of node [n].  The memo lamRef of shared nodes is not
    modelled (it holds the same code).  [fuel]: depth of the dag *)
Fixpoint toseq (fuel : nat) (n : nat) : outcome code :=
  match fuel with
  | O => Diverge
  | S fuel =>
      let share n := do c <- toseq fuel n; Ret (if shared s n then Lshared c else c) in
      match nth_error (nodes s) n with
      | None => UB
      | Some Failure => Ret failLam
      | Some (Success i) => Ret (Crhs i)
      | Some (IfEq obj (SCon c) thenact elseact) =>
          do (cases, otherwise) <- collect getSCon obj (S (length (nodes s))) [] elseact;
          do c1 <- share thenact;
          do cl <- revmap share cases [];
          do o <- share otherwise;
          Ret (Lstatichandle (Lcase obj ((c, c1) :: cl)) o)
      | Some (IfEq obj (Vec k) thenact elseact) =>
          do (cases, otherwise) <- collect getVec obj (S (length (nodes s))) [] elseact;
          do c1 <- share thenact;
          do cl <- revmap share cases [];
          do o <- share otherwise;
          Ret (Lstatichandle (Lcase obj ((INTscon (Z.of_nat k), c1) :: cl)) o)
      | Some (IfEq obj (CCon t sp _) thenact elseact) =>
          do (cases, otherwise) <- collect getCCon obj (S (length (nodes s))) [] elseact;
          do c1 <- share thenact;
          do cl <- revmap share cases [];
          do o <- share otherwise;
          Ret (Lstatichandle (Lswitch sp obj ((t, c1) :: cl)) o)
      | Some (IfEq obj (EExn l) thenact elseact) =>
          do t <- share thenact;
          do e <- share elseact;
          Ret (Lif_eq obj l t e)
      | Some (IfEq _ (Tup _) _ _) => Diverge              (* mkSwitch and toseq call each other *)
      end
  end.
End ToLambda.

(** Match.sml 337-357: the code, whether the warning about unused cases is given, and whether failure code was needed.
    [rows]: the patterns of the rules; node 0 is Failure, node i+1 the right-hand side of rule i *)
Record result := RES { rcode : code; unused_warning : bool; unused_rules : list nat; has_failure : bool; rdag : nat; rstate : state }.
Definition init_state (n : nat) : state :=
  ST (Failure :: map Success (seq 0 n)) (repeat 0%nat (S n)).
Definition translateMatch (lookup : list dec -> dec -> option nat) (fuel : nat) (rows : list (list pat)) : outcome result :=
  let n := length rows in
  do (decdag, s) <- makedag lookup fuel 0 (combine rows (seq 1 n)) (init_state n);
  let s := incrnode decdag s in
  let unused := filter (fun i => negb (used s (S i))) (seq 0 n) in
  do c <- toseq s (if used s 0 then Cfailure else Cunspec) (S (length (nodes s))) decdag;
  Ret (RES c (existsb (fun i => negb (used s (S i))) (seq 0 n)) unused (used s 0) decdag s).

(** ** Runtime *)
(** values at run time: constants, blocks, exception names.  Front.sml 277-289, 651-679: a constructor is a block with its
    tag; with one constructor of a data type the argument itself; with a record type argument (greedy) a block of
    the fields.  Tuples, vectors, references, exceptions (name, argument) are blocks *)
Inductive rval := RConst (c : scon) | RBlock (tag : Z) (fs : list rval) | RName (n : Z).

Section Run.
(** the name the access to exception constructor [e] evaluates to *)
Variable exname : Z -> Z.
(** the arguments, innermost variable first *)
Variable env : list rval.
Fixpoint access (l : lam) : option rval :=
  match l with
  | Lvar i => if i <? 0 then None else nth_error env (Z.to_nat i)
  | Pfield i l =>
      match access l with
      | Some (RBlock _ fs) => if i <? 0 then None else nth_error fs (Z.to_nat i)
      | _ => None
      end
  | Pvectlength l => match access l with Some (RBlock _ fs) => Some (RConst (INTscon (Z.of_nat (length fs)))) | _ => None end
  | Lexn e => Some (RName (exname e))
  end.
(** the result of running code: the rule chosen, failure, exit of an Lcase or Lswitch without a clause (which goes to
    the enclosing Lstatichandle), or undefined *)
Inductive cres := Rule (i : nat) | Failed | NoClause | Bad.
Fixpoint run (c : code) : cres :=
  match c with
  | Crhs i => Rule i
  | Cfailure => Failed
  | Cunspec => Bad
  | Lcase obj cl =>
      match access obj with
      | Some (RConst k) =>
          (fix go (cl : list (scon * code)) : cres :=
             match cl with
             | [] => NoClause
             | (k', c) :: cl => if scon_dec k k' then run c else go cl
             end) cl
      | _ => Bad
      end
  | Lswitch size obj cl =>
      match access obj with
      | Some (RBlock t _) =>
          (fix go (cl : list (Z * code)) : cres :=
             match cl with
             | [] => NoClause
             | (t', c) :: cl => if t =? t' then run c else go cl
             end) cl
      | _ => Bad
      end
  | Lstatichandle a b => match run a with NoClause => run b | r => r end
  | Lif_eq a b t e =>
      match access a, access b with
      | Some (RName x), Some (RName y) => if x =? y then run t else run e
      | _, _ => Bad
      end
  | Lshared c => run c
  end.
End Run.
