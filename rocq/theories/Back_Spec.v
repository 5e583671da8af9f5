(** What lambda terms mean, independently of instructions and of the stack: an evaluator for the terms
    that UNdeBruijn makes (all functions named by a label, variables numbered from the outermost).
    Functions take their arguments one at a time; a function that has not got all of them is a value
    that holds the ones it has got. *)
From Verif Require Import Base Opcodes Back_Model.

(** ** Values and the store *)
(** [SAny]: the value of Lunspec; anything may take its place.
    [SLoc l]: the block or the function stored at l.  [SPap l args]: the function at l with some arguments. *)
Inductive sval := SNum (n : Z) | SAtom (t : Z) | SLoc (l : nat) | SPap (l : nat) (args : list sval) | SAny.
Inductive sblock := Blk (t : Z) (vs : list sval) | Clo (lbl : Z) (vs : list sval).
Definition store := list sblock.
Definition sglob := list (Z * sval).

Definition sunit := SAtom 0.
Definition sbool (b : bool) := if b then SAtom 1 else SAtom 0.
(** conditions are the constructors true and false *)
Definition struth (v : sval) : option bool := match v with SAtom t => Some (negb (t =? 0)) | _ => None end.
Definition stag (s : store) (v : sval) : option Z :=
  match v with
  | SAtom t => Some t
  | SLoc l => match nth_error s l with Some (Blk t _) => Some t | _ => None end
  | _ => None
  end.

(** the primitives that are left open *)
Record sprims := mkSP {
  slit : Z -> sval;
  sprim : primitive -> list sval -> store -> option (bool * sval * store);
  sxtest : bool_test -> sval -> sval -> store -> option bool }.

(** equality of integers, atoms and locations; functions are not compared *)
Definition sphys (s : store) (a b : sval) : option bool :=
  let ok v := match v with
              | SNum _ | SAtom _ => true
              | SLoc l => match nth_error s l with Some (Blk _ _) => true | _ => false end
              | _ => false end in
  if ok a && ok b then
    match a, b with
    | SNum n, SNum m => Some (n =? m)
    | SAtom n, SAtom m => Some (n =? m)
    | SLoc n, SLoc m => Some (Nat.eqb n m)
    | _, _ => Some false
    end
  else None.
Definition stest (p : sprims) (t : bool_test) (a b : sval) (s : store) : option bool :=
  match t with
  | Peq_test => sphys s a b
  | Pnoteq_test => match sphys s a b with Some x => Some (negb x) | None => None end
  | Pint_test t => match a, b with SNum n, SNum m => cmp t n m | _, _ => None end
  | Pword_test t => match a, b with SNum n, SNum m => cmp t (word63 n) (word63 m) | _, _ => None end
  | Pfloat_test (PTnoteqimm _) | Pstring_test (PTnoteqimm _) => None
  | Pfloat_test _ | Pstring_test _ => sxtest p t a b s
  | Pnoteqtag_test _ => None
  end.
Definition sconst (p : sprims) (c : constant) : sval :=
  match c with
  | INTscon i | WORDscon i | CHARscon i => SNum i
  | EMPTYsc t => SAtom t
  | OTHERsc k => slit p k
  end.

(** ** Results: a value, an exception, or the failure of a match *)
Inductive res := RV (v : sval) | RX (v : sval) | RF.
Inductive lres := LV (vs : list sval) | LX (v : sval) | LF.

(** a function: its number of arguments, its free variables, and its body *)
Record fundef := mkF { f_nargs : nat; f_fv : list Z; f_body : lam }.

(** the values of the local variables, the store, and the global variables *)
Record sst := mkS { loc : list sval; sto : store; gl : sglob }.

Fixpoint slook (g : sglob) (u : Z) : option sval :=
  match g with [] => None | (k, v) :: r => if u =? k then Some v else slook r u end.

(** a variable: a local one, or one of the closure's *)
Definition var (fv : list Z) (cl : list sval) (ls : list sval) (n : Z) : option sval :=
  if n <? 0 then match fv_index n 0 fv with Some i => nth_error cl (Z.to_nat i) | None => None end
  else nth_error ls (Z.to_nat n).

Definition bindV (r : option (res * sst)) (k : sval -> sst -> option (res * sst)) : option (res * sst) :=
  match r with Some (RV v, s) => k v s | _ => r end.

Definition cut (n : nat) (r : option (res * sst)) : option (res * sst) :=
  match r with Some (x, s) => Some (x, mkS (firstn n (loc s)) (sto s) (gl s)) | None => None end.

(** keys of a case: distinct *)
Fixpoint distinct (l : list Z) : bool :=
  match l with [] => true | x :: r => negb (existsb (Z.eqb x) r) && distinct r end.
Fixpoint find_key (n : Z) (cl : list (Z * lam)) : option lam :=
  match cl with [] => None | (k, e) :: r => if n =? k then Some e else find_key n r end.
Definition scon_key (c : scon) : option Z := match c with SInt i | SWord i | SChar i => Some i | _ => None end.
Fixpoint scon_keys (cl : list (scon * lam)) : option (list (Z * lam)) :=
  match cl with
  | [] => Some []
  | (c, e) :: r => match scon_key c, scon_keys r with Some k, Some l => Some ((k, e) :: l) | _, _ => None end
  end.

(** the terms that are used as the argument of a switch with one case only, which the compiler drops *)
Fixpoint simple (e : lam) : bool :=
  match e with
  | Lvar _ | Lconst _ | Lprim (Pget_global _) [] => true
  | Lprim (Pfield _) [e] => simple e
  | _ => false
  end.

(** closures of a letrec: Lprim (Pclosure (lbl, csz), variables) *)
Definition as_var (e : lam) : option Z := match e with Lvar n => Some n | _ => None end.
Fixpoint as_vars (l : list lam) : option (list Z) :=
  match l with
  | [] => Some []
  | e :: r => match as_var e, as_vars r with Some n, Some l => Some (n :: l) | _, _ => None end
  end.
Definition as_clo (e : lam) : option (Z * list Z) :=
  match e with
  | Lprim (Pclosure lbl csz) fre =>
      match as_vars fre with
      | Some ns => if csz =? Z.of_nat (length ns) then Some (lbl, ns) else None
      | None => None
      end
  | _ => None
  end.
Fixpoint as_clos (l : list lam) : option (list (Z * list Z)) :=
  match l with
  | [] => Some []
  | e :: r => match as_clo e, as_clos r with Some c, Some l => Some (c :: l) | _, _ => None end
  end.
Fixpoint vars (fv : list Z) (cl ls : list sval) (ns : list Z) : option (list sval) :=
  match ns with
  | [] => Some []
  | n :: r => match var fv cl ls n, vars fv cl ls r with Some v, Some vs => Some (v :: vs) | _, _ => None end
  end.
Fixpoint clos_blocks (fv : list Z) (cl ls : list sval) (cs : list (Z * list Z)) : option (list sblock) :=
  match cs with
  | [] => Some []
  | (lbl, ns) :: r => match vars fv cl ls ns, clos_blocks fv cl ls r with
                      | Some vs, Some bs => Some (Clo lbl vs :: bs) | _, _ => None end
  end.
(** a function defined alone has itself as its first free variable, or not at all *)
Definition clos_ok (dp : nat) (cs : list (Z * list Z)) : bool :=
  match cs with
  | [] => false
  | [(_, n :: ns)] => forallb (fun m => negb (m =? Z.of_nat dp)) ns
  | _ => true
  end.

Section Eval.
Variable p : sprims.
Variable ar : primitive -> nat.          (* the arities of the primitives *)
Variable F : Z -> option fundef.
Variable shc : nat -> option lam.        (* the contents of the Lshared nodes *)

(** ** Application, one argument at a time; [run] evaluates a function's body *)
Section App.
Variable run : fundef -> list sval -> list sval -> store -> sglob -> option (res * store * sglob).
Definition app1 (f x : sval) (s : store) (g : sglob) : option (res * store * sglob) :=
  let '(l, args) := match f with SLoc l => (l, []) | SPap l a => (l, a) | _ => (length s, []) end in
  match nth_error s l with
  | Some (Clo lbl vs) =>
      match F lbl with
      | Some fd =>
          if Nat.eqb (length args + 1) (f_nargs fd) then run fd (args ++ [x]) vs s g
          else Some (RV (SPap l (args ++ [x])), s, g)
      | None => None
      end
  | _ => None
  end.
Fixpoint apps (f : sval) (xs : list sval) (s : store) (g : sglob) : option (res * store * sglob) :=
  match xs with
  | [] => Some (RV f, s, g)
  | x :: xs => match app1 f x s g with
               | Some (RV v, s, g) => apps v xs s g
               | r => r
               end
  end.
End App.

Section Lists.
Variable ev : lam -> sst -> option (res * sst).
(** arguments of functions: the last one first *)
Fixpoint evals_rl (l : list lam) (s : sst) : option (lres * sst) :=
  match l with
  | [] => Some (LV [], s)
  | e :: r => match evals_rl r s with
              | Some (LV vs, s) => match ev e s with
                                   | Some (RV v, s) => Some (LV (v :: vs), s)
                                   | Some (RX v, s) => Some (LX v, s)
                                   | Some (RF, s) => Some (LF, s)
                                   | None => None end
              | x => x
              end
  end.
(** arguments of primitives *)
Fixpoint evals_lr (l : list lam) (s : sst) : option (lres * sst) :=
  match l with
  | [] => Some (LV [], s)
  | e :: r => match ev e s with
              | Some (RV v, s) => match evals_lr r s with
                                  | Some (LV vs, s) => Some (LV (v :: vs), s)
                                  | x => x end
              | Some (RX v, s) => Some (LX v, s)
              | Some (RF, s) => Some (LF, s)
              | None => None
              end
  end.
(** the definitions of a let *)
Fixpoint evals_let (l : list lam) (s : sst) : option (lres * sst) :=
  match l with
  | [] => Some (LV [], s)
  | e :: r => match ev e s with
              | Some (RV v, s) => evals_let r (mkS (loc s ++ [v]) (sto s) (gl s))
              | Some (RX v, s) => Some (LX v, s)
              | Some (RF, s) => Some (LF, s)
              | None => None
              end
  end.
End Lists.

Definition bindL (r : option (lres * sst)) (k : list sval -> sst -> option (res * sst)) : option (res * sst) :=
  match r with
  | Some (LV vs, s) => k vs s
  | Some (LX v, s) => Some (RX v, s)
  | Some (LF, s) => Some (RF, s)
  | None => None
  end.

(** primitives on values *)
Definition ev_prim (q : primitive) (vs : list sval) (s : sst) : option (res * sst) :=
  match q, vs with
  | Pidentity, [v] => Some (RV v, s)
  | Ptest t, [a; b] => match stest p t a b (sto s) with Some x => Some (RV (sbool x), s) | None => None end
  | Patom t, [] => Some (RV (SAtom t), s)
  | (Pidentity | Ptest _ | Patom _ | Pdummy _ | Pbad), _ => None
  | (Psimple _ | Pccall _ _), _ =>
      let generic :=
        if (1 <=? Z.of_nat (length vs)) && Nat.eqb (length vs) (ar q) then
          match sprim p q vs (sto s) with
          | Some (true, v, s') => Some (RV v, mkS (loc s) s' (gl s))
          | Some (false, v, s') => Some (RX v, mkS (loc s) s' (gl s))
          | None => None
          end
        else None in
      match q with
      | Psimple op =>
          if op =? UPDATE then None
          else if op =? BOOLNOT then
            match vs with
            | [v] => match struth v with Some b => Some (RV (sbool (negb b)), s) | None => None end
            | _ => None
            end
          else if op =? TAGOF then
            match vs with
            | [v] => match stag (sto s) v with Some t => Some (RV (SNum t), s) | None => None end
            | _ => None
            end
          else generic
      | _ => generic
      end
  end.
Definition ev_lprim (q : lprim) (vs : list sval) (s : sst) : option (res * sst) :=
  match q, vs with
  | Pget_global u, [] => match slook (gl s) u with Some v => Some (RV v, s) | None => None end
  | Pset_global u, [v] => Some (RV sunit, mkS (loc s) (sto s) ((u, v) :: gl s))
  | Pfield i, [SLoc l] =>
      match nth_error (sto s) l with
      | Some (Blk _ vs) => if 0 <=? i then match nth_error vs (Z.to_nat i) with Some v => Some (RV v, s) | None => None end else None
      | _ => None
      end
  | Psetfield i, [SLoc l; v] =>
      match nth_error (sto s) l with
      | Some (Blk t vs) =>
          if (0 <=? i) && (i <? Z.of_nat (length vs)) then
            Some (RV sunit, mkS (loc s) (set_nth (sto s) l (Blk t (set_nth vs (Z.to_nat i) v))) (gl s))
          else None
      | _ => None
      end
  | Pmakeblock t _, _ :: _ => Some (RV (SLoc (length (sto s))), mkS (loc s) (sto s ++ [Blk t vs]) (gl s))
  | Praise, [v] => Some (RX v, s)
  | Pclosure lbl csz, _ =>
      if csz =? Z.of_nat (length vs) then
        Some (RV (SLoc (length (sto s))), mkS (loc s) (sto s ++ [Clo lbl vs]) (gl s))
      else None
  | Pp q, _ => ev_prim q vs s
  | _, _ => None
  end.

(** the identity has one argument *)
Definition ident_ok (q : lprim) (es : list lam) : bool :=
  match q with Pp Pidentity => Nat.eqb (length es) 1 | _ => true end.

(** constants of a case that are compared one after the other *)
Fixpoint find_case (v : sval) (cl : list (scon * lam)) (s : store) : option (option lam) :=
  match cl with
  | [] => Some None
  | (c, e) :: r =>
      match (match c with
             | SReal k => sxtest p (Pfloat_test PTeq) v (slit p k) s
             | SString k => sxtest p (Pstring_test PTeq) v (slit p k) s
             | _ => None end) with
      | Some true => Some (Some e)
      | Some false => find_case v r s
      | None => None
      end
  end.
Definition select_case (v : sval) (cl : list (scon * lam)) (s : store) : option (option lam) :=
  match cl with
  | [] => None
  | (c, _) :: _ =>
      match scon_key c with
      | Some _ =>
          match v, scon_keys cl with
          | SNum n, Some l => if distinct (map fst l) then Some (find_key n l) else None
          | _, _ => None
          end
      | None => find_case v cl s
      end
  end.
(** the tag of the value selects the case; tags are below the number of constructors *)
Definition select_tag (size : Z) (v : sval) (cl : list (Z * lam)) (s : store) : option (option lam) :=
  match stag s v with
  | Some t =>
      if (0 <=? t) && (t <? size) && distinct (map fst cl) && forallb (fun c => (0 <=? fst c) && (fst c <? size)) cl
         && negb (Nat.eqb (length cl) 0)
      then Some (find_key t cl) else None
  | None => None
  end.

Fixpoint eval (n : nat) (fv : list Z) (cl : list sval) (e : lam) (s : sst) {struct n} : option (res * sst) :=
  match n with
  | O => None
  | S n =>
      let ev := eval n fv cl in
      let run fd args vs st g :=
        match eval n (f_fv fd) vs (f_body fd) (mkS args st g) with
        | Some (RV v, s') => Some (RV v, sto s', gl s')
        | Some (RX v, s') => Some (RX v, sto s', gl s')
        | _ => None
        end in
      match e with
      | Lvar k => match var fv cl (loc s) k with Some v => Some (RV v, s) | None => None end
      | Lassign k e =>
          bindV (ev e s) (fun v s =>
            if (0 <=? k) && (k <? Z.of_nat (length (loc s))) then
              Some (RV sunit, mkS (set_nth (loc s) (Z.to_nat k) v) (sto s) (gl s)) else None)
      | Lconst c => Some (RV (sconst p c), s)
      | Lapply f args =>
          match args with
          | [] => None
          | _ =>
              bindL (evals_rl ev args s) (fun vs s =>
              bindV (ev f s) (fun vf s =>
                match apps run vf vs (sto s) (gl s) with
                | Some (r, st, g) => Some (r, mkS (loc s) st g)
                | None => None
                end))
          end
      | Lfn _ => None
      | Llet args b =>
          let dp := length (loc s) in
          match evals_let ev args s with
          | Some (LV _, s) => cut dp (ev b s)
          | Some (LX v, s) => cut dp (Some (RX v, s))
          | Some (LF, s) => cut dp (Some (RF, s))
          | None => None
          end
      | Lletrec args b =>
          let dp := length (loc s) in
          match as_clos args with
          | Some cs =>
              if clos_ok dp cs then
                let ls := loc s ++ map (fun i => SLoc (length (sto s) + i)) (seq 0 (length cs)) in
                match clos_blocks fv cl ls cs with
                | Some bs => cut dp (ev b (mkS ls (sto s ++ bs) (gl s)))
                | None => None
                end
              else None
          | None => None
          end
      | Lprim q es =>
          if ident_ok q es then
            bindL (match q with Pclosure _ _ => evals_rl ev es s | _ => evals_lr ev es s end) (ev_lprim q)
          else None
      | Lcase e c =>
          bindV (ev e s) (fun v s =>
            match select_case v c (sto s) with
            | Some (Some e) => ev e s
            | Some None => Some (RF, s)
            | None => None
            end)
      | Lswitch size e c =>
          if (size =? 1) && negb (simple e) then None else
          bindV (ev e s) (fun v s =>
            match select_tag size v c (sto s) with
            | Some (Some e) => ev e s
            | Some None => Some (RF, s)
            | None => None
            end)
      | Lstaticfail => Some (RF, s)
      | Lstatichandle b h => match ev b s with Some (RF, s) => ev h s | r => r end
      | Lhandle b h =>
          let dp := length (loc s) in
          match ev b s with
          | Some (RX v, s) => cut dp (ev h (mkS (loc s ++ [v]) (sto s) (gl s)))
          | Some (RF, _) => None
          | r => r
          end
      | Lif c t f =>
          bindV (ev c s) (fun v s => match struth v with Some true => ev t s | Some false => ev f s | None => None end)
      | Lseq a b => bindV (ev a s) (fun _ s => ev b s)
      | Lwhile c b =>
          bindV (ev c s) (fun v s =>
            match struth v with
            | Some true => bindV (ev b s) (fun _ s => ev (Lwhile c b) s)
            | Some false => Some (RV sunit, s)
            | None => None
            end)
      | Landalso a b =>
          bindV (ev a s) (fun v s => match struth v with Some true => ev b s | Some false => Some (RV v, s) | None => None end)
      | Lorelse a b =>
          bindV (ev a s) (fun v s => match struth v with Some true => Some (RV v, s) | Some false => ev b s | None => None end)
      | Lunspec => Some (RV SAny, s)
      | Lshared k => match shc k with Some c => ev c s | None => None end
      end
  end.
End Eval.
