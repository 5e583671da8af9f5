(** * Type unification: Types.unify and the functions it calls

    Source: /repo/src/compiler/Types.sml (unify and the functions it calls),
    Globals.sml (the representation of types), Mixture.sml (labels).

    Types are graphs of reference cells.  A heap has three kinds of cell: type
    variables, record nodes and rows; an address is an index into the list of
    cells of its kind.

    Simplifications.
    - A type constructor is applied to its arguments directly: [CONt(ts, tn)]
      with a type name, never an application of a constructor parameter
      (APPtyapp), and type names are never realised by another type (REAts).
      So normTyApp returns its argument and kinds are arities.
    - No package types (PACKt).
    - The record inside [VARrow (ref {...})] is kept in the row cell itself:
      every RowVar is made by mkVarRowType (Types.sml 312-314) together with
      the only row cell that points to it.
    - What a type name's own record says (arity, equality attribute, binding
      level) is read from a table: unify never changes it.
    - Recursion is bounded by fuel, [Loop] being the outcome when it runs out. *)

From Coq Require Import ZArith List Bool.
Import ListNotations.
Open Scope Z_scope.

(** Labels.  Mixture.sml 94-97 and 132-136: Lab and lt_lab; names are lists of character
    codes, compared as SML compares strings. *)
Inductive lab := STRINGlab (s : list Z) | INTlab (i : Z).

Fixpoint lt_str (a b : list Z) : bool :=
  match a, b with
  | _, [] => false
  | [], _ :: _ => true
  | x :: a', y :: b' => if x <? y then true else if y <? x then false else lt_str a' b'
  end.

Definition lt_lab (a b : lab) : bool :=
  match a, b with
  | STRINGlab s1, STRINGlab s2 => lt_str s1 s2
  | STRINGlab _, INTlab _ => true
  | INTlab _, STRINGlab _ => false
  | INTlab i1, INTlab i2 => i1 <? i2
  end.

(** Globals.sml 59-64: Type. *)
Inductive ty :=
| VARt (v : nat)
| ARROWt (a b : ty)
| CONt (ts : list ty) (tn : nat)
| RECt (r : nat).

(** Globals.sml 65-68: TypeVarKind; the name of an explicit variable is not
    used by unify. *)
Inductive tvkind := Explicit | NoLink | LinkTo (t : ty).

(** Globals.sml 127-134: TypeVar. *)
Record tvrec := mkTv
  { tvKind : tvkind; tvEqu : bool; tvImp : bool; tvOvl : bool; tvLevel : Z }.

(** Globals.sml 69-73 and 136-141: RowTypeKind, RowVar. *)
Inductive rowkind :=
| NILrow
| VARrow (rvEqu rvImp : bool) (rvLevel : Z)
| LINKrow (w : nat)
| FIELDrow (l : lab) (t : ty) (w : nat).

(** Globals.sml 63: the cell of RECt. *)
Record recrec := mkRec { fields : list (lab * ty); rho : nat }.

Record heap := mkHeap { vs : list tvrec; rs : list recrec; ws : list rowkind }.

(** Globals.sml 39-43, TyNameEqu; what is known of a type name (Globals.sml 106-114). *)
Inductive tnequ := FALSEequ | TRUEequ | REFequ.
Record tninfo := mkTn { tnArity : nat; tnEqu : tnequ; tnLevel : Z }.

(** Types.sml 66-73: the arguments of exception Unify. *)
Inductive reason :=
| UnifyCircular | UnifyEquality | UnifyExplicit | UnifyTup | UnifyRecR (l : lab)
| UnifyScopeTyName (tn : nat) | UnifyScopeTyVar (v : nat) | UnifyOther.

(** Outcomes: a value, exception Unify, fatalError (or a dangling address,
    which SML cannot have), out of fuel. *)
Inductive res (A : Type) :=
| Ok (a : A) | Fail (r : reason) | Fatal | Loop.
Arguments Ok {A}. Arguments Fail {A}. Arguments Fatal {A}. Arguments Loop {A}.

Definition U (A : Type) := heap -> res (A * heap).
Definition ret {A} (a : A) : U A := fun h => Ok (a, h).
Definition fail {A} (r : reason) : U A := fun _ => Fail r.
Definition fatal {A} : U A := fun _ => Fatal.
Definition loop {A} : U A := fun _ => Loop.
Definition bind {A B} (m : U A) (k : A -> U B) : U B :=
  fun h => match m h with
           | Ok (a, h') => k a h'
           | Fail r => Fail r
           | Fatal => Fatal
           | Loop => Loop
           end.
Notation "'do' x <- m ; k" := (bind m (fun x => k))
  (at level 200, x name, right associativity).
Notation "'do' ' x <- m ; k" := (bind m (fun x => k))
  (at level 200, x strict pattern, right associativity).
Notation "m ;; k" := (bind m (fun _ => k)) (at level 100, right associativity).

Fixpoint set_nth {A} (l : list A) (i : nat) (x : A) : list A :=
  match l, i with
  | [], _ => []
  | _ :: l', O => x :: l'
  | y :: l', S i' => y :: set_nth l' i' x
  end.

Definition get_tv (v : nat) : U tvrec := fun h =>
  match nth_error (vs h) v with Some c => Ok (c, h) | None => Fatal end.
Definition set_tv (v : nat) (c : tvrec) : U unit := fun h =>
  Ok (tt, mkHeap (set_nth (vs h) v c) (rs h) (ws h)).
Definition get_rec (r : nat) : U recrec := fun h =>
  match nth_error (rs h) r with Some c => Ok (c, h) | None => Fatal end.
Definition set_rec (r : nat) (c : recrec) : U unit := fun h =>
  Ok (tt, mkHeap (vs h) (set_nth (rs h) r c) (ws h)).
Definition get_row (w : nat) : U rowkind := fun h =>
  match nth_error (ws h) w with Some c => Ok (c, h) | None => Fatal end.
Definition set_row (w : nat) (c : rowkind) : U unit := fun h =>
  Ok (tt, mkHeap (vs h) (rs h) (set_nth (ws h) w c)).
Definition new_tv (c : tvrec) : U nat := fun h =>
  Ok (length (vs h), mkHeap (vs h ++ [c]) (rs h) (ws h)).
Definition new_row (c : rowkind) : U nat := fun h =>
  Ok (length (ws h), mkHeap (vs h) (rs h) (ws h ++ [c])).

(** Globals.sml 317-350: setTvKind, setTvLevel, setTvEqu, setTvImp, setTvOvl. *)
Definition setTvKind (v : nat) (k : tvkind) : U unit :=
  do c <- get_tv v; set_tv v (mkTv k (tvEqu c) (tvImp c) (tvOvl c) (tvLevel c)).
Definition setTvLevel (v : nat) (l : Z) : U unit :=
  do c <- get_tv v; set_tv v (mkTv (tvKind c) (tvEqu c) (tvImp c) (tvOvl c) l).
Definition setTvEqu (v : nat) (b : bool) : U unit :=
  do c <- get_tv v; set_tv v (mkTv (tvKind c) b (tvImp c) (tvOvl c) (tvLevel c)).
Definition setTvImp (v : nat) (b : bool) : U unit :=
  do c <- get_tv v; set_tv v (mkTv (tvKind c) (tvEqu c) b (tvOvl c) (tvLevel c)).
Definition setTvOvl (v : nat) (b : bool) : U unit :=
  do c <- get_tv v; set_tv v (mkTv (tvKind c) (tvEqu c) (tvImp c) b (tvLevel c)).

(** Globals.sml 352-360: setRtFields, setRtRho. *)
Definition setRtFields (r : nat) (fs : list (lab * ty)) : U unit :=
  do c <- get_rec r; set_rec r (mkRec fs (rho c)).
Definition setRtRho (r : nat) (w : nat) : U unit :=
  do c <- get_rec r; set_rec r (mkRec (fields c) w).

(** Globals.sml 362-376: setRvEqu, setRvImp, setRvLevel, of the RowVar in row
    cell [w]; they are only called when the cell is a VARrow. *)
Definition setRvEqu (w : nat) (b : bool) : U unit :=
  do c <- get_row w;
  match c with VARrow _ i l => set_row w (VARrow b i l) | _ => fatal end.
Definition setRvImp (w : nat) (b : bool) : U unit :=
  do c <- get_row w;
  match c with VARrow e _ l => set_row w (VARrow e b l) | _ => fatal end.
Definition setRvLevel (w : nat) (l : Z) : U unit :=
  do c <- get_row w;
  match c with VARrow e i _ => set_row w (VARrow e i l) | _ => fatal end.

(** Mixture.sml 138-148: insertField. *)
Fixpoint insertField {A} (lx : lab * A) (fs : list (lab * A)) : option (list (lab * A)) :=
  match fs with
  | [] => Some [lx]
  | (l', x') :: rest =>
      if lt_lab (fst lx) l' then Some (lx :: fs)
      else if lt_lab l' (fst lx) then
        match insertField lx rest with
        | Some rest' => Some ((l', x') :: rest')
        | None => None
        end
      else None
  end.

(** Types.sml 186-195: normalizeRecType. *)
Fixpoint normalizeRecType (n : nat) (r : nat) : U unit :=
  match n with
  | O => loop
  | S n =>
      do c <- get_rec r;
      do k <- get_row (rho c);
      match k with
      | NILrow => ret tt
      | VARrow _ _ _ => ret tt
      | LINKrow w' => setRtRho r w';; normalizeRecType n r
      | FIELDrow l t w' =>
          match insertField (l, t) (fields c) with
          | Some fs => setRtFields r fs;; setRtRho r w';; normalizeRecType n r
          | None => fatal
          end
      end
  end.

(** Types.sml 974-993: normType, with path compression. *)
Fixpoint normType (n : nat) (t : ty) : U ty :=
  match n with
  | O => loop
  | S n =>
      match t with
      | VARt v =>
          do c <- get_tv v;
          match tvKind c with
          | LinkTo t' =>
              do t'' <- normType n t';
              setTvKind v (LinkTo t'');; ret t''
          | _ => ret t
          end
      | RECt r => normalizeRecType n r;; ret t
      | _ => ret t
      end
  end.

(** Fnlib.member, on addresses. *)
Definition member (x : nat) (l : list nat) : bool := existsb (Nat.eqb x) l.

(** The free type names, type variables and row variables, in that order. *)
Definition fvset := (list nat * list nat * list nat)%type.

(** Fnlib.foldL on a list of types. *)
Fixpoint foldTs (f : fvset -> ty -> U fvset) (acc : fvset) (ts : list ty) : U fvset :=
  match ts with
  | [] => ret acc
  | t :: ts' => do acc' <- f acc t; foldTs f acc' ts'
  end.

(** Types.sml 838-867: freeVarsType and freeVarsRowType with nothing bound
    (bns = bvs = []), as linkVarToType calls them. *)
Fixpoint freeVarsType (n : nat) (acc : fvset) (t : ty) : U fvset :=
  match n with
  | O => loop
  | S n =>
      do t' <- normType n t;
      match t' with
      | VARt v =>
          let '(fns, fvs, frvs) := acc in
          if member v fvs then ret acc else ret (fns, v :: fvs, frvs)
      | ARROWt a b => do acc' <- freeVarsType n acc a; freeVarsType n acc' b
      | CONt ts tn =>
          do '(fns, fvs, frvs) <- foldTs (freeVarsType n) acc ts;
          if member tn fns then ret (fns, fvs, frvs) else ret (tn :: fns, fvs, frvs)
      | RECt r =>
          do c <- get_rec r;
          do acc' <- foldTs (freeVarsType n) acc (map snd (fields c));
          freeVarsRowType n acc' (rho c)
      end
  end
with freeVarsRowType (n : nat) (acc : fvset) (w : nat) : U fvset :=
  match n with
  | O => loop
  | S n =>
      do k <- get_row w;
      match k with
      | NILrow => ret acc
      | VARrow _ _ _ =>
          let '(fns, fvs, frvs) := acc in
          if member w frvs then ret acc else ret (fns, fvs, w :: frvs)
      | FIELDrow l t w' => do acc' <- freeVarsType n acc t; freeVarsRowType n acc' w'
      | LINKrow _ => fatal
      end
  end.

(** Fnlib: List.app. *)
Fixpoint app {A} (f : A -> U unit) (l : list A) : U unit :=
  match l with
  | [] => ret tt
  | x :: l' => f x;; app f l'
  end.

(** Fnlib.sml 30-33: app2. *)
Fixpoint app2 (f : ty -> ty -> U unit) (l1 l2 : list ty) : U unit :=
  match l1, l2 with
  | [], [] => ret tt
  | x :: l1', y :: l2' => f x y;; app2 f l1' l2'
  | _, _ => fatal
  end.

(** Types.sml 1167-1173: occur_check. *)
Definition occur_check (var : nat) (fvs : list nat) : U unit :=
  app (fun var' => if Nat.eqb var var' then fail UnifyCircular else ret tt) fvs.

Definition isExplicit (c : tvrec) : bool :=
  match tvKind c with Explicit => true | _ => false end.

(** Types.sml 1177-1193: prune_level; ScopeViolation becomes Unify UnifyScope in
    linkVarToType (1502-1503). *)
Definition prune_level (G : nat -> tninfo) (max_level : Z) (fnvs : fvset) : U unit :=
  let '(fns, fvs, frvs) := fnvs in
  app (fun tn => if max_level <? tnLevel (G tn) then fail (UnifyScopeTyName tn) else ret tt) fns;;
  app (fun v =>
         do c <- get_tv v;
         if max_level <? tvLevel c then
           (if isExplicit c then fail (UnifyScopeTyVar v) else setTvLevel v max_level)
         else ret tt) fvs;;
  app (fun w =>
         do k <- get_row w;
         match k with
         | VARrow _ _ l => if max_level <? l then setRvLevel w max_level else ret tt
         | _ => fatal
         end) frvs.

(** Types.sml 1278-1283: makeEqualityRho. *)
Definition makeEqualityRho (w : nat) : U unit :=
  do k <- get_row w;
  match k with VARrow _ _ _ => setRvEqu w true | _ => ret tt end.

(** Types.sml 1285-1307: makeEquality. *)
Fixpoint makeEquality (n : nat) (G : nat -> tninfo) (t : ty) : U unit :=
  match n with
  | O => loop
  | S n =>
      do t' <- normType n t;
      match t' with
      | VARt v =>
          do c <- get_tv v;
          if tvEqu c then ret tt
          else if isExplicit c then fail UnifyEquality
          else setTvEqu v true
      | ARROWt _ _ => fail UnifyEquality
      | CONt ts tn =>
          match tnEqu (G tn) with
          | FALSEequ => fail UnifyEquality
          | TRUEequ => app (makeEquality n G) ts
          | REFequ => ret tt
          end
      | RECt r =>
          do c <- get_rec r;
          app (makeEquality n G) (map snd (fields c));;
          makeEqualityRho (rho c)
      end
  end.

(** Types.sml 1318-1328: makeImperative. *)
Definition makeImperative (fnvs : fvset) : U unit :=
  let '(fns, fvs, frvs) := fnvs in
  app (fun v =>
         do c <- get_tv v;
         if tvImp c then ret tt
         else if isExplicit c then fail UnifyExplicit
         else setTvImp v true) fvs;;
  app (fun w => setRvImp w true) frvs.

(** Types.sml 1330-1342: makeOverloaded. *)
Definition makeOverloaded (n : nat) (t : ty) : U unit :=
  do t' <- normType n t;
  match t' with
  | VARt v =>
      do c <- get_tv v;
      if tvOvl c then ret tt
      else if isExplicit c then fail UnifyExplicit
      else setTvOvl v true
  | _ => ret tt
  end.

(** Types.sml 1344-1349: updateAttributes; [vp] is !value_polymorphism. *)
Definition updateAttributes (n : nat) (G : nat -> tninfo) (vp : bool)
    (var : nat) (t : ty) (fnvs : fvset) : U unit :=
  do c <- get_tv var;
  (if tvEqu c then makeEquality n G t else ret tt);;
  (if tvImp c && negb vp then makeImperative fnvs else ret tt);;
  (if tvOvl c then makeOverloaded n t else ret tt).

(** Types.sml 1498-1508: linkVarToType. *)
Definition linkVarToType (n : nat) (G : nat -> tninfo) (vp : bool) (var : nat) (t : ty) : U unit :=
  do fnvs <- freeVarsType n ([], [], []) t;
  let '(fns, fvs, frvs) := fnvs in
  occur_check var fvs;;
  do c <- get_tv var;
  prune_level G (tvLevel c) fnvs;;
  updateAttributes n G vp var t fnvs;;
  setTvKind var (LinkTo t).

(** Types.sml 1351-1370: unifyRho; [rho1 = rho2] compares references. *)
Definition unifyRho (rho1 rho2 : nat) : U unit :=
  if Nat.eqb rho1 rho2 then ret tt else
  do k1 <- get_row rho1;
  do k2 <- get_row rho2;
  match k1, k2 with
  | NILrow, NILrow => ret tt
  | NILrow, VARrow _ _ _ => set_row rho2 (LINKrow rho1)
  | VARrow _ _ _, NILrow => set_row rho1 (LINKrow rho2)
  | VARrow e1 i1 l1, VARrow e2 i2 l2 =>
      (if l1 <? l2 then setRvLevel rho2 l1 else ret tt);;
      setRvEqu rho2 (e1 || e2);;
      setRvImp rho2 (i1 || i2);;
      set_row rho1 (LINKrow rho2)
  | _, _ => fatal
  end.

(** Types.sml 1148-1165: extractLab.  On NILrow the exception's argument says
    whether both records are tuples; here it names the label. *)
Definition extractLab (vp : bool) (l : lab) (w : nat) : U (ty * nat) :=
  do k <- get_row w;
  match k with
  | NILrow => fail (UnifyRecR l)
  | VARrow equ imp level =>
      do w' <- new_row (VARrow equ imp level);
      do v' <- new_tv (mkTv NoLink equ (vp || imp) false level);
      set_row w (FIELDrow l (VARt v') w');;
      ret (VARt v', w')
  | LINKrow _ => fatal
  | FIELDrow _ _ _ => fatal
  end.

(** Types.sml 1516-1549: the local function unifyRecAcc of unifyRec. *)
Fixpoint unifyRecAcc (n : nat) (un : ty -> ty -> U unit) (vp : bool)
    (fs1 : list (lab * ty)) (rho1 : nat) (fs2 : list (lab * ty)) (rho2 : nat)
    (acc : list (lab * ty)) : U (list (lab * ty) * nat) :=
  match n with
  | O => loop
  | S n =>
      match fs1, fs2 with
      | [], [] => unifyRho rho1 rho2;; ret (rev acc, rho1)
      | (lab1, t1) :: fs1', [] =>
          do '(t2, rho2') <- extractLab vp lab1 rho2;
          un t1 t2;;
          unifyRecAcc n un vp fs1' rho1 [] rho2' ((lab1, t1) :: acc)
      | [], (lab2, t2) :: fs2' =>
          do '(t1, rho1') <- extractLab vp lab2 rho1;
          un t1 t2;;
          unifyRecAcc n un vp [] rho1' fs2' rho2 ((lab2, t2) :: acc)
      | (lab1, t1) :: fs1', (lab2, t2) :: fs2' =>
          if lt_lab lab1 lab2 then
            do '(t2', rho2') <- extractLab vp lab1 rho2;
            un t1 t2';;
            unifyRecAcc n un vp fs1' rho1 fs2 rho2' ((lab1, t1) :: acc)
          else if lt_lab lab2 lab1 then
            do '(t1', rho1') <- extractLab vp lab2 rho1;
            un t1' t2;;
            unifyRecAcc n un vp fs1 rho1' fs2' rho2 ((lab2, t2) :: acc)
          else
            un t1 t2;;
            unifyRecAcc n un vp fs1' rho1 fs2' rho2 ((lab1, t1) :: acc)
      end
  end.

(** Types.sml 1510-1556: unifyRec. *)
Definition unifyRec (n : nat) (un : ty -> ty -> U unit) (vp : bool) (r r' : nat) : U unit :=
  do c <- get_rec r;
  do c' <- get_rec r';
  do '(fs'', rho'') <- unifyRecAcc n un vp (fields c) (rho c) (fields c') (rho c') [];
  setRtFields r fs'';; setRtRho r rho'';;
  setRtFields r' fs'';; setRtRho r' rho''.

(** Types.sml 1387-1437: unify; unifyTyApp on type names is the test isEqTN,
    after the kinds have been compared. *)
Fixpoint unify (n : nat) (G : nat -> tninfo) (vp : bool) (t1 t2 : ty) : U unit :=
  match n with
  | O => loop
  | S n =>
      do t1' <- normType n t1;
      do t2' <- normType n t2;
      match t1', t2' with
      | VARt v1, VARt v2 =>
          if Nat.eqb v1 v2 then ret tt else
          do c1 <- get_tv v1;
          do c2 <- get_tv v2;
          match tvKind c1, tvKind c2 with
          | Explicit, Explicit => fail UnifyOther
          | Explicit, _ => linkVarToType n G vp v2 t1'
          | _, Explicit => linkVarToType n G vp v1 t2'
          | _, _ =>
              if tvLevel c1 <=? tvLevel c2 then linkVarToType n G vp v1 t2'
              else linkVarToType n G vp v2 t1'
          end
      | VARt v, _ =>
          do c <- get_tv v;
          if isExplicit c then fail UnifyOther else linkVarToType n G vp v t2'
      | _, VARt v =>
          do c <- get_tv v;
          if isExplicit c then fail UnifyOther else linkVarToType n G vp v t1'
      | ARROWt a b, ARROWt a' b' => unify n G vp a a';; unify n G vp b b'
      | CONt ts tn, CONt ts' tn' =>
          if negb (Nat.eqb (tnArity (G tn)) (tnArity (G tn'))) then fail UnifyOther
          else if Nat.eqb tn tn' then app2 (unify n G vp) ts ts' else fail UnifyOther
      | RECt r, RECt r' =>
          if Nat.eqb r r' then ret tt else unifyRec n (unify n G vp) vp r r'
      | _, _ => fail UnifyOther
      end
  end.
