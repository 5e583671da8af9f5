(** * Type schemes: generalization and specialization

    Source: /repo/src/compiler/Types.sml 243-262, 478-545, 1558-1588,
    1756-1766; the heap and the simplifications are those of [Unify_Model].
    [vp] is !value_polymorphism, [bl] is !binding_level. *)

From Coq Require Import ZArith List Bool.
From Verif Require Import Unify_Model.
Import ListNotations.
Open Scope Z_scope.

(** Globals.sml 74-78: TypeScheme, parameters and body. *)
Definition scheme := (list nat * ty)%type.

Definition new_rec (c : recrec) : U nat := fun h =>
  Ok (length (rs h), mkHeap (vs h) (rs h ++ [c]) (ws h)).

(** Types.sml 243-250 and 252-254: mkTypeVar, newTypeVar; 260-263: refreshTypeVar. *)
Definition newTypeVar (vp : bool) (bl : Z) (equ imp ovl : bool) : U nat :=
  new_tv (mkTv NoLink equ (vp || imp) ovl bl).
Definition refreshTypeVar (vp : bool) (bl : Z) (v : nat) : U nat :=
  do c <- get_tv v; newTypeVar vp bl (tvEqu c) (tvImp c) (tvOvl c).

(** Fnlib.sml 102-105: lookup; None is exception Subscript. *)
Definition env := list (nat * ty).
Fixpoint lookup {A} (k : nat) (l : list (nat * A)) : option A :=
  match l with
  | [] => None
  | (a, v) :: xs => if Nat.eqb k a then Some v else lookup k xs
  end.

(** Types.sml 526-534: copyTypeList. *)
Fixpoint copyTypeList (f : env -> ty -> U (env * bool * ty)) (bvs : env) (ts : list ty) : U (env * bool * list ty) :=
  match ts with
  | [] => ret (bvs, true, ts)
  | t :: ts' =>
      do '(bvs1, st, ct) <- f bvs t;
      do '(bvs2, sts, cts) <- copyTypeList f bvs1 ts';
      if st && sts then ret (bvs2, true, ts) else ret (bvs2, false, ct :: cts)
  end.
(** Types.sml 535-545: copyFields. *)
Fixpoint copyFields (f : env -> ty -> U (env * bool * ty)) (bvs : env) (fs : list (lab * ty)) : U (env * bool * list (lab * ty)) :=
  match fs with
  | [] => ret (bvs, true, fs)
  | (l, t) :: fs' =>
      do '(bvs1, st, ct) <- f bvs t;
      do '(bvs2, sfs, cfs) <- copyFields f bvs1 fs';
      if st && sfs then ret (bvs2, true, fs) else ret (bvs2, false, (l, ct) :: cfs)
  end.
(** Types.sml 478-525: copyType with bns = [] (no type names to replace; then
    copyTyApp returns a type name that is not realised, 566-568): the new
    bvs, whether the copy is the type itself, the copy. *)
Fixpoint copyType (n : nat) (bvs : env) (t : ty) : U (env * bool * ty) :=
  match n with
  | O => loop
  | S n =>
      match t with
      | VARt v =>
          match lookup v bvs with
          | Some ct => ret (bvs, match ct with VARt v' => Nat.eqb v v' | _ => false end, ct)
          | None =>
              do c <- get_tv v;
              match tvKind c with
              | LinkTo t' =>
                  do '(bvs1, shared, t'') <- copyType n bvs t';
                  if (shared : bool) then ret ((v, t) :: bvs1, true, t) else ret ((v, t'') :: bvs1, false, t'')
              | _ => ret (bvs, true, t)
              end
          end
      | ARROWt a b =>
          do '(bvs1, sa, ca) <- copyType n bvs a;
          do '(bvs2, sb, cb) <- copyType n bvs1 b;
          if sa && sb then ret (bvs2, true, t) else ret (bvs2, false, ARROWt ca cb)
      | CONt ts tn =>
          do '(bvs1, sts, cts) <- copyTypeList (copyType n) bvs ts;
          if (sts : bool) then ret (bvs1, true, t) else ret (bvs1, false, CONt cts tn)
      | RECt r =>
          do c <- get_rec r;
          do '(bvs1, sf, cf) <- copyFields (copyType n) bvs (fields c);
          if (sf : bool) then ret (bvs1, true, t)
          else do r' <- new_rec (mkRec cf (rho c)); ret (bvs1, false, RECt r')
      end
  end.

(** Types.sml 1756-1765: specialization; [mapUE] is the map of 1762-1763. *)
Fixpoint mapUE (vp : bool) (bl : Z) (ps : list nat) : U env :=
  match ps with
  | [] => ret []
  | v :: ps' => do v' <- refreshTypeVar vp bl v; do ue <- mapUE vp bl ps'; ret ((v, VARt v') :: ue)
  end.
Definition specialization (n : nat) (vp : bool) (bl : Z) (sc : scheme) : U ty :=
  let '(ps, body) := sc in
  match ps with
  | [] => ret body
  | _ => do ue <- mapUE vp bl ps; do '(_, _, t) <- copyType n ue body; ret t
  end.

(** Types.sml 1561-1584: the function folded over the free variables. *)
Definition parameter (bl : Z) (isExpansive : bool) (v : nat) (ps : list nat) : U (list nat) :=
  do c <- get_tv v;
  if member v ps then ret ps
  else if tvLevel c <=? bl then ret ps
  else if tvOvl c then (setTvLevel v bl;; ret ps)
  else if tvImp c && isExpansive then
    (setTvLevel v bl;;
     (match tvKind c with Explicit => setTvKind v NoLink | _ => ret tt end);;
     ret ps)
  else ret (v :: ps).
(** Fnlib.sml 39-41: foldL. *)
Fixpoint foldL (f : nat -> list nat -> U (list nat)) (a : list nat) (l : list nat) : U (list nat) :=
  match l with
  | [] => ret a
  | x :: l' => do a' <- f x a; foldL f a' l'
  end.
(** Types.sml 1558-1588: generalization. *)
Definition generalization (n : nat) (bl : Z) (isExpansive : bool) (t : ty) : U scheme :=
  do '(_, fvs, _) <- freeVarsType n ([], [], []) t;
  do ps <- foldL (parameter bl isExpansive) [] fvs;
  ret (ps, t).
