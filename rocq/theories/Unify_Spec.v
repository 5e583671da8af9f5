(** * What a unified pair of types has to mean

    A heap of type cells is a set of constraints on the types its variables,
    records and rows stand for.  A finite type is a tree; a valuation gives each
    cell a tree (a type variable, a record) or a set of labelled trees (a row,
    the fields a record has besides those written in its node).

    A tree [TRig v ...] is an explicit type variable ['a], which stands only for
    itself; it carries its attributes. *)

From Coq Require Import ZArith List Bool Permutation Sorted.
From Verif Require Import Unify_Model.
Import ListNotations.
Open Scope Z_scope.

Inductive tree :=
| TArrow (a b : tree)
| TCon (ts : list tree) (tn : nat)
| TRec (fs : list (lab * tree))
| TRig (v : nat) (equ imp ovl : bool) (level : Z).

Definition row := list (lab * tree).

(** Labels in increasing order, each at most once. *)
Definition sorted {A} (l : list (lab * A)) : Prop :=
  StronglySorted (fun a b => lt_lab (fst a) (fst b) = true) l.

Definition labels {A} (l : list (lab * A)) : list lab := map fst l.

(** [l] has the fields [fs] and those of [m], and no label twice. *)
Definition Join (fs m l : row) : Prop := sorted l /\ Permutation (fs ++ m) l.

Record val := mkVal { dv : nat -> tree; dr : nat -> row; dw : nat -> row }.

Fixpoint den (p : val) (t : ty) : tree :=
  match t with
  | VARt v => dv p v
  | ARROWt a b => TArrow (den p a) (den p b)
  | CONt ts tn => TCon (map (den p) ts) tn
  | RECt r => TRec (dr p r)
  end.

Definition denf (p : val) (fs : list (lab * ty)) : row :=
  map (fun lt => (fst lt, den p (snd lt))) fs.

(** ** Attributes *)

(** The type names and the explicit type variables in a tree all satisfy the
    given conditions. *)
Fixpoint alln (pc : nat -> Prop) (pr : bool -> Z -> Prop) (t : tree) : Prop :=
  match t with
  | TArrow a b => alln pc pr a /\ alln pc pr b
  | TCon ts tn =>
      pc tn /\ (fix go ts := match ts with [] => True | t :: ts' => alln pc pr t /\ go ts' end) ts
  | TRec fs =>
      (fix go fs := match fs with [] => True | (_, t) :: fs' => alln pc pr t /\ go fs' end) fs
  | TRig _ _ imp _ level => pr imp level
  end.

(** No type name and no explicit type variable bound deeper than level [l]
    occurs in the tree: it makes sense outside that binding level. *)
Definition lev_ok (G : nat -> tninfo) (l : Z) : tree -> Prop :=
  alln (fun tn => tnLevel (G tn) <= l) (fun _ level => level <= l).

(** Every explicit type variable in the tree is imperative. *)
Definition imp_ok : tree -> Prop := alln (fun _ => True) (fun imp _ => imp = true).

(** The type admits equality (Definition of Standard ML, section 4.4). *)
Fixpoint eq_ok (G : nat -> tninfo) (t : tree) : Prop :=
  match t with
  | TArrow _ _ => False
  | TCon ts tn =>
      match tnEqu (G tn) with
      | FALSEequ => False
      | TRUEequ => (fix go ts := match ts with [] => True | t :: ts' => eq_ok G t /\ go ts' end) ts
      | REFequ => True
      end
  | TRec fs =>
      (fix go fs := match fs with [] => True | (_, t) :: fs' => eq_ok G t /\ go fs' end) fs
  | TRig _ equ _ _ _ => equ = true
  end.

(** An overloaded variable may not become an explicit variable that is not
    overloaded (what other types it may become is settled later, in Ovlres). *)
Definition ovl_ok (t : tree) : Prop :=
  match t with TRig _ _ _ ovl _ => ovl = true | _ => True end.

Definition attr_ok (G : nat -> tninfo) (vp equ imp : bool) (level : Z) (t : tree) : Prop :=
  lev_ok G level t /\
  (equ = true -> eq_ok G t) /\
  (imp = true -> vp = false -> imp_ok t).

(** ** Constraints

    [L w] is the set of labels row [w] may not have, since the record it
    completes has them already. *)

Definition tv_sat (G : nat -> tninfo) (vp : bool) (p : val) (v : nat) (c : tvrec) : Prop :=
  match tvKind c with
  | LinkTo t => dv p v = den p t
  | Explicit => dv p v = TRig v (tvEqu c) (tvImp c) (tvOvl c) (tvLevel c)
  | NoLink =>
      attr_ok G vp (tvEqu c) (tvImp c) (tvLevel c) (dv p v) /\
      (tvOvl c = true -> ovl_ok (dv p v))
  end.

Definition row_sat (G : nat -> tninfo) (vp : bool) (L : nat -> list lab) (p : val)
    (w : nat) (k : rowkind) : Prop :=
  match k with
  | NILrow => dw p w = []
  | LINKrow w' => dw p w = dw p w'
  | FIELDrow l t w' => Join [(l, den p t)] (dw p w') (dw p w)
  | VARrow equ imp level =>
      sorted (dw p w) /\
      (forall l, In l (labels (dw p w)) -> ~ In l (L w)) /\
      (forall l t, In (l, t) (dw p w) -> attr_ok G vp equ imp level t)
  end.

Definition rec_sat (p : val) (r : nat) (c : recrec) : Prop :=
  Join (denf p (fields c)) (dw p (rho c)) (dr p r).

(** The valuation meets every constraint of the heap. *)
Definition sat (G : nat -> tninfo) (vp : bool) (L : nat -> list lab) (h : heap) (p : val) : Prop :=
  (forall v c, nth_error (vs h) v = Some c -> tv_sat G vp p v c) /\
  (forall r c, nth_error (rs h) r = Some c -> rec_sat p r c) /\
  (forall w k, nth_error (ws h) w = Some k -> row_sat G vp L p w k).

(** Two valuations give the cells of a heap the same meaning. *)
Definition agree (h : heap) (p p' : val) : Prop :=
  (forall v, (v < length (vs h))%nat -> dv p v = dv p' v) /\
  (forall r, (r < length (rs h))%nat -> dr p r = dr p' r) /\
  (forall w, (w < length (ws h))%nat -> dw p w = dw p' w).

(** ** Well-formed heaps *)

(** Addresses exist; type constructors have as many arguments as their arity. *)
Fixpoint wf_ty (G : nat -> tninfo) (h : heap) (t : ty) : Prop :=
  match t with
  | VARt v => (v < length (vs h))%nat
  | ARROWt a b => wf_ty G h a /\ wf_ty G h b
  | CONt ts tn =>
      length ts = tnArity (G tn) /\
      (fix go ts := match ts with [] => True | t :: ts' => wf_ty G h t /\ go ts' end) ts
  | RECt r => (r < length (rs h))%nat
  end.

Definition same_set (a b : list lab) : Prop := forall l, In l a <-> In l b.

(** Links between variables, and between rows, do not form circles. *)
Definition vlink (h : heap) (y x : nat) : Prop :=
  exists c, nth_error (vs h) x = Some c /\ tvKind c = LinkTo (VARt y).
Definition wlink (h : heap) (y x : nat) : Prop :=
  nth_error (ws h) x = Some (LINKrow y).

Record wf (G : nat -> tninfo) (L : nat -> list lab) (h : heap) : Prop := mkWf
  { wf_link : forall v c t, nth_error (vs h) v = Some c -> tvKind c = LinkTo t -> wf_ty G h t;
    wf_fields : forall r c l t, nth_error (rs h) r = Some c -> In (l, t) (fields c) -> wf_ty G h t;
    wf_sorted : forall r c, nth_error (rs h) r = Some c -> sorted (fields c);
    wf_rho : forall r c, nth_error (rs h) r = Some c -> (rho c < length (ws h))%nat;
    wf_taken : forall r c, nth_error (rs h) r = Some c -> same_set (L (rho c)) (labels (fields c));
    wf_LINKrow : forall w w', nth_error (ws h) w = Some (LINKrow w') ->
                   (w' < length (ws h))%nat /\ same_set (L w') (L w);
    wf_FIELDrow : forall w l t w', nth_error (ws h) w = Some (FIELDrow l t w') ->
                   (w' < length (ws h))%nat /\ wf_ty G h t /\ ~ In l (L w) /\ same_set (L w') (l :: L w);
    wf_vacc : forall v, Acc (vlink h) v;
    wf_wacc : forall w, Acc (wlink h) w }.

(** A heap the type checker may be in: well formed, and its cells stand for
    finite types, so none of its types is circular. *)
Definition consistent (G : nat -> tninfo) (vp : bool) (L : nat -> list lab) (h : heap) : Prop :=
  wf G L h /\ exists p, sat G vp L h p.
