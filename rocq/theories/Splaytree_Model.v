(** Model of src/mosmllib/Splaytree.sml, and of the reference cells that hold the trees in
    Splaymap.sml and Splayset.sml. *)
From Verif Require Import Base.

(** Splaytree.sml 9-13 *)
Inductive splay_tree (A : Type) :=
| SplayObj (value : A) (lft rgt : splay_tree A)
| SplayNil.
Arguments SplayObj {A}.
Arguments SplayNil {A}.

(** Splaytree.sml 15; the constructors Eq, Lt, Gt are renamed *)
Inductive ans_t (A : Type) := No | AEq (a : A) | ALt (a : A) | AGt (a : A).
Arguments No {A}. Arguments AEq {A}. Arguments ALt {A}. Arguments AGt {A}.

Section Splay.
Context {A : Type}.
Notation tree := (splay_tree A).

(** Splaytree.sml 18-82 *)
Fixpoint adj (compf : A -> comparison) (t : tree) : ans_t A * tree * tree :=
  match t with
  | SplayNil => (No, SplayNil, SplayNil)
  | SplayObj value lft rgt =>
    match compf value with
    | Eq => (AEq value, lft, rgt)
    | Gt =>
      match lft with
      | SplayNil => (AGt value, SplayNil, rgt)
      | SplayObj value' lft' rgt' =>
        match compf value' with
        | Eq => (AEq value', lft', SplayObj value rgt' rgt)
        | Gt =>
          match lft' with
          | SplayNil => (AGt value', lft', SplayObj value rgt' rgt)
          | _ =>
            let '(V, L, R) := adj compf lft' in
            let rchild := SplayObj value rgt' rgt in
            (V, L, SplayObj value' R rchild)
          end
        | Lt =>
          match rgt' with
          | SplayNil => (ALt value', lft', SplayObj value rgt' rgt)
          | _ =>
            let '(V, L, R) := adj compf rgt' in
            let rchild := SplayObj value R rgt in
            let lchild := SplayObj value' lft' L in
            (V, lchild, rchild)
          end
        end
      end
    | Lt =>
      match rgt with
      | SplayNil => (ALt value, lft, SplayNil)
      | SplayObj value' lft' rgt' =>
        match compf value' with
        | Eq => (AEq value', SplayObj value lft lft', rgt')
        | Lt =>
          match rgt' with
          | SplayNil => (ALt value', SplayObj value lft lft', rgt')
          | _ =>
            let '(V, L, R) := adj compf rgt' in
            let lchild := SplayObj value lft lft' in
            (V, SplayObj value' lchild L, R)
          end
        | Gt =>
          match lft' with
          | SplayNil => (AGt value', SplayObj value lft lft', rgt')
          | _ =>
            let '(V, L, R) := adj compf lft' in
            let rchild := SplayObj value' R rgt' in
            let lchild := SplayObj value lft L in
            (V, lchild, rchild)
          end
        end
      end
    end
  end.

(** Splaytree.sml 17, 84-89 *)
Definition splay (compf : A -> comparison) (root : tree) : comparison * tree :=
  match adj compf root with
  | (No, _, _) => (Gt, SplayNil)
  | (AEq v, l, r) => (Eq, SplayObj v l r)
  | (ALt v, l, r) => (Lt, SplayObj v l r)
  | (AGt v, l, r) => (Gt, SplayObj v l r)
  end.

(** Splaytree.sml 91-96: [lrot value lft rgt] is lrotate (SplayObj{value,left,right}) *)
Fixpoint lrot (value : A) (lft rgt : tree) : tree :=
  match rgt with
  | SplayNil => SplayObj value lft rgt
  | SplayObj v l r => lrot v (SplayObj value lft l) r
  end.
Definition lrotate (t : tree) : tree :=
  match t with SplayNil => SplayNil | SplayObj value lft rgt => lrot value lft rgt end.

(** Splaytree.sml 98-104 *)
Definition join (l r : tree) : tree :=
  match l, r with
  | SplayNil, SplayNil => SplayNil
  | SplayNil, t => t
  | t, SplayNil => t
  | l, r =>
    match lrotate l with
    | SplayNil => r
    | SplayObj value lft rgt => SplayObj value lft r
    end
  end.
End Splay.

(** *** Reference cells

    A reference of type 'a splay ref is an index into a store, a list of trees.  Reading a cell
    that was never allocated (impossible in a typed program) is UB. *)
Definition store A := list (splay_tree A).
Definition deref {A} (st : store A) (r : nat) : outcome (splay_tree A) :=
  match nth_error st r with Some t => Ret t | None => UB end.
Fixpoint assign {A} (st : store A) (r : nat) (t : splay_tree A) : store A :=
  match st, r with
  | [], _ => []
  | _ :: st, O => t :: st
  | x :: st, S r => x :: assign st r t
  end.
(** ref t: the new cell and the new store *)
Definition newref {A} (st : store A) (t : splay_tree A) : nat * store A := (length st, st ++ [t]).

(** an SML expression of type B: its outcome and the store afterwards *)
Definition comp A B := store A -> outcome B * store A.
Definition ret {A B} (b : B) : comp A B := fun st => (Ret b, st).
Definition raise {A B} (e : exn) : comp A B := fun st => (Raise e, st).
Definition bindc {A B C} (m : comp A B) (k : B -> comp A C) : comp A C := fun st =>
  match m st with
  | (Ret b, st') => k b st'
  | (Raise e, st') => (Raise e, st')
  | (UB, st') => (UB, st')
  | (Diverge, st') => (Diverge, st')
  end.
Definition get {A} (r : nat) : comp A (splay_tree A) := fun st => (deref st r, st).
Definition put {A} (r : nat) (t : splay_tree A) : comp A unit := fun st => (Ret tt, assign st r t).
Definition new {A} (t : splay_tree A) : comp A nat := fun st => let '(r, st') := newref st t in (Ret r, st').
Notation "'let!' x <- m ; k" := (bindc m (fun x => k)) (at level 200, x name, m at level 100, k at level 200).
