(** Model of src/mosmllib/Binaryset.sml: sets on the trees of Wbtree_Model.v.
    A set SET(cmpKey, t) is the tree [t]; [cmpKey] is passed to each operation.
    old_union (251-258) is dead code and not modelled. *)
From Verif Require Import Base Wbtree_Model.

Section Binaryset.
Context {A : Type} (cmpKey : A -> A -> comparison).
Notation tree := (tree A).

(** Binaryset.sml 65 *)
Definition set := tree.
(** Binaryset.sml 76-79 *)
Definition numItems (s : set) : Z := treeSize s.
Definition isEmpty (s : set) : bool := match s with E => true | _ => false end.

(** Binaryset.sml 140-147 *)
Fixpoint addt (t : tree) (x : A) : outcome tree :=
  match t with
  | E => Ret (T x 1 E E)
  | T v cnt l r =>
    match cmpKey x v with
    | Lt => do l' <- addt l x; T' v l' r
    | Gt => do r' <- addt r x; T' v l r'
    | Eq => Ret (T x cnt l r)
    end
  end.

(** Binaryset.sml 149-156 *)
Fixpoint concat3 (l : tree) (v : A) : tree -> outcome tree :=
  match l with
  | E => fun r => addt r v
  | T v1 n1 l1 r1 =>
    fix aux (r : tree) : outcome tree :=
      match r with
      | E => addt l v
      | T v2 n2 l2 r2 =>
        if wt n1 <? n2 then do x <- aux l2; T' v2 x r2
        else if wt n2 <? n1 then do x <- concat3 r1 v r; T' v1 l1 x
        else Ret (N v l r)
      end
  end.

(** Binaryset.sml 158-163 *)
Fixpoint split_lt (t : tree) (x : A) : outcome tree :=
  match t with
  | E => Ret E
  | T v _ l r =>
    match cmpKey v x with
    | Gt => split_lt l x
    | Lt => do r' <- split_lt r x; concat3 l v r'
    | _ => Ret l
    end
  end.
(** Binaryset.sml 165-170 *)
Fixpoint split_gt (t : tree) (x : A) : outcome tree :=
  match t with
  | E => Ret E
  | T v _ l r =>
    match cmpKey v x with
    | Lt => split_gt r x
    | Gt => do l' <- split_gt l x; concat3 l' v r
    | _ => Ret r
    end
  end.

(** Binaryset.sml 184-190 *)
Fixpoint concat (t1 : tree) : tree -> outcome tree :=
  match t1 with
  | E => fun s => Ret s
  | T v1 n1 l1 r1 =>
    fix aux (t2 : tree) : outcome tree :=
      match t2 with
      | E => Ret t1
      | T v2 n2 l2 r2 =>
        if wt n1 <? n2 then do x <- aux l2; T' v2 x r2
        else if wt n2 <? n1 then do x <- concat r1 t2; T' v1 l1 x
        else do m <- min t2; do d <- delmin t2; T' m t1 d
      end
  end.

(** Binaryset.sml 196-200 *)
Fixpoint trim (lo hi : A) (s : tree) : tree :=
  match s with
  | E => E
  | T v _ l r =>
    match cmpKey v lo with
    | Gt => match cmpKey v hi with Lt => s | _ => trim lo hi l end
    | _ => trim lo hi r
    end
  end.
(** Binaryset.sml 202-208 *)
Fixpoint uni_bd (s1 s2 : tree) (lo hi : A) : outcome tree :=
  match s1, s2 with
  | s, E => Ret s
  | E, T v _ l r => do a <- split_gt l lo; do b <- split_lt r hi; concat3 a v b
  | T v _ l1 r1, T _ _ _ _ =>
    do a <- uni_bd l1 (trim lo v s2) lo v;
    do b <- uni_bd r1 (trim v hi s2) v hi;
    concat3 a v b
  end.
(** Binaryset.sml 216-220 *)
Fixpoint trim_lo (lo : A) (s : tree) : tree :=
  match s with
  | E => E
  | T v _ _ r => match cmpKey v lo with Gt => s | _ => trim_lo lo r end
  end.
(** Binaryset.sml 222-226 *)
Fixpoint trim_hi (hi : A) (s : tree) : tree :=
  match s with
  | E => E
  | T v _ l _ => match cmpKey v hi with Lt => s | _ => trim_hi hi l end
  end.
(** Binaryset.sml 228-234 *)
Fixpoint uni_hi (s1 s2 : tree) (hi : A) : outcome tree :=
  match s1, s2 with
  | s, E => Ret s
  | E, T v _ l r => do b <- split_lt r hi; concat3 l v b
  | T v _ l1 r1, T _ _ _ _ =>
    do a <- uni_hi l1 (trim_hi v s2) v;
    do b <- uni_bd r1 (trim v hi s2) v hi;
    concat3 a v b
  end.
(** Binaryset.sml 236-242 *)
Fixpoint uni_lo (s1 s2 : tree) (lo : A) : outcome tree :=
  match s1, s2 with
  | s, E => Ret s
  | E, T v _ l r => do a <- split_gt l lo; concat3 a v r
  | T v _ l1 r1, T _ _ _ _ =>
    do a <- uni_bd l1 (trim lo v s2) lo v;
    do b <- uni_lo r1 (trim_lo v s2) v;
    concat3 a v b
  end.
(** Binaryset.sml 192-195, 243-246 *)
Definition hedge_union (s1 s2 : tree) : outcome tree :=
  match s1, s2 with
  | s, E => Ret s
  | E, s => Ret s
  | T v _ l1 r1, T _ _ _ _ =>
    do a <- uni_hi l1 (trim_hi v s2) v;
    do b <- uni_lo r1 (trim_lo v s2) v;
    concat3 a v b
  end.

(** Binaryset.sml 262-264 *)
Definition empty : set := E.
Definition singleton (x : A) : set := T x 1 E E.
(** Binaryset.sml 266-267 *)
Definition addList (t : set) (l : list A) : outcome set :=
  fold_left (fun s i => do s <- s; addt s i) l (Ret t).
(** Binaryset.sml 269 *)
Definition add (t : set) (x : A) : outcome set := addt t x.
(** Binaryset.sml 271-278, 283 *)
Fixpoint peekt (t : tree) (x : A) : option A :=
  match t with
  | E => None
  | T v _ l r =>
    match cmpKey x v with
    | Lt => peekt l x
    | Gt => peekt r x
    | _ => Some v
    end
  end.
Definition peek (t : set) (x : A) : option A := peekt t x.
(** Binaryset.sml 280-281, 284 *)
Definition membert (t : tree) (x : A) : bool := match peekt t x with None => false | _ => true end.
Definition member (t : set) (x : A) : bool := match peek t x with None => false | _ => true end.
(** Binaryset.sml 288-298: isIn *)
Fixpoint isIn (t' t : tree) : bool :=
  match t with
  | E => true
  | T elt _ E E => membert t' elt
  | T elt _ l E => membert t' elt && isIn t' l
  | T elt _ E r => membert t' elt && isIn t' r
  | T elt _ l r => membert t' elt && (isIn t' l && isIn t' r)
  end.
(** Binaryset.sml 300-304 *)
Definition isSubset (s1 s2 : set) : bool :=
  match s1, s2 with
  | E, _ => true
  | _, E => false
  | T _ n _ _, T _ n' _ _ => (n <=? n') && isIn s2 s1
  end.
(** Binaryset.sml 306-310 *)
Definition equal (s1 s2 : set) : bool :=
  match s1, s2 with
  | E, E => true
  | T _ n _ _, T _ n' _ _ => (n =? n') && isIn s2 s1
  | _, _ => false
  end.
(** Binaryset.sml 313-314 *)
Definition retrieve (s : set) (x : A) : outcome A :=
  match peek s x with None => Raise NotFound | Some v => Ret v end.
(** Binaryset.sml 316-323 *)
Fixpoint delete (t : set) (x : A) : outcome set :=
  match t with
  | E => Raise NotFound
  | T v _ l r =>
    match cmpKey x v with
    | Lt => do l' <- delete l x; T' v l' r
    | Gt => do r' <- delete r x; T' v l r'
    | _ => delete' l r
    end
  end.
(** Binaryset.sml 325-326 *)
Definition union (s1 s2 : set) : outcome set := hedge_union s1 s2.
(** Binaryset.sml 328-339 *)
Fixpoint intersection (t t2 : set) {struct t2} : outcome set :=
  match t, t2 with
  | E, _ => Ret E
  | _, E => Ret E
  | T _ _ _ _, T v _ l r =>
    do l2 <- split_lt t v;
    do r2 <- split_gt t v;
    match peekt t v with
    | None => do a <- intersection l2 l; do b <- intersection r2 r; concat a b
    | _ => do a <- intersection l2 l; do b <- intersection r2 r; concat3 a v b
    end
  end.
(** Binaryset.sml 341-350 *)
Fixpoint difference (s t2 : set) {struct t2} : outcome set :=
  match s, t2 with
  | E, _ => Ret E
  | s, E => Ret s
  | T _ _ _ _, T v _ l r =>
    do l2 <- split_lt s v;
    do r2 <- split_gt s v;
    do a <- difference l2 l; do b <- difference r2 r; concat a b
  end.
(** Binaryset.sml 352-376 *)
Definition foldr {B} (f : A -> B -> B) (b : B) (s : set) : B := foldrt f s b.
Definition foldl {B} (f : A -> B -> B) (b : B) (s : set) : B := foldlt f s b.
Definition listItems (s : set) : list A := foldr cons [] s.
Definition revapp {S} (f : A -> S -> S) (s : set) (st : S) : S := revapply f s st.
Definition app {S} (f : A -> S -> S) (s : set) (st : S) : S := apply f s st.
(** Binaryset.sml 378-385 *)
Fixpoint find (p : A -> bool) (t : set) : option A :=
  match t with
  | E => None
  | T elt _ l r =>
    if p elt then Some elt
    else match find p l with
         | None => find p r
         | a => a
         end
  end.
End Binaryset.
Arguments set : clear implicits.
