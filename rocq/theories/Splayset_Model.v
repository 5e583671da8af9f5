(** Model of src/mosmllib/Splayset.sml.
    A set OS{cmpKey,root,nobj} is the pair of the reference [root] and the counter [nobj]
    (unbounded); [cmpKey] is passed to each operation. *)
From Verif Require Import Base Splaytree_Model.

Section Splayset.
Context {A : Type} (cmpKey : A -> A -> comparison).
Notation tree := (splay_tree A).
Notation comp := (comp A).

(** Splayset.sml 12-15 *)
Record set := OS { root : nat; nobj : Z }.
(** Splayset.sml 18 *)
Definition cmpf (k : A) : A -> comparison := fun k' => cmpKey k' k.
(** Splayset.sml 20 *)
Definition empty : comp set := let! r <- new SplayNil; ret (OS r 0).
(** Splayset.sml 22-25 *)
Definition singleton (v : A) : comp set := let! r <- new (SplayObj v SplayNil SplayNil); ret (OS r 1).
(** Splayset.sml 28-45 *)
Definition insert (v : A) (nt : Z * tree) : Z * tree :=
  let '(nobj, root) := nt in
  match splay (cmpf v) root with
  | (_, SplayNil) => (1, SplayObj v SplayNil SplayNil)
  | (Eq, SplayObj value lft rgt) => (nobj, SplayObj v lft rgt)
  | (Lt, SplayObj value lft rgt) => (nobj + 1, SplayObj v (SplayObj value lft SplayNil) rgt)
  | (Gt, SplayObj value lft rgt) => (nobj + 1, SplayObj v lft (SplayObj value SplayNil rgt))
  end.
(** Splayset.sml 48-52 *)
Definition add (s : set) (v : A) : comp set :=
  let! t <- get (root s);
  let '(cnt, t) := insert v (nobj s, t) in
  let! r <- new t; ret (OS r cnt).
(** Splayset.sml 55-57 *)
Definition addList (s : set) (l : list A) : comp set :=
  let! t <- get (root s);
  let '(cnt, t) := fold_left (fun nt v => insert v nt) l (nobj s, t) in
  let! r <- new t; ret (OS r cnt).
(** Splayset.sml 60-64 *)
Definition peek (s : set) (key : A) : comp (option A) :=
  let! t <- get (root s);
  match splay (cmpf key) t with
  | (_, SplayNil) => ret None
  | (Eq, SplayObj value lft rgt) =>
    let! _ <- put (root s) (SplayObj value lft rgt); ret (Some value)
  | (_, r) => let! _ <- put (root s) r; ret None
  end.
(** Splayset.sml 67, 70 *)
Definition member (s : set) (key : A) : comp bool :=
  let! r <- peek s key; match r with None => ret false | Some _ => ret true end.
Definition retrieve (s : set) (key : A) : comp A :=
  let! r <- peek s key; match r with None => raise NotFound | Some v => ret v end.
(** Splayset.sml 75-80 *)
Definition delete (s : set) (key : A) : comp set :=
  let! t <- get (root s);
  match splay (cmpf key) t with
  | (_, SplayNil) => raise NotFound
  | (Eq, SplayObj value lft rgt) => let! r <- new (join lft rgt); ret (OS r (nobj s - 1))
  | (_, r) => let! _ <- put (root s) r; raise NotFound
  end.
(** Splayset.sml 83, 85-86 *)
Definition numItems (s : set) : Z := nobj s.
Definition isEmpty (s : set) : bool := nobj s =? 0.
(** Splayset.sml 89-96 *)
Fixpoint mbr (x : A) (t : tree) : bool :=
  match t with
  | SplayNil => false
  | SplayObj value lft rgt =>
    match cmpKey x value with Lt => mbr x lft | Gt => mbr x rgt | _ => true end
  end.
(** Splayset.sml 99-111: isIn t, for the fixed tree t' *)
Fixpoint isIn (t' t : tree) : bool :=
  match t with
  | SplayNil => true
  | SplayObj value SplayNil SplayNil => mbr value t'
  | SplayObj value lft SplayNil => mbr value t' && isIn t' lft
  | SplayObj value SplayNil rgt => mbr value t' && isIn t' rgt
  | SplayObj value lft rgt => mbr value t' && (isIn t' lft && isIn t' rgt)
  end.
(** Splayset.sml 113-117 *)
Definition isSubset (s1 s2 : set) : comp bool :=
  if nobj s1 <=? nobj s2
  then let! t <- get (root s1); let! t' <- get (root s2); ret (isIn t' t)
  else ret false.
Definition equal (s1 s2 : set) : comp bool :=
  if nobj s1 =? nobj s2
  then let! t <- get (root s1); let! t' <- get (root s2); ret (isIn t' t)
  else ret false.
(** Splayset.sml 120-125 *)
Definition split (value : A) (s : tree) : option A * tree * tree :=
  match splay (cmpf value) s with
  | (_, SplayNil) => (None, SplayNil, SplayNil)
  | (Eq, SplayObj value lft rgt) => (Some value, lft, rgt)
  | (Lt, SplayObj value lft rgt) => (None, SplayObj value lft SplayNil, rgt)
  | (Gt, SplayObj value lft rgt) => (None, lft, SplayObj value SplayNil rgt)
  end.
(** Splayset.sml 130-141 *)
Fixpoint inter (s t2 : tree) {struct t2} : tree * Z :=
  match s, t2 with
  | SplayNil, _ => (SplayNil, 0)
  | _, SplayNil => (SplayNil, 0)
  | s, SplayObj value lft rgt =>
    match split value s with
    | (Some v, l, r) =>
      let '(l', lcnt) := inter l lft in
      let '(r', rcnt) := inter r rgt in
      (SplayObj v l' r', lcnt + rcnt + 1)
    | (_, l, r) =>
      let '(l', lcnt) := inter l lft in
      let '(r', rcnt) := inter r rgt in
      (join l' r', lcnt + rcnt)
    end
  end.
(** Splayset.sml 127-143 *)
Definition intersection (s1 s2 : set) : comp set :=
  if nobj s1 =? 0 then ret s1
  else if nobj s2 =? 0 then ret s2
  else let! t <- get (root s1); let! t' <- get (root s2);
       let '(t, cnt) := inter t t' in
       let! r <- new t; ret (OS r cnt).
(** Splayset.sml 145-148 *)
Fixpoint cnt (t : tree) (n : Z) : Z :=
  match t with SplayNil => n | SplayObj _ lft rgt => cnt lft (cnt rgt (n + 1)) end.
Definition count (t : tree) : Z := cnt t 0.
(** Splayset.sml 153-159 *)
Fixpoint diff (s t2 : tree) {struct t2} : tree * Z :=
  match s, t2 with
  | SplayNil, _ => (SplayNil, 0)
  | s, SplayNil => (s, count s)
  | s, SplayObj value lft rgt =>
    let '(_, l, r) := split value s in
    let '(l', lcnt) := diff l lft in
    let '(r', rcnt) := diff r rgt in
    (join l' r', lcnt + rcnt)
  end.
(** Splayset.sml 150-161 *)
Definition difference (s1 s2 : set) : comp set :=
  if nobj s1 =? 0 then ret s1
  else if nobj s2 =? 0 then ret s1
  else let! t <- get (root s1); let! t' <- get (root s2);
       let '(t, cnt) := diff t t' in
       let! r <- new t; ret (OS r cnt).
(** Splayset.sml 166-174 *)
Fixpoint uni (s t2 : tree) {struct t2} : tree * Z :=
  match s, t2 with
  | SplayNil, s => (s, count s)
  | s, SplayNil => (s, count s)
  | s, SplayObj value lft rgt =>
    let '(_, l, r) := split value s in
    let '(l', lcnt) := uni l lft in
    let '(r', rcnt) := uni r rgt in
    (SplayObj value l' r', lcnt + rcnt + 1)
  end.
(** Splayset.sml 163-178 *)
Definition union (s1 s2 : set) : comp set :=
  if nobj s1 =? 0 then ret s2
  else if nobj s2 =? 0 then ret s1
  else let! t <- get (root s1); let! t' <- get (root s2);
       let '(t, cnt) := uni t t' in
       let! r <- new t; ret (OS r cnt).
(** Splayset.sml 181-185 *)
Fixpoint list_apply (t : tree) (res : list A) : list A :=
  match t with
  | SplayNil => res
  | SplayObj value lft rgt => list_apply lft (value :: list_apply rgt res)
  end.
Definition listItems (s : set) : comp (list A) := let! t <- get (root s); ret (list_apply t []).
(** Splayset.sml 188-200; the function argument is a state transformer *)
Fixpoint app_apply {S} (af : A -> S -> S) (t : tree) (s : S) : S :=
  match t with
  | SplayNil => s
  | SplayObj value lft rgt => app_apply af rgt (af value (app_apply af lft s))
  end.
Definition app {S} (af : A -> S -> S) (d : set) (s : S) : comp S :=
  let! t <- get (root d); ret (app_apply af t s).
Fixpoint revapp_apply {S} (af : A -> S -> S) (t : tree) (s : S) : S :=
  match t with
  | SplayNil => s
  | SplayObj value lft rgt => revapp_apply af lft (af value (revapp_apply af rgt s))
  end.
Definition revapp {S} (af : A -> S -> S) (d : set) (s : S) : comp S :=
  let! t <- get (root d); ret (revapp_apply af t s).
(** Splayset.sml 203-213 *)
Fixpoint foldr_apply {B} (abf : A -> B -> B) (t : tree) (res : B) : B :=
  match t with
  | SplayNil => res
  | SplayObj value lft rgt => foldr_apply abf lft (abf value (foldr_apply abf rgt res))
  end.
Definition foldr {B} (abf : A -> B -> B) (b : B) (d : set) : comp B :=
  let! t <- get (root d); ret (foldr_apply abf t b).
Fixpoint foldl_apply {B} (abf : A -> B -> B) (t : tree) (res : B) : B :=
  match t with
  | SplayNil => res
  | SplayObj value lft rgt => foldl_apply abf rgt (abf value (foldl_apply abf lft res))
  end.
Definition foldl {B} (abf : A -> B -> B) (b : B) (d : set) : comp B :=
  let! t <- get (root d); ret (foldl_apply abf t b).
(** Splayset.sml 215-222 *)
Fixpoint ex (p : A -> bool) (t : tree) : option A :=
  match t with
  | SplayNil => None
  | SplayObj v l r =>
    if p v then Some v else match ex p l with None => ex p r | a => a end
  end.
Definition find (p : A -> bool) (d : set) : comp (option A) :=
  let! t <- get (root d); ret (ex p t).
End Splayset.
