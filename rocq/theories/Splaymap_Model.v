(** Model of src/mosmllib/Splaymap.sml.
    A dictionary DICT{cmpKey,root,nobj} is the pair of the
    reference [root] and the counter [nobj] (unbounded); [cmpKey] is passed to each operation.
    The values of the dictionaries in one store all have one type, so [map] and [transform] are
    restricted to functions that keep the type of values. *)
From Verif Require Import Base Splaytree_Model.

Section Splaymap.
Context {K V : Type} (cmpKey : K -> K -> comparison).
Notation tree := (splay_tree (K * V)).
Notation comp := (comp (K * V)).

(** Splaymap.sml 11-14 *)
Record dict := DICT { root : nat; nobj : Z }.
(** Splaymap.sml 18 *)
Definition cmpf (k : K) : K * V -> comparison := fun e => cmpKey (fst e) k.
(** Splaymap.sml 20 *)
Definition mkDict : comp dict := let! r <- new SplayNil; ret (DICT r 0).

(** Splaymap.sml 23-49 *)
Definition insert (d : dict) (key : K) (v : V) : comp dict :=
  let! t <- get (root d);
  match splay (cmpf key) t with
  | (_, SplayNil) => let! r <- new (SplayObj (key, v) SplayNil SplayNil); ret (DICT r 1)
  | (Eq, SplayObj value lft rgt) => let! r <- new (SplayObj (key, v) lft rgt); ret (DICT r (nobj d))
  | (Lt, SplayObj value lft rgt) =>
    let! r <- new (SplayObj (key, v) (SplayObj value lft SplayNil) rgt); ret (DICT r (nobj d + 1))
  | (Gt, SplayObj value lft rgt) =>
    let! r <- new (SplayObj (key, v) lft (SplayObj value SplayNil rgt)); ret (DICT r (nobj d + 1))
  end.
(** Splaymap.sml 52-56 *)
Definition find (d : dict) (key : K) : comp V :=
  let! t <- get (root d);
  match splay (cmpf key) t with
  | (_, SplayNil) => raise NotFound
  | (Eq, SplayObj value lft rgt) =>
    let! _ <- put (root d) (SplayObj value lft rgt); ret (snd value)
  | (_, r) => let! _ <- put (root d) r; raise NotFound
  end.
(** Splaymap.sml 59 *)
Definition peek (d : dict) (key : K) : comp (option V) := fun st =>
  match find d key st with
  | (Ret v, st') => (Ret (Some v), st')
  | (Raise NotFound, st') => (Ret None, st')
  | (Raise e, st') => (Raise e, st')
  | (UB, st') => (UB, st')
  | (Diverge, st') => (Diverge, st')
  end.
(** Splaymap.sml 62-69 *)
Definition remove (d : dict) (key : K) : comp (dict * V) :=
  let! t <- get (root d);
  match splay (cmpf key) t with
  | (_, SplayNil) => raise NotFound
  | (Eq, SplayObj value lft rgt) =>
    let! r <- new (join lft rgt); ret (DICT r (nobj d - 1), snd value)
  | (_, r) => let! _ <- put (root d) r; raise NotFound
  end.
(** Splaymap.sml 72 *)
Definition numItems (d : dict) : Z := nobj d.
(** Splaymap.sml 75-79 *)
Fixpoint list_apply (t : tree) (res : list (K * V)) : list (K * V) :=
  match t with
  | SplayNil => res
  | SplayObj value lft rgt => list_apply lft (value :: list_apply rgt res)
  end.
Definition listItems (d : dict) : comp (list (K * V)) := let! t <- get (root d); ret (list_apply t []).
(** Splaymap.sml 82-88; the function argument is a state transformer *)
Fixpoint app_apply {S} (af : K * V -> S -> S) (t : tree) (s : S) : S :=
  match t with
  | SplayNil => s
  | SplayObj value lft rgt => app_apply af rgt (af value (app_apply af lft s))
  end.
Definition app {S} (af : K * V -> S -> S) (d : dict) (s : S) : comp S :=
  let! t <- get (root d); ret (app_apply af t s).
(** Splaymap.sml 90-94 *)
Fixpoint revapp_apply {S} (af : K * V -> S -> S) (t : tree) (s : S) : S :=
  match t with
  | SplayNil => s
  | SplayObj value lft rgt => revapp_apply af lft (af value (revapp_apply af rgt s))
  end.
Definition revapp {S} (af : K * V -> S -> S) (d : dict) (s : S) : comp S :=
  let! t <- get (root d); ret (revapp_apply af t s).
(** Splaymap.sml 97-101 *)
Fixpoint foldr_apply {B} (abf : K -> V -> B -> B) (t : tree) (res : B) : B :=
  match t with
  | SplayNil => res
  | SplayObj value lft rgt => foldr_apply abf lft (abf (fst value) (snd value) (foldr_apply abf rgt res))
  end.
Definition foldr {B} (abf : K -> V -> B -> B) (b : B) (d : dict) : comp B :=
  let! t <- get (root d); ret (foldr_apply abf t b).
(** Splaymap.sml 103-107 *)
Fixpoint foldl_apply {B} (abf : K -> V -> B -> B) (t : tree) (res : B) : B :=
  match t with
  | SplayNil => res
  | SplayObj value lft rgt => foldl_apply abf rgt (abf (fst value) (snd value) (foldl_apply abf lft res))
  end.
Definition foldl {B} (abf : K -> V -> B -> B) (b : B) (d : dict) : comp B :=
  let! t <- get (root d); ret (foldl_apply abf t b).
(** Splaymap.sml 110-118 *)
Fixpoint map_ap (af : K * V -> V) (t : tree) : tree :=
  match t with
  | SplayNil => SplayNil
  | SplayObj value lft rgt =>
    let lft' := map_ap af lft in
    let value' := (fst value, af value) in
    SplayObj value' lft' (map_ap af rgt)
  end.
Definition map (af : K * V -> V) (d : dict) : comp dict :=
  let! t <- get (root d); let! r <- new (map_ap af t); ret (DICT r (nobj d)).
(** Splaymap.sml 120-129 *)
Fixpoint transform_ap (af : V -> V) (t : tree) : tree :=
  match t with
  | SplayNil => SplayNil
  | SplayObj value lft rgt =>
    let lft' := transform_ap af lft in
    let value' := (fst value, af (snd value)) in
    SplayObj value' lft' (transform_ap af rgt)
  end.
Definition transform (af : V -> V) (d : dict) : comp dict :=
  let! t <- get (root d); let! r <- new (transform_ap af t); ret (DICT r (nobj d)).
End Splaymap.
