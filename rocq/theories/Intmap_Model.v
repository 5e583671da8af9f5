(** Model of src/mosmllib/Intmap.sml.  The tree type (50-57) and its helpers N, single_L, single_R,
    double_L, double_R, T', min, delmin, delete' (63-131) are clause for clause those of
    Wbtree_Model.v at elements (key, value): that file is reused here, with Intmap's numItems
    (59-60) in the place of treeSize.  Keys are integers which are only compared, so their range
    does not matter; values are of any type. *)
From Verif Require Import Base Wbtree_Model.

Section Intmap.
Context {V : Type}.

(** Intmap.sml 49-57 *)
Definition intmap := tree (Z * V).
(** Intmap.sml 59-60 *)
Definition numItems (d : intmap) : Z := match d with E => 0 | T _ cnt _ _ => cnt end.
(** Intmap.sml 134 *)
Definition empty : intmap := E.
(** Intmap.sml 136-140 *)
Fixpoint insert (t : intmap) (x : Z) (v : V) : outcome intmap :=
  match t with
  | E => Ret (T (x, v) 1 E E)
  | T (key, value) cnt l r =>
    if key >? x then do l' <- insert l x v; T' (key, value) l' r
    else if key <? x then do r' <- insert r x v; T' (key, value) l r'
    else Ret (T (x, v) cnt l r)
  end.
(** Intmap.sml 142-148 *)
Fixpoint retrieve (t : intmap) (x : Z) : outcome V :=
  match t with
  | E => Raise NotFound
  | T (key, value) _ l r =>
    if x >? key then retrieve r x
    else if x <? key then retrieve l x
    else Ret value
  end.
(** Intmap.sml 150 *)
Definition peek (t : intmap) (x : Z) : outcome (option V) :=
  match retrieve t x with
  | Ret v => Ret (Some v)
  | Raise NotFound => Ret None
  | Raise e => Raise e
  | UB => UB
  | Diverge => Diverge
  end.
(** Intmap.sml 152-160 *)
Fixpoint remove (t : intmap) (x : Z) : outcome (intmap * V) :=
  match t with
  | E => Raise NotFound
  | T (key, value) _ l r =>
    if key >? x then do (l', v) <- remove l x; do t' <- T' (key, value) l' r; Ret (t', v)
    else if key <? x then do (r', v) <- remove r x; do t' <- T' (key, value) l r'; Ret (t', v)
    else do t' <- delete' l r; Ret (t', value)
  end.
(** Intmap.sml 162-166 *)
Fixpoint d2l (t : intmap) (res : list (Z * V)) : list (Z * V) :=
  match t with E => res | T (key, value) _ l r => d2l l ((key, value) :: d2l r res) end.
Definition listItems (d : intmap) : list (Z * V) := d2l d [].
(** Intmap.sml 168-171; the effect of [f] is a function on states *)
Fixpoint app {S} (f : Z -> V -> S -> S) (d : intmap) (s : S) : S :=
  match d with E => s | T (key, value) _ l r => app f r (f key value (app f l s)) end.
(** Intmap.sml 173-176 *)
Fixpoint revapp {S} (f : Z -> V -> S -> S) (d : intmap) (s : S) : S :=
  match d with E => s | T (key, value) _ l r => revapp f l (f key value (revapp f r s)) end.
(** Intmap.sml 178-181: [a d v] *)
Fixpoint foldr_a {B} (f : Z -> V -> B -> B) (d : intmap) (v : B) : B :=
  match d with E => v | T (key, value) _ l r => foldr_a f l (f key value (foldr_a f r v)) end.
Definition foldr {B} (f : Z -> V -> B -> B) (init : B) (d : intmap) : B := foldr_a f d init.
(** Intmap.sml 183-186: [a d v] *)
Fixpoint foldl_a {B} (f : Z -> V -> B -> B) (d : intmap) (v : B) : B :=
  match d with E => v | T (key, value) _ l r => foldl_a f r (f key value (foldl_a f l v)) end.
Definition foldl {B} (f : Z -> V -> B -> B) (init : B) (d : intmap) : B := foldl_a f d init.
End Intmap.
Arguments intmap : clear implicits.

(** Intmap.sml 188-196 *)
Fixpoint map {V W} (f : Z -> V -> W) (d : intmap V) : intmap W :=
  match d with
  | E => E
  | T (key, value) cnt l r => T (key, f key value) cnt (map f l) (map f r)
  end.
(** Intmap.sml 198-206 *)
Fixpoint transform {V W} (f : V -> W) (d : intmap V) : intmap W :=
  match d with
  | E => E
  | T (key, value) cnt l r => T (key, f value) cnt (transform f l) (transform f r)
  end.
