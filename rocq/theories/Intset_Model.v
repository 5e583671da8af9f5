(** Model of src/mosmllib/Intset.sml.  The tree type (67), size (69-70) and the helpers N, single_L,
    single_R, double_L, double_R, T', min, delmin, delete' (73-119, 148-158) are clause for clause
    those of Wbtree_Model.v, which is reused.  Items are integers which are only compared, so their
    range does not matter. *)
From Verif Require Import Base Wbtree_Model.

Notation itree := (tree Z).
(** Intset.sml 67, 167 *)
Definition intset := itree.

(** Intset.sml 121-127 *)
Fixpoint addt (t : itree) (x : Z) : outcome itree :=
  match t with
  | E => Ret (T x 1 E E)
  | T v _ l r =>
    if x <? v then do l' <- addt l x; T' v l' r
    else if x >? v then do r' <- addt r x; T' v l r'
    else Ret t
  end.
(** Intset.sml 129-134 *)
Fixpoint concat3 (l : itree) (v : Z) : itree -> outcome itree :=
  match l with
  | E => fun r => addt r v
  | T v1 n1 l1 r1 =>
    fix aux (r : itree) : outcome itree :=
      match r with
      | E => addt l v
      | T v2 n2 l2 r2 =>
        if wt n1 <? n2 then do x <- aux l2; T' v2 x r2
        else if wt n2 <? n1 then do x <- concat3 r1 v r; T' v1 l1 x
        else Ret (N v l r)
      end
  end.
(** Intset.sml 136-140 *)
Fixpoint split_lt (t : itree) (x : Z) : outcome itree :=
  match t with
  | E => Ret E
  | T v _ l r =>
    if v >? x then split_lt l x
    else if v <? x then do r' <- split_lt r x; concat3 l v r'
    else Ret l
  end.
(** Intset.sml 142-146 *)
Fixpoint split_gt (t : itree) (x : Z) : outcome itree :=
  match t with
  | E => Ret E
  | T v _ l r =>
    if v <? x then split_gt r x
    else if v >? x then do l' <- split_gt l x; concat3 l' v r
    else Ret r
  end.
(** Intset.sml 160-165 *)
Fixpoint concat (t1 : itree) : itree -> outcome itree :=
  match t1 with
  | E => fun s => Ret s
  | T v1 n1 l1 r1 =>
    fix aux (t2 : itree) : outcome itree :=
      match t2 with
      | E => Ret t1
      | T v2 n2 l2 r2 =>
        if wt n1 <? n2 then do x <- aux l2; T' v2 x r2
        else if wt n2 <? n1 then do x <- concat r1 t2; T' v1 l1 x
        else do m <- min t2; do d <- delmin t2; T' m t1 d
      end
  end.
(** Intset.sml 171-173 *)
Definition empty : intset := E.
Definition singleton (x : Z) : intset := T x 1 E E.
(** Intset.sml 176-180 *)
Fixpoint trim (lo hi : Z) (s : itree) : itree :=
  match s with
  | E => E
  | T v _ l r =>
    if v <=? lo then trim lo hi r
    else if v >=? hi then trim lo hi l
    else s
  end.
(** Intset.sml 182-188 *)
Fixpoint uni_bd (s1 s2 : itree) (lo hi : Z) : outcome itree :=
  match s1, s2 with
  | s, E => Ret s
  | E, T v _ l r => do a <- split_gt l lo; do b <- split_lt r hi; concat3 a v b
  | T v _ l1 r1, T _ _ _ _ =>
    do a <- uni_bd l1 (trim lo v s2) lo v;
    do b <- uni_bd r1 (trim v hi s2) v hi;
    concat3 a v b
  end.
(** Intset.sml 195-197 *)
Fixpoint trim_lo (lo : Z) (s : itree) : itree :=
  match s with
  | E => E
  | T v _ _ r => if v <=? lo then trim_lo lo r else s
  end.
(** Intset.sml 198-200 *)
Fixpoint trim_hi (hi : Z) (s : itree) : itree :=
  match s with
  | E => E
  | T v _ l _ => if v >=? hi then trim_hi hi l else s
  end.
(** Intset.sml 202-208 *)
Fixpoint uni_hi (s1 s2 : itree) (hi : Z) : outcome itree :=
  match s1, s2 with
  | s, E => Ret s
  | E, T v _ l r => do b <- split_lt r hi; concat3 l v b
  | T v _ l1 r1, T _ _ _ _ =>
    do a <- uni_hi l1 (trim_hi v s2) v;
    do b <- uni_bd r1 (trim v hi s2) v hi;
    concat3 a v b
  end.
(** Intset.sml 210-216 *)
Fixpoint uni_lo (s1 s2 : itree) (lo : Z) : outcome itree :=
  match s1, s2 with
  | s, E => Ret s
  | E, T v _ l r => do a <- split_gt l lo; concat3 a v r
  | T v _ l1 r1, T _ _ _ _ =>
    do a <- uni_bd l1 (trim lo v s2) lo v;
    do b <- uni_lo r1 (trim_lo v s2) v;
    concat3 a v b
  end.
(** Intset.sml 218-226 *)
Definition union (s1 s2 : intset) : outcome intset :=
  match s1, s2 with
  | s, E => Ret s
  | E, s => Ret s
  | T v _ l1 r1, T _ _ _ _ =>
    do a <- uni_hi l1 (trim_hi v s2) v;
    do b <- uni_lo r1 (trim_lo v s2) v;
    concat3 a v b
  end.
(** Intset.sml 228 *)
Definition addList (t : intset) (l : list Z) : outcome intset :=
  fold_left (fun s i => do s <- s; addt s i) l (Ret t).
(** Intset.sml 230 *)
Definition add (t : intset) (i : Z) : outcome intset := addt t i.
(** Intset.sml 232-239 *)
Fixpoint difference (s t2 : intset) {struct t2} : outcome intset :=
  match s, t2 with
  | E, _ => Ret E
  | s, E => Ret s
  | T _ _ _ _, T v _ l r =>
    do l2 <- split_lt s v;
    do r2 <- split_gt s v;
    do a <- difference l2 l; do b <- difference r2 r; concat a b
  end.
(** Intset.sml 241-247 *)
Fixpoint membert (t : itree) (x : Z) : bool :=
  match t with
  | E => false
  | T v _ l r => if x <? v then membert l x else if x >? v then membert r x else true
  end.
Definition member (t : intset) (x : Z) : bool := membert t x.
(** Intset.sml 251-261 *)
Fixpoint intersection (s t2 : intset) {struct t2} : outcome intset :=
  match s, t2 with
  | E, _ => Ret E
  | _, E => Ret E
  | T _ _ _ _, T v _ l r =>
    do l2 <- split_lt s v;
    do r2 <- split_gt s v;
    if membert s v then do a <- intersection l2 l; do b <- intersection r2 r; concat3 a v b
    else do a <- intersection l2 l; do b <- intersection r2 r; concat a b
  end.
(** Intset.sml 263-267 *)
Definition numItems (s : intset) : Z := match s with E => 0 | T _ n _ _ => n end.
Definition isEmpty (s : intset) : bool := match s with E => true | _ => false end.
(** Intset.sml 269-273 *)
Fixpoint delete (t : intset) (x : Z) : outcome intset :=
  match t with
  | E => Raise NotFound
  | T v _ l r =>
    if x <? v then do l' <- delete l x; T' v l' r
    else if x >? v then do r' <- delete r x; T' v l r'
    else delete' l r
  end.
(** Intset.sml 275-278 *)
Fixpoint foldr {B} (f : Z -> B -> B) (base : B) (t : intset) : B :=
  match t with E => base | T v _ l r => foldr f (f v (foldr f base r)) l end.
(** Intset.sml 280-283 *)
Fixpoint foldl {B} (f : Z -> B -> B) (base : B) (t : intset) : B :=
  match t with E => base | T v _ l r => foldl f (f v (foldl f base l)) r end.
(** Intset.sml 285-288; the effect of [f] is a function on states *)
Fixpoint app {S} (f : Z -> S -> S) (t : intset) (s : S) : S :=
  match t with E => s | T v _ l r => app f r (f v (app f l s)) end.
(** Intset.sml 290-293 *)
Fixpoint revapp {S} (f : Z -> S -> S) (t : intset) (s : S) : S :=
  match t with E => s | T v _ l r => revapp f l (f v (revapp f r s)) end.
(** Intset.sml 297-309: isIn *)
Fixpoint treeIn (t t' : itree) : bool :=
  match t with
  | E => true
  | T v _ E E => membert t' v
  | T v _ l E => membert t' v && treeIn l t'
  | T v _ E r => membert t' v && treeIn r t'
  | T v _ l r => membert t' v && (treeIn l t' && treeIn r t')
  end.
(** Intset.sml 311-314 *)
Definition isSubset (s1 s2 : intset) : bool :=
  match s1, s2 with
  | E, _ => true
  | _, E => false
  | T _ n _ _, T _ n' _ _ => (n <=? n') && treeIn s1 s2
  end.
(** Intset.sml 316-319 *)
Definition equal (s1 s2 : intset) : bool :=
  match s1, s2 with
  | E, E => true
  | T _ n _ _, T _ n' _ _ => (n =? n') && treeIn s1 s2
  | _, _ => false
  end.
(** Intset.sml 322-329 *)
Fixpoint find (p : Z -> bool) (t : intset) : option Z :=
  match t with
  | E => None
  | T v _ l r =>
    if p v then Some v
    else match find p l with
         | None => find p r
         | a => a
         end
  end.
(** Intset.sml 331 *)
Definition listItems (s : intset) : list Z := foldr cons [] s.
