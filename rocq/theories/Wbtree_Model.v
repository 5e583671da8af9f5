(** Model of the weight balanced trees shared by src/mosmllib/Binarymap.sml (elements are
    (key, value) pairs) and src/mosmllib/Binaryset.sml (elements are items).  The two files contain
    the same functions; Binarymap keeps key and value in two record fields where this model keeps
    one element.  The counters are unbounded integers (2^62 nodes do not fit in memory, so the
    SML additions cannot overflow). *)
From Verif Require Import Base.

Section Wbtree.
Context {A : Type}.

(** Binarymap.sml 50-56, Binaryset.sml 66-71; fields elt, cnt, left, right *)
Inductive tree := E | T (elt : A) (cnt : Z) (lft rgt : tree).

(** Binarymap.sml 58-59, Binaryset.sml 73-74 *)
Definition treeSize (t : tree) : Z := match t with E => 0 | T _ cnt _ _ => cnt end.

(** Binarymap.sml 64-68, Binaryset.sml 84-87 *)
Definition N (v : A) (l r : tree) : tree :=
  match l, r with
  | E, E => T v 1 E E
  | E, T _ n _ _ => T v (1 + n) E r
  | T _ n _ _, E => T v (1 + n) l E
  | T _ n _ _, T _ n' _ _ => T v (1 + n + n') l r
  end.

(** Binarymap.sml 70-84, Binaryset.sml 89-98 *)
Definition single_L (a : A) (x t : tree) : outcome tree :=
  match t with
  | T b _ y z => Ret (N b (N a x y) z)
  | _ => Raise MatchExn
  end.
Definition single_R (b : A) (t z : tree) : outcome tree :=
  match t with
  | T a _ x y => Ret (N a x (N b y z))
  | _ => Raise MatchExn
  end.
Definition double_L (a : A) (w t : tree) : outcome tree :=
  match t with
  | T c _ (T b _ x y) z => Ret (N b (N a w x) (N c y z))
  | _ => Raise MatchExn
  end.
Definition double_R (c : A) (t z : tree) : outcome tree :=
  match t with
  | T a _ w (T b _ x y) => Ret (N b (N a w x) (N c y z))
  | _ => Raise MatchExn
  end.

(** Binarymap.sml 46, Binaryset.sml 104 *)
Definition wt (i : Z) : Z := 3 * i.

(** Binarymap.sml 86-120, Binaryset.sml 106-138 *)
Definition T' (v : A) (l r : tree) : outcome tree :=
  match l, r with
  | E, E => Ret (T v 1 E E)
  | E, T _ _ E E => Ret (T v 2 E r)
  | T _ _ E E, E => Ret (T v 2 l E)
  | E, T _ _ (T _ _ _ _) E => double_L v l r
  | T _ _ E (T _ _ _ _), E => double_R v l r
  | E, T _ _ (T _ ln _ _) (T _ rn _ _) => if ln <? rn then single_L v l r else double_L v l r
  | T _ _ (T _ ln _ _) (T _ rn _ _), E => if ln >? rn then single_R v l r else double_R v l r
  | E, T _ _ E _ => single_L v l r
  | T _ _ _ E, E => single_R v l r
  | T _ ln ll lr, T _ rn rl rr =>
    if rn >=? wt ln then
      if treeSize rl <? treeSize rr then single_L v l r else double_L v l r
    else if ln >=? wt rn then
      if treeSize lr <? treeSize ll then single_R v l r else double_R v l r
    else Ret (T v (ln + rn + 1) l r)
  end.

(** Binarymap.sml 123-125, Binaryset.sml 172-174 *)
Fixpoint min (t : tree) : outcome A :=
  match t with
  | T v _ E _ => Ret v
  | T _ _ l _ => min l
  | E => Raise MatchExn
  end.
(** Binarymap.sml 127-130, Binaryset.sml 176-178 *)
Fixpoint delmin (t : tree) : outcome tree :=
  match t with
  | T _ _ E r => Ret r
  | T v _ l r => do l' <- delmin l; T' v l' r
  | E => Raise MatchExn
  end.
(** Binarymap.sml 132-135, Binaryset.sml 180-182 *)
Definition delete' (l r : tree) : outcome tree :=
  match l, r with
  | E, r => Ret r
  | l, E => Ret l
  | l, r => do m <- min r; do r' <- delmin r; T' m l r'
  end.

(** Binarymap.sml 173-177, Binaryset.sml 364 via 352-356 *)
Fixpoint d2l (t : tree) (res : list A) : list A :=
  match t with
  | E => res
  | T v _ l r => d2l l (v :: d2l r res)
  end.
(** Binarymap.sml 179-182, Binaryset.sml 366-370; the effect of [f] is a function on states *)
Fixpoint revapply {S} (f : A -> S -> S) (t : tree) (s : S) : S :=
  match t with
  | E => s
  | T v _ l r => revapply f l (f v (revapply f r s))
  end.
(** Binarymap.sml 184-187, Binaryset.sml 372-376 *)
Fixpoint apply {S} (f : A -> S -> S) (t : tree) (s : S) : S :=
  match t with
  | E => s
  | T v _ l r => apply f r (f v (apply f l s))
  end.
(** Binarymap.sml 189-192, Binaryset.sml 352-356 *)
Fixpoint foldrt {B} (f : A -> B -> B) (t : tree) (v : B) : B :=
  match t with
  | E => v
  | T x _ l r => foldrt f l (f x (foldrt f r v))
  end.
(** Binarymap.sml 194-197, Binaryset.sml 358-362 *)
Fixpoint foldlt {B} (f : A -> B -> B) (t : tree) (v : B) : B :=
  match t with
  | E => v
  | T x _ l r => foldlt f r (f x (foldlt f l v))
  end.
End Wbtree.
Arguments tree : clear implicits.
