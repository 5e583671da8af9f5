(** Model of src/mosmllib/Redblackmap.sml.
    Simplifications: the user's functions (compare, f) are pure and total; the item count is an
    unbounded integer (a tree with 2^62 nodes does not fit in a 64-bit address space, so the
    Overflow check of n+1 is unreachable). *)
From Verif Require Import Base.

Section Redblackmap.
Context {K V : Type}.

(** Redblackmap.sml 7-10: datatype tree *)
Inductive tree : Type :=
| LEAF
| RED (k : K) (x : V) (l r : tree)
| BLACK (k : K) (x : V) (l r : tree).

(** Redblackmap.sml 12: type dict (the comparison function is a parameter here) *)
Definition dict : Type := (tree * Z)%type.

(** Redblackmap.sml 16 *)
Definition mkDict : dict := (LEAF, 0).
(** Redblackmap.sml 18 *)
Definition numItems (d : dict) : Z := snd d.

Variable compare : K -> K -> comparison.

(** Redblackmap.sml 20-29 (loop and loopShared) *)
Fixpoint find_loop (key : K) (t : tree) : outcome V :=
  match t with
  | LEAF => Raise NotFound
  | RED k x lft rgt | BLACK k x lft rgt =>
    match compare key k with
    | Eq => Ret x
    | Lt => find_loop key lft
    | Gt => find_loop key rgt
    end
  end.
Definition find (d : dict) (key : K) : outcome V := find_loop key (fst d).

(** Redblackmap.sml 31-32 *)
Definition peek (d : dict) (key : K) : outcome (option V) :=
  match find d key with
  | Ret x => Ret (Some x)
  | Raise NotFound => Ret None
  | Raise e => Raise e
  | UB => UB
  | Diverge => Diverge
  end.

(** Redblackmap.sml 34-38 *)
Definition lbalance (z : K) (zd : V) (l d : tree) : tree :=
  match l with
  | RED y yd (RED x xd a b) c => RED y yd (BLACK x xd a b) (BLACK z zd c d)
  | RED x xd a (RED y yd b c) => RED y yd (BLACK x xd a b) (BLACK z zd c d)
  | _ => BLACK z zd l d
  end.

(** Redblackmap.sml 40-44 *)
Definition rbalance (x : K) (xd : V) (a r : tree) : tree :=
  match r with
  | RED y yd b (RED z zd c d) => RED y yd (BLACK x xd a b) (BLACK z zd c d)
  | RED z zd (RED y yd b c) d => RED y yd (BLACK x xd a b) (BLACK z zd c d)
  | _ => BLACK x xd a r
  end.

(** Redblackmap.sml 50-60; the second component is the final value of [addone]. *)
Fixpoint ins (key : K) (data : V) (t : tree) : tree * bool :=
  match t with
  | LEAF => (RED key data LEAF LEAF, true)
  | BLACK k x lft rgt =>
    match compare key k with
    | Lt => let (lft', b) := ins key data lft in (lbalance k x lft' rgt, b)
    | Gt => let (rgt', b) := ins key data rgt in (rbalance k x lft rgt', b)
    | Eq => (BLACK key data lft rgt, false)
    end
  | RED k x lft rgt =>
    match compare key k with
    | Lt => let (lft', b) := ins key data lft in (RED k x lft' rgt, b)
    | Gt => let (rgt', b) := ins key data rgt in (RED k x lft rgt', b)
    | Eq => (RED key data lft rgt, false)
    end
  end.

(** Redblackmap.sml 62-64 and 168-170: recolouring of the root *)
Definition blacken (t : tree) : tree :=
  match t with RED k x l r => BLACK k x l r | t => t end.

(** Redblackmap.sml 48-65 *)
Definition insert (d : dict) (key : K) (data : V) : dict :=
  let (t, addone) := ins key data (fst d) in
  (blacken t, if addone then snd d + 1 else snd d).

(** Redblackmap.sml 67-68 *)
Definition push (t : tree) (stack : list tree) : list tree :=
  match t with LEAF => stack | _ => t :: stack end.

(** Redblackmap.sml 70-71 *)
Definition pushNode (left : tree) (k : K) (x : V) (right : tree) (stack : list tree) :=
  left :: BLACK k x LEAF LEAF :: push right stack.

(** Redblackmap.sml 73-80; fuel bounds the number of recursive calls *)
Fixpoint getMin (fuel : nat) {R} (stack : list tree)
    (some : K -> V -> list tree -> outcome R) (none : outcome R) : outcome R :=
  match fuel with
  | O => Diverge
  | S fuel =>
    match stack with
    | [] => none
    | LEAF :: rest => getMin fuel rest some none
    | RED k x LEAF b :: rest => some k x (push b rest)
    | BLACK k x LEAF b :: rest => some k x (push b rest)
    | RED k x a b :: rest => getMin fuel (pushNode a k x b rest) some none
    | BLACK k x a b :: rest => getMin fuel (pushNode a k x b rest) some none
    end
  end.

(** Redblackmap.sml 82-89 *)
Fixpoint getMax (fuel : nat) {R} (stack : list tree)
    (some : K -> V -> list tree -> outcome R) (none : outcome R) : outcome R :=
  match fuel with
  | O => Diverge
  | S fuel =>
    match stack with
    | [] => none
    | LEAF :: rest => getMax fuel rest some none
    | RED k x a LEAF :: rest => some k x (push a rest)
    | BLACK k x a LEAF :: rest => some k x (push a rest)
    | RED k x a b :: rest => getMax fuel (pushNode b k x a rest) some none
    | BLACK k x a b :: rest => getMax fuel (pushNode b k x a rest) some none
    end
  end.

(** number of nodes; only used to choose fuel *)
Fixpoint size (t : tree) : nat :=
  match t with LEAF => O | RED _ _ l r | BLACK _ _ l r => S (size l + size r) end.
Definition fuel_of (t : tree) : nat := 4 * size t + 4.

Definition getter := nat -> forall R, list tree ->
  (K -> V -> list tree -> outcome R) -> outcome R -> outcome R.

(** Redblackmap.sml 91-94 *)
Fixpoint fold_loop (fuel : nat) (gfuel : nat) (get : getter) {B} (f : K -> V -> B -> B)
    (stack : list tree) (acc : B) : outcome B :=
  match fuel with
  | O => Diverge
  | S fuel =>
    get gfuel B stack (fun k x stack => fold_loop fuel gfuel get f stack (f k x acc)) (Ret acc)
  end.
Definition fold (get : getter) {B} (f : K -> V -> B -> B) (e : B) (d : dict) : outcome B :=
  fold_loop (fuel_of (fst d)) (fuel_of (fst d)) get f [fst d] e.

(** Redblackmap.sml 96-98 *)
Definition foldl {B} (f : K -> V -> B -> B) (e : B) (d : dict) := fold (@getMin) f e d.
Definition foldr {B} (f : K -> V -> B -> B) (e : B) (d : dict) := fold (@getMax) f e d.

(** Redblackmap.sml 100 *)
Definition listItems (d : dict) : outcome (list (K * V)) :=
  foldr (fun k x res => (k, x) :: res) [] d.

(** Redblackmap.sml 102-104.  The effects of [f] are modelled as a state transformer; the state
    is threaded through the calls in the order they are made. *)
Fixpoint appAll_loop (fuel : nat) (gfuel : nat) (get : getter) {S} (f : K -> V -> S -> S)
    (stack : list tree) (s : S) : outcome S :=
  match fuel with
  | O => Diverge
  | Datatypes.S fuel =>
    get gfuel S stack (fun k x stack => let s' := f k x s in appAll_loop fuel gfuel get f stack s') (Ret s)
  end.
(** Redblackmap.sml 106-108 *)
Definition app {S} (f : K -> V -> S -> S) (d : dict) (s : S) : outcome S :=
  appAll_loop (fuel_of (fst d)) (fuel_of (fst d)) (@getMin) f [fst d] s.
Definition revapp {S} (f : K -> V -> S -> S) (d : dict) (s : S) : outcome S :=
  appAll_loop (fuel_of (fst d)) (fuel_of (fst d)) (@getMax) f [fst d] s.

(** Redblackmap.sml 112-113 *)
Definition redden (t : tree) : outcome tree :=
  match t with BLACK k x l r => Ret (RED k x l r) | _ => Raise FailExn end.

(** Redblackmap.sml 115-121 *)
Definition balleft (y : K) (yd : V) (l c : tree) : outcome tree :=
  match l, c with
  | RED x xd a b, c => Ret (RED y yd (BLACK x xd a b) c)
  | bl, BLACK y' yd' a b => Ret (rbalance y yd bl (RED y' yd' a b))
  | bl, RED z zd (BLACK y' yd' a b) c =>
    do c' <- redden c;
    Ret (RED y' yd' (BLACK y yd bl a) (rbalance z zd b c'))
  | _, _ => Raise FailExn
  end.

(** Redblackmap.sml 123-129 *)
Definition balright (x : K) (xd : V) (a r : tree) : outcome tree :=
  match a, r with
  | a, RED y yd b c => Ret (RED x xd a (BLACK y yd b c))
  | BLACK x' xd' a b, br => Ret (lbalance x xd (RED x' xd' a b) br)
  | RED x' xd' a (BLACK y yd b c), br =>
    do a' <- redden a;
    Ret (RED y yd (lbalance x' xd' a' b) (BLACK x xd c br))
  | _, _ => Raise FailExn
  end.

(** Redblackmap.sml 137-148.  The recursion is on [b] against [c], on [a] against [b] of the red
    right tree, or on [b] of the red left tree against [c]; an inner fixpoint on the right tree
    makes it structural. *)
Fixpoint append (left : tree) : tree -> outcome tree :=
  match left with
  | LEAF => fun right => Ret right
  | RED x xd a b =>
    fix append_red (right : tree) : outcome tree :=
    match right with
    | LEAF => Ret left
    | RED y yd c d =>
      do bc <- append b c;
      match bc with
      | RED z zd b c => Ret (RED z zd (RED x xd a b) (RED y yd c d))
      | _ => Ret (RED x xd a (RED y yd bc d))
      end
    | BLACK _ _ _ _ => do bc <- append b right; Ret (RED x xd a bc)
    end
  | BLACK x xd a b =>
    fix append_black (right : tree) : outcome tree :=
    match right with
    | LEAF => Ret left
    | RED y yd c d => do ac <- append_black c; Ret (RED y yd ac d)
    | BLACK y yd c d =>
      do bc <- append b c;
      match bc with
      | RED z zd b c => Ret (RED z zd (BLACK x xd a b) (BLACK y yd c d))
      | _ => balleft x xd a (BLACK y yd bc d)
      end
    end
  end.

Definition is_black (t : tree) : bool := match t with BLACK _ _ _ _ => true | _ => false end.

(** Redblackmap.sml 151-166 (del and delShared) *)
Fixpoint del (key : K) (t : tree) : outcome (V * tree) :=
  match t with
  | LEAF => Raise NotFound
  | RED k x a b | BLACK k x a b =>
    match compare key k with
    | Eq => do ab <- append a b; Ret (x, ab)
    | Lt =>
      do (res, a') <- del key a;
      do t' <- (if is_black a then balleft k x a' b else Ret (RED k x a' b));
      Ret (res, t')
    | Gt =>
      do (res, b') <- del key b;
      do t' <- (if is_black b then balright k x a b' else Ret (RED k x a b'));
      Ret (res, t')
    end
  end.

(** Redblackmap.sml 150, 168-171 *)
Definition remove (d : dict) (key : K) : outcome (dict * V) :=
  do (res, t) <- del key (fst d);
  Ret ((blacken t, snd d - 1), res).
End Redblackmap.

Arguments tree : clear implicits.
Arguments dict : clear implicits.

(** Redblackmap.sml 173-183 (f pure) *)
Fixpoint map_loop {K V W} (f : K -> V -> W) (t : tree K V) : tree K W :=
  match t with
  | LEAF => LEAF
  | RED k x a b => RED k (f k x) (map_loop f a) (map_loop f b)
  | BLACK k x a b => BLACK k (f k x) (map_loop f a) (map_loop f b)
  end.
Definition map {K V W} (f : K -> V -> W) (d : dict K V) : dict K W :=
  (map_loop f (fst d), snd d).

(** Redblackmap.sml 185-193 *)
Fixpoint transform_loop {K V W} (f : V -> W) (t : tree K V) : tree K W :=
  match t with
  | LEAF => LEAF
  | RED k x a b => RED k (f x) (transform_loop f a) (transform_loop f b)
  | BLACK k x a b => BLACK k (f x) (transform_loop f a) (transform_loop f b)
  end.
Definition transform {K V W} (f : V -> W) (d : dict K V) : dict K W :=
  (transform_loop f (fst d), snd d).
