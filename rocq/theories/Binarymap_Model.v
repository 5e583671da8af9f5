(** Model of src/mosmllib/Binarymap.sml: dictionaries on the trees of Wbtree_Model.v.
    A dictionary DICT(cmpKey, t) is the tree [t]; [cmpKey] is passed to each operation. *)
From Verif Require Import Base Wbtree_Model.

Section Binarymap.
Context {K V : Type} (cmpKey : K -> K -> comparison).

(** Binarymap.sml 48-56 *)
Definition dict := tree (K * V).

(** Binarymap.sml 61 *)
Definition numItems (d : dict) : Z := treeSize d.
(** Binarymap.sml 138 *)
Definition mkDict : dict := E.
(** Binarymap.sml 140-148 *)
Fixpoint insert (t : dict) (x : K) (v : V) : outcome dict :=
  match t with
  | E => Ret (T (x, v) 1 E E)
  | T (key, value) cnt l r =>
    match cmpKey key x with
    | Gt => do l' <- insert l x v; T' (key, value) l' r
    | Lt => do r' <- insert r x v; T' (key, value) l r'
    | _ => Ret (T (x, v) cnt l r)
    end
  end.
(** Binarymap.sml 150-157 *)
Fixpoint find (t : dict) (x : K) : outcome V :=
  match t with
  | E => Raise NotFound
  | T (key, value) _ l r =>
    match cmpKey x key with
    | Gt => find r x
    | Lt => find l x
    | _ => Ret value
    end
  end.
(** Binarymap.sml 159 *)
Definition peek (t : dict) (x : K) : outcome (option V) :=
  match find t x with
  | Ret v => Ret (Some v)
  | Raise NotFound => Ret None
  | Raise e => Raise e
  | UB => UB
  | Diverge => Diverge
  end.
(** Binarymap.sml 161-171 *)
Fixpoint remove (t : dict) (x : K) : outcome (dict * V) :=
  match t with
  | E => Raise NotFound
  | T (key, value) _ l r =>
    match cmpKey key x with
    | Gt => do (l', v) <- remove l x; do t' <- T' (key, value) l' r; Ret (t', v)
    | Lt => do (r', v) <- remove r x; do t' <- T' (key, value) l r'; Ret (t', v)
    | _ => do t' <- delete' l r; Ret (t', value)
    end
  end.
(** Binarymap.sml 173-197 *)
Definition listItems (d : dict) : list (K * V) := d2l d [].
Definition revapp {S} (f : K -> V -> S -> S) (d : dict) (s : S) : S := revapply (fun p => f (fst p) (snd p)) d s.
Definition app {S} (f : K -> V -> S -> S) (d : dict) (s : S) : S := apply (fun p => f (fst p) (snd p)) d s.
Definition foldr {B} (f : K -> V -> B -> B) (init : B) (d : dict) : B := foldrt (fun p => f (fst p) (snd p)) d init.
Definition foldl {B} (f : K -> V -> B -> B) (init : B) (d : dict) : B := foldlt (fun p => f (fst p) (snd p)) d init.
End Binarymap.
Arguments dict : clear implicits.

(** Binarymap.sml 199-207 *)
Fixpoint map {K V W} (f : K -> V -> W) (d : dict K V) : dict K W :=
  match d with
  | E => E
  | T (key, value) cnt l r => T (key, f key value) cnt (map f l) (map f r)
  end.
(** Binarymap.sml 209-217 *)
Fixpoint transform {K V W} (f : V -> W) (d : dict K V) : dict K W :=
  match d with
  | E => E
  | T (key, value) cnt l r => T (key, f value) cnt (transform f l) (transform f r)
  end.
