(** Model of src/mosmllib/Hashset.sml on top of Hash_Model.v; entries are the items.
    Array.app, Array.foldr, Array.all, Array.exists (Array.mlp 131-168: loops over all elements in
    increasing, decreasing, increasing and increasing order) are the corresponding list functions;
    Array.copy (Array.mlp 93-106) of an array onto a fresh one of the same length gives that array.
    Hash codes are words: here integers, which are only compared, masked and (in [hash]) added. *)
From Verif Require Import Base ArrayLib Hash_Model.

Section Hashset.
Context {K : Type} (hashVal : K -> Z) (sameKey : K -> K -> bool).
Notation set := (table K).

(** Hashset.sml 60-67 *)
Fixpoint copy_bucket (newSz : Z) (b : bucket K) (newArr : list (bucket K)) : outcome (list (bucket K)) :=
  match b with
  | [] => Ret newArr
  | (h, e) :: rest => do newArr <- copy1 newSz newArr h e; copy_bucket newSz rest newArr
  end.
(** Hashset.sml 53-73 *)
Definition growTable (t : set) : outcome set :=
  let sz := zlen (arr t) in
  if n_items t >=? sz then
    let newSz := sz + sz in
    do newArr <- array newSz [];
    do newArr <- fold_left (fun na b => do na <- na; copy_bucket newSz b na) (arr t) (Ret newArr);
    Ret (HT newArr (n_items t))
  else Ret t.
(** Hashset.sml 77-83 *)
Definition empty (fuel : nat) : outcome set :=
  do n <- roundUp fuel 13; do a <- array n []; Ret (HT a 0).
(** Hashset.sml 88-109 *)
Definition add (t : set) (k : K) : outcome set := insert (fun x => x) hashVal sameKey growTable t k.
(** Hashset.sml 113-114 *)
Fixpoint addList (t : set) (xs : list K) : outcome set :=
  match xs with [] => Ret t | x :: xs => do t <- add t x; addList t xs end.
(** Hashset.sml 118-124 *)
Definition singleton (fuel : nat) (item : K) : outcome set :=
  do n <- roundUp fuel 13; do a <- array n []; add (HT a 0) item.
(** Hashset.sml 128 *)
Definition isEmpty (t : set) : bool := n_items t =? 0.
(** Hashset.sml 130-142 *)
Definition all (p : K -> bool) (t : set) : bool := forallb (forallb (fun c => p (snd c))) (arr t).
Definition exists_ (p : K -> bool) (t : set) : bool := existsb (existsb (fun c => p (snd c))) (arr t).
(** Hashset.sml 144-145 *)
Definition member (t : set) (x : K) : bool := exists_ (fun y => sameKey x y) t.
(** Hashset.sml 147-153; both sets are taken to have the same hash and equality functions *)
Definition isSubset (t1 t2 : set) : bool :=
  (n_items t1 <=? n_items t2) && all (fun x1 => exists_ (fun x2 => sameKey x1 x2) t2) t1.
Definition equal (t1 t2 : set) : bool := (n_items t1 =? n_items t2) && (isSubset t1 t2 && isSubset t2 t1).
(** Hashset.sml 157-168 *)
Definition retrieve (t : set) (k : K) : outcome K :=
  do r <- lookup (fun x => x) hashVal sameKey t k;
  match r with Some x => Ret x | None => Raise NotFound end.
(** Hashset.sml 172-182 *)
Definition peek (t : set) (k : K) : outcome (option K) := lookup (fun x => x) hashVal sameKey t k.
(** Hashset.sml 186-202 *)
Definition delete (t : set) (k : K) : outcome set :=
  do (_, t') <- remove (fun x => x) hashVal sameKey NotFound t k; Ret t'.
(** Hashset.sml 206 *)
Definition numItems (t : set) : Z := n_items t.
(** Hashset.sml 230-232 *)
Fixpoint loop {B} (f : K -> B -> B) (b : bucket K) (res : B) : B :=
  match b with [] => res | (_, k) :: rest => loop f rest (f k res) end.
(** Hashset.sml 229-235 *)
Definition fold {B} (f : K -> B -> B) (e : B) (t : set) : B :=
  fold_right (fun b res => loop f b res) e (arr t).
(** Hashset.sml 210-216: its loop is that of fold at cons *)
Definition listItems (t : set) : list K := fold_right (fun b res => loop cons b res) [] (arr t).
(** Hashset.sml 220-225; the effect of [f] is a function on states *)
Definition app {S} (f : K -> S -> S) (t : set) (s : S) : S :=
  fold_left (fun s b => fold_left (fun s c => f (snd c) s) b s) (arr t) s.
(** Hashset.sml 240-241 *)
Fixpoint loopb (p : K -> bool) (b : bucket K) : option K :=
  match b with [] => None | (_, k) :: rest => if p k then Some k else loopb p rest end.
(** Hashset.sml 242-248 *)
Fixpoint loopf (fuel : nat) (p : K -> bool) (arr : list (bucket K)) (i : Z) : outcome (option K) :=
  match fuel with
  | O => Diverge
  | S fuel =>
    if i <? 0 then Ret None
    else do b <- sub_chk arr i;
      match loopb p b with
      | None => loopf fuel p arr (i - 1)
      | res => Ret res
      end
  end.
(** Hashset.sml 239-251 *)
Definition find (p : K -> bool) (t : set) : outcome (option K) :=
  loopf (S (length (arr t))) p (arr t) (zlen (arr t) - 1).
(** Hashset.sml 255-263 *)
Definition copy (t : set) : outcome set :=
  do na <- array (zlen (arr t)) ([] : bucket K);
  Ret (HT (arr t) (n_items t)).
(** Hashset.sml 268-269 *)
Fixpoint hash_loop (b : bucket K) (res : Z) : Z :=
  match b with [] => res | (h, _) :: rest => hash_loop rest ((h + res) mod two63) end.
(** Hashset.sml 267-273; + on words is modulo 2^63 *)
Definition hash (t : set) : Z := fold_right (fun b res => hash_loop b res) 0 (arr t).
End Hashset.
