(** Model of the hash table code shared, clause for clause, by src/mosmllib/Polyhash.sml and
    src/mosmllib/Hashset.sml.  A bucket B(h, key, item, rest) resp. B(h, key, rest) is a list cell
    (h, e) where the entry [e] is the (key, item) pair resp. the key.

    A table HT{table = ref arr, n_items = ref n, ...} is the pair of the current array and the
    current count; every operation takes the table and returns its new contents.  This is faithful
    because every function that makes a table allocates a fresh array and two fresh refs
    (Polyhash.sml 35-41, 201-213, 243-255, 262-272; Hashset.sml 77-83, 118-123, 255-263), so two
    tables share no mutable object; buckets are immutable.
    The item counts are unbounded integers.  User functions are pure. *)
From Verif Require Import Base ArrayLib.

(** Array.mlp 42-43 *)
Definition maxLen : Z := 18014398509481983.
(** Array.mlp 48-50 *)
Definition array {B} (n : Z) (v : B) : outcome (list B) :=
  if (n <? 0) || (n >? maxLen) then Raise Size else Ret (repeat v (Z.to_nat n)).

(** A counting loop [fun loop i = if (i < sz) then (body i; loop (i+1)) else ()] *)
Fixpoint for_up {S} (fuel : nat) (i sz : Z) (body : Z -> S -> outcome S) (s : S) : outcome S :=
  match fuel with
  | O => Diverge
  | Datatypes.S fuel => if i <? sz then do s <- body i s; for_up fuel (i + 1) sz body s else Ret s
  end.

(** Polyhash.sml 24, Hashset.sml 43: bitwise and on tagged integers is bitwise and of the
    two's complement values *)
Definition index (i sz : Z) : Z := Z.land i (sz - 1).
(** the primitive shift_left by one place on 63-bit integers: the top bit is lost
    (runtime/interp.c SHIFTLEFTINT) *)
Definition lshift1 (i : Z) : Z := (2 * i + two62) mod two63 - two62.
(** Polyhash.sml 27-29, Hashset.sml 46-48 *)
Fixpoint roundUp_f (fuel : nat) (n i : Z) : outcome Z :=
  match fuel with
  | O => Diverge
  | S fuel => if i >=? n then Ret i else roundUp_f fuel n (lshift1 i)
  end.
Definition roundUp (fuel : nat) (n : Z) : outcome Z := roundUp_f fuel n 32.

Notation bucket E := (list (Z * E)).

Section Hash.
Context {K E : Type} (key : E -> K) (hashVal : K -> Z) (sameKey : K -> K -> bool).

Record table := HT { arr : list (bucket E); n_items : Z }.

(** One step of the functions [copy] inside growTable: move one cell into the new array
    (Polyhash.sml 53-57, Hashset.sml 61-65) *)
Definition copy1 (newSz : Z) (newArr : list (bucket E)) (h : Z) (e : E) : outcome (list (bucket E)) :=
  let indx := index h newSz in
  do old <- sub_chk newArr indx;
  update_chk newArr indx ((h, e) :: old).

(** insert / add: the function [look] (Polyhash.sml 77-87, Hashset.sml 93-104), for a given
    growTable function *)
Fixpoint look_insert (growTable : table -> outcome table) (t : table) (hash indx : Z) (e : E) (b : bucket E)
  : outcome (bucket E * table) :=
  match b with
  | [] =>
    do old <- sub_chk (arr t) indx;
    do a <- update_chk (arr t) indx ((hash, e) :: old);
    do t' <- growTable (HT a (n_items t + 1));
    Ret ([], t')
  | (h, x) :: r =>
    if (hash =? h) && sameKey (key e) (key x) then Ret ((hash, e) :: r, t)
    else
      do (b', t') <- look_insert growTable t hash indx e r;
      match b' with
      | [] => Ret ([], t')
      | _ => Ret ((h, x) :: b', t')
      end
  end.
(** Polyhash.sml 71-92, Hashset.sml 88-109 *)
Definition insert (growTable : table -> outcome table) (t : table) (e : E) : outcome table :=
  let sz := zlen (arr t) in
  let hash := hashVal (key e) in
  let indx := index hash sz in
  do b <- sub_chk (arr t) indx;
  do (b', t') <- look_insert growTable t hash indx e b;
  match b' with
  | [] => Ret t'
  | _ => do a <- update_chk (arr t) indx b'; Ret (HT a (n_items t'))
  end.

(** the [look] of find, peek, retrieve (Polyhash.sml 121-124, 135-138; Hashset.sml 162-165, 176-179) *)
Fixpoint look (hash : Z) (k : K) (b : bucket E) : option E :=
  match b with
  | [] => None
  | (h, x) :: r => if (hash =? h) && sameKey k (key x) then Some x else look hash k r
  end.
(** find / peek / retrieve up to the shape of the result (Polyhash.sml 116-141, Hashset.sml 157-182) *)
Definition lookup (t : table) (k : K) : outcome (option E) :=
  let sz := zlen (arr t) in
  let hash := hashVal k in
  let indx := index hash sz in
  do b <- sub_chk (arr t) indx;
  Ret (look hash k b).

(** remove / delete: [look] (Polyhash.sml 151-154, Hashset.sml 191-197); None: the table's exception *)
Fixpoint look_remove (hash : Z) (k : K) (b : bucket E) : option (E * bucket E) :=
  match b with
  | [] => None
  | (h, x) :: r =>
    if (hash =? h) && sameKey k (key x) then Some (x, r)
    else match look_remove hash k r with
         | None => None
         | Some (item, r') => Some (item, (h, x) :: r')
         end
  end.
(** Polyhash.sml 146-160, Hashset.sml 186-202 *)
Definition remove (not_found : exn) (t : table) (k : K) : outcome (E * table) :=
  let sz := zlen (arr t) in
  let hash := hashVal k in
  let indx := index hash sz in
  do b <- sub_chk (arr t) indx;
  match look_remove hash k b with
  | None => Raise not_found
  | Some (item, b') => do a <- update_chk (arr t) indx b'; Ret (item, HT a (n_items t - 1))
  end.
End Hash.
Arguments table : clear implicits.
