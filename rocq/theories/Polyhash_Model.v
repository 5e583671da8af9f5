(** Model of src/mosmllib/Polyhash.sml on top of Hash_Model.v; entries are (key, item) pairs.
    hash / mkPolyTable (287-292) only fix the hash and equality functions and are not modelled here. *)
From Verif Require Import Base ArrayLib Hash_Model.

Section Polyhash.
Context {K V : Type} (hashVal : K -> Z) (sameKey : K -> K -> bool) (not_found : exn).
Notation entry := (K * V)%type.
Notation hash_table := (table entry).

(** Polyhash.sml 35-41 *)
Definition mkTable (fuel : nat) (sizeHint : Z) : outcome hash_table :=
  do n <- roundUp fuel sizeHint;
  do a <- array n [];
  Ret (HT a 0).

(** Polyhash.sml 52-59; the array with the cells moved so far, and the exception that ended the
    copying, if any *)
Fixpoint copy_bucket (newSz : Z) (b : bucket entry) (newArr : list (bucket entry)) : list (bucket entry) * option exn :=
  match b with
  | [] => (newArr, None)
  | (h, e) :: rest =>
    match copy1 newSz newArr h e with
    | Ret newArr => copy_bucket newSz rest newArr
    | Raise x => (newArr, Some x)
    | UB | Diverge => (newArr, Some FailExn)
    end
  end.
(** Polyhash.sml 60, 62: (bucket n) handle _ => () *)
Fixpoint grow_bucket (fuel : nat) (arr : list (bucket entry)) (newSz n : Z) (newArr : list (bucket entry))
  : outcome (list (bucket entry)) :=
  match fuel with
  | O => Diverge
  | S fuel =>
    match sub_chk arr n with
    | Ret b =>
      match copy_bucket newSz b newArr with
      | (newArr, None) => grow_bucket fuel arr newSz (n + 1) newArr
      | (newArr, Some _) => Ret newArr
      end
    | _ => Ret newArr
    end
  end.
(** Polyhash.sml 44-66; the loop runs at most length+1 times *)
Definition growTable (t : hash_table) : outcome hash_table :=
  let sz := zlen (arr t) in
  if n_items t >=? sz then
    let newSz := sz + sz in
    do newArr <- array newSz [];
    do newArr <- grow_bucket (S (length (arr t))) (arr t) newSz 0 newArr;
    Ret (HT newArr (n_items t))
  else Ret t.

(** Polyhash.sml 71-92 *)
Definition insert (t : hash_table) (k : K) (item : V) : outcome hash_table :=
  Hash_Model.insert fst hashVal sameKey growTable t (k, item).
(** Polyhash.sml 102-110: look *)
Fixpoint look_peekInsert (t : hash_table) (hash indx : Z) (k : K) (item : V) (b : bucket entry)
  : outcome (option V * hash_table) :=
  match b with
  | [] =>
    do old <- sub_chk (arr t) indx;
    do a <- update_chk (arr t) indx ((hash, (k, item)) :: old);
    do t' <- growTable (HT a (n_items t + 1));
    Ret (None, t')
  | (h, (k', v)) :: r =>
    if (hash =? h) && sameKey k k' then Ret (Some v, t)
    else look_peekInsert t hash indx k item r
  end.
(** Polyhash.sml 97-113 *)
Definition peekInsert (t : hash_table) (k : K) (item : V) : outcome (option V * hash_table) :=
  let sz := zlen (arr t) in
  let hash := hashVal k in
  let indx := index hash sz in
  do b <- sub_chk (arr t) indx;
  look_peekInsert t hash indx k item b.
(** Polyhash.sml 116-127 *)
Definition find (t : hash_table) (k : K) : outcome V :=
  do r <- lookup fst hashVal sameKey t k;
  match r with Some (_, v) => Ret v | None => Raise not_found end.
(** Polyhash.sml 130-141 *)
Definition peek (t : hash_table) (k : K) : outcome (option V) :=
  do r <- lookup fst hashVal sameKey t k;
  match r with Some (_, v) => Ret (Some v) | None => Ret None end.
(** Polyhash.sml 146-160 *)
Definition remove (t : hash_table) (k : K) : outcome (V * hash_table) :=
  do (e, t') <- Hash_Model.remove fst hashVal sameKey not_found t k; Ret (snd e, t').
(** Polyhash.sml 163 *)
Definition numItems (t : hash_table) : Z := n_items t.

(** Polyhash.sml 170-171: g, up to its final call of f *)
Fixpoint list_g (b : bucket entry) (l : list entry) (n : Z) : list entry * Z :=
  match b with
  | [] => (l, n)
  | (_, (k, v)) :: r => list_g r ((k, v) :: l) (n - 1)
  end.
(** Polyhash.sml 167-174: f *)
Fixpoint list_f (fuel : nat) (arr : list (bucket entry)) (i : Z) (l : list entry) (n : Z) : outcome (list entry) :=
  match fuel with
  | O => Diverge
  | S fuel =>
    if n =? 0 then Ret l
    else if i =? -1 then Ret l
    else do b <- sub_chk arr i; let (l, n) := list_g b l n in list_f fuel arr (i - 1) l n
  end.
(** Polyhash.sml 166-177 *)
Definition listItems (t : hash_table) : outcome (list entry) :=
  list_f (S (length (arr t))) (arr t) (zlen (arr t) - 1) [] (n_items t).

(** Polyhash.sml 181-184; the effect of [f] is a function on states *)
Fixpoint appF {S} (f : K -> V -> S -> S) (b : bucket entry) (s : S) : S :=
  match b with
  | [] => s
  | (_, (k, v)) :: rest => appF f rest (f k v s)
  end.
(** Polyhash.sml 180-192 *)
Definition apply {S} (f : K -> V -> S -> S) (t : hash_table) (s : S) : outcome S :=
  for_up (Datatypes.S (length (arr t))) 0 (zlen (arr t)) (fun i s => do b <- sub_chk (arr t) i; Ret (appF f b s)) s.

(** Polyhash.sml 220-223; the second result counts the decrements of n_items *)
Fixpoint filterP (pred : K -> V -> bool) (b : bucket entry) (n : Z) : bucket entry * Z :=
  match b with
  | [] => ([], n)
  | (h, (k, v)) :: rest =>
    if pred k v then let (b', n') := filterP pred rest n in ((h, (k, v)) :: b', n')
    else filterP pred rest (n - 1)
  end.
(** Polyhash.sml 219-233 *)
Definition filter (pred : K -> V -> bool) (t : hash_table) : outcome hash_table :=
  for_up (S (length (arr t))) 0 (zlen (arr t))
    (fun i t => do b <- sub_chk (arr t) i;
                let (b', n') := filterP pred b (n_items t) in
                do a <- update_chk (arr t) i b'; Ret (HT a n')) t.

(** Polyhash.sml 263-265, 267: (mapTbl i) handle _ => () *)
Fixpoint copy_loop (fuel : nat) (arr newArr : list (bucket entry)) (i : Z) : outcome (list (bucket entry)) :=
  match fuel with
  | O => Diverge
  | S fuel =>
    match (do b <- sub_chk arr i; update_chk newArr i b) with
    | Ret newArr => copy_loop fuel arr newArr (i + 1)
    | _ => Ret newArr
    end
  end.
(** Polyhash.sml 259-273 *)
Definition copy (t : hash_table) : outcome hash_table :=
  do newArr <- array (zlen (arr t)) [];
  do newArr <- copy_loop (S (length (arr t))) (arr t) newArr 0;
  Ret (HT newArr (n_items t)).

(** Polyhash.sml 281-282 with len 279-280 *)
Fixpoint sizes_f (fuel : nat) (arr : list (bucket entry)) (i : Z) (l : list Z) : outcome (list Z) :=
  match fuel with
  | O => Diverge
  | S fuel => if i =? -1 then Ret l else do b <- sub_chk arr i; sizes_f fuel arr (i - 1) (zlen b :: l)
  end.
(** Polyhash.sml 278-285 *)
Definition bucketSizes (t : hash_table) : outcome (list Z) :=
  sizes_f (S (length (arr t))) (arr t) (zlen (arr t) - 1) [].
End Polyhash.

(** Polyhash.sml 196-198 *)
Fixpoint mapF {K V W} (f : K -> V -> W) (b : bucket (K * V)) : bucket (K * W) :=
  match b with
  | [] => []
  | (h, (k, v)) :: rest => (h, (k, f k v)) :: mapF f rest
  end.
(** Polyhash.sml 195-214 *)
Definition map {K V W} (f : K -> V -> W) (t : table (K * V)) : outcome (table (K * W)) :=
  do newArr <- array (zlen (arr t)) [];
  do newArr <- for_up (S (length (arr t))) 0 (zlen (arr t))
    (fun i na => do b <- sub_chk (arr t) i; update_chk na i (mapF f b)) newArr;
  Ret (HT newArr (n_items t)).
(** Polyhash.sml 239-240 *)
Fixpoint transF {K V W} (f : V -> W) (b : bucket (K * V)) : bucket (K * W) :=
  match b with
  | [] => []
  | (h, (k, v)) :: rest => (h, (k, f v)) :: transF f rest
  end.
(** Polyhash.sml 238-256 *)
Definition transform {K V W} (f : V -> W) (t : table (K * V)) : outcome (table (K * W)) :=
  do newArr <- array (zlen (arr t)) [];
  do newArr <- for_up (S (length (arr t))) 0 (zlen (arr t))
    (fun i na => do b <- sub_chk (arr t) i; update_chk na i (transF f b)) newArr;
  Ret (HT newArr (n_items t)).
