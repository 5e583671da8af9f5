(** C08, specification: ML values as trees, and what equality, order and likeness of trees are. *)
From Verif Require Import Base ArrayLib Str_Proofs Str_Props Value_Model.

(** A value without functions: integers (also characters, words), strings, reals (the 64 bits),
    reference cells (identified by their address), abstract objects, pointers to C data, and nodes:
    constructors, tuples and vectors.  A node without components is a constant constructor. *)
Inductive tree :=
| TInt (n : Z) | TStr (s : list Z) | TReal (d : Z) | TRef (a : Z) | TAbs (a : Z) | TOut (a : Z)
| TNode (tag : Z) (l : list tree).

(** addresses are even, heap blocks are apart from the atoms and have at most Max_wosize fields
    (mlvalues.h 104) *)
Definition wf_mem (m : mem) : Prop :=
  Z.odd (atom0 m) = false /\
  forall v b, blk m v = Some b -> Z.odd v = false /\ is_atom m v = false /\
    forall t l, b = Fields t l -> zlen l < 2 ^ 54.

(** the 8 bytes of a 64-bit word *)
Fixpoint le_bytes (n : nat) (d : Z) : list Z :=
  match n with O => [] | S n => d mod 256 :: le_bytes n (d / 256) end.

(** [den m v t]: the word v stands for the tree t in memory m.  References are not followed. *)
Inductive den (m : mem) : Z -> tree -> Prop :=
| den_int v n : v = 2 * n + 1 -> in_int n -> den m v (TInt n)
| den_str v b s : blk m v = Some (Bytes String_tag b) -> rep b s -> den m v (TStr s)
| den_real v d : blk m v = Some (Bytes Double_tag (le_bytes 8 d)) -> 0 <= d < two64 -> den m v (TReal d)
| den_ref v l : blk m v = Some (Fields Reference_tag l) -> den m v (TRef v)
| den_abs v t b : blk m v = Some (Bytes t b) -> t = Abstract_tag \/ t = Final_tag -> den m v (TAbs v)
| den_out v : 0 <= v < two63 -> Z.odd v = false -> blk m v = None -> is_atom m v = false -> den m v (TOut v)
| den_atom v t : v = atom m t -> 0 <= t <= 255 -> den m v (TNode t [])
| den_node v t l ts : blk m v = Some (Fields t l) -> 0 <= t < Closure_tag -> l <> [] ->
    Forall2 (den m) l ts -> den m v (TNode t ts).

(** The number a double stands for, times 2^1074 (an integer); infinity comes out as 2^1024 times that *)
Definition scaled (d : Z) : Z :=
  let e := d / 2 ^ 52 mod 2048 in
  let f := d mod 2 ^ 52 in
  let mag := if e =? 0 then f else (2 ^ 52 + f) * 2 ^ (e - 1) in
  if d <? two63 then mag else - mag.
(** exponent 2047 and a fraction that is not 0 *)
Definition is_nan (d : Z) : Prop := d / 2 ^ 52 mod 2048 = 2047 /\ d mod 2 ^ 52 <> 0.

(** structural equality: reals by number, reference cells and abstract objects by identity *)
Inductive same : tree -> tree -> Prop :=
| same_int n : same (TInt n) (TInt n)
| same_str s : same (TStr s) (TStr s)
| same_real d1 d2 : scaled d1 = scaled d2 -> same (TReal d1) (TReal d2)
| same_ref a : same (TRef a) (TRef a)
| same_abs a : same (TAbs a) (TAbs a)
| same_out a : same (TOut a) (TOut a)
| same_node t l1 l2 : Forall2 same l1 l2 -> same (TNode t l1) (TNode t l2).

(** ordinary trees: strings shorter than 2^31, no NaN *)
Inductive ordinary : tree -> Prop :=
| ord_int n : ordinary (TInt n)
| ord_str s : zlen s < 2 ^ 31 -> ordinary (TStr s)
| ord_real d : ~ is_nan d -> ordinary (TReal d)
| ord_ref a : ordinary (TRef a)
| ord_abs a : ordinary (TAbs a)
| ord_out a : ordinary (TOut a)
| ord_node t l : Forall ordinary l -> ordinary (TNode t l).

(** the order: numbers by size, strings lexicographically, nodes by constructor, then by number of
    components, then by the components from left to right *)
Fixpoint tcmp (t1 t2 : tree) : comparison :=
  match t1, t2 with
  | TInt a, TInt b => a ?= b
  | TStr s, TStr t => lex s t
  | TReal d1, TReal d2 => scaled d1 ?= scaled d2
  | TOut a, TOut b => a ?= b
  | TNode a l1, TNode b l2 =>
    match a ?= b with
    | Eq => match zlen l1 ?= zlen l2 with
            | Eq => (fix go l1 l2 := match l1, l2 with
                                     | t1 :: l1, t2 :: l2 => match tcmp t1 t2 with Eq => go l1 l2 | c => c end
                                     | _, _ => Eq
                                     end) l1 l2
            | c => c
            end
    | c => c
    end
  | _, _ => Eq
  end.
(** values that may be of the same type, without references, abstract objects and NaN *)
Inductive comparable : tree -> tree -> Prop :=
| com_int a b : comparable (TInt a) (TInt b)
| com_str s t : comparable (TStr s) (TStr t)
| com_real d1 d2 : ~ is_nan d1 -> ~ is_nan d2 -> comparable (TReal d1) (TReal d2)
| com_out a b : comparable (TOut a) (TOut b)
| com_node a b l1 l2 : (a = b -> length l1 = length l2 -> Forall2 comparable l1 l2) ->
    comparable (TNode a l1) (TNode b l2).

(** integers between -2^61 and 2^61, addresses below 2^62 *)
Inductive modest : tree -> Prop :=
| mod_int n : - 2 ^ 61 <= n < 2 ^ 61 -> modest (TInt n)
| mod_str s : modest (TStr s)
| mod_real d : modest (TReal d)
| mod_ref a : modest (TRef a)
| mod_abs a : modest (TAbs a)
| mod_out a : 0 <= a < 2 ^ 62 -> modest (TOut a)
| mod_node t l : Forall modest l -> modest (TNode t l).

(** likeness: equal except for the addresses of references and abstract objects *)
Inductive alike : tree -> tree -> Prop :=
| alike_int n : alike (TInt n) (TInt n)
| alike_str s : alike (TStr s) (TStr s)
| alike_real d : alike (TReal d) (TReal d)
| alike_ref a b : alike (TRef a) (TRef b)
| alike_abs a b : alike (TAbs a) (TAbs b)
| alike_out a : alike (TOut a) (TOut a)
| alike_node t l1 l2 : Forall2 alike l1 l2 -> alike (TNode t l1) (TNode t l2).
(** no real component is the number zero with a minus sign (bits 2^63) *)
Inductive no_minus_zero : tree -> Prop :=
| nmz_int n : no_minus_zero (TInt n)
| nmz_str s : no_minus_zero (TStr s)
| nmz_real d : d <> two63 -> no_minus_zero (TReal d)
| nmz_ref a : no_minus_zero (TRef a)
| nmz_abs a : no_minus_zero (TAbs a)
| nmz_out a : no_minus_zero (TOut a)
| nmz_node t l : Forall no_minus_zero l -> no_minus_zero (TNode t l).

(** A well-formed memory: sizes and tags of blocks are as the runtime makes them; no word points into
    the middle of an atom.  Values may be cyclic (through references) and contain functions. *)
Definition good_word (m : mem) (v : Z) : Prop :=
  is_long v = false -> is_atom m v = true -> (v - atom m 0) mod 8 = 0.
Definition well_formed (m : mem) : Prop := wf_mem m /\
  forall v b, blk m v = Some b ->
    match b with
    | Bytes g bs => (g = String_tag /\ exists s, rep bs s) \/ (g = Double_tag /\ zlen bs = 8) \/ g = Abstract_tag \/ g = Final_tag
    | Fields g l => 0 <= g <= No_scan_tag /\ forall x, In x l -> good_word m x
    end.
