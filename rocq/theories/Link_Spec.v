(** The reference for C50: which definition each name in a program refers to,
    and what it means that an executable is linked.  The program is the list of
    its units in the order in which they run. *)
From Verif Require Import Base ArrayLib Link_Model.

(** the phrases of a unit in the order in which they run *)
Definition phrases_of (u : Z * tables) : list phrase := rev (phrase_index (snd u)).
Definition all_phrases (us : list (Z * tables)) : list phrase := flat_map phrases_of us.

(** ** Definitions

    A predefined variable, or the setglobal that is number [j] in the list of
    phrase number [k] *)
Inductive def := Predef (i : nat) | Def (k j : nat).
Definition env := uid -> option def.
Definition upd (e : env) (g : uid) (d : option def) : env := fun h => if uid_eqb g h then d else e h.

(** what the names in a list of relocations refer to, from number [j] on, and
    the environment after them *)
Fixpoint resolve_list (k j : nat) (l : list (reloc * Z)) (e : env) : list (option def) * env :=
  match l with
  | [] => ([], e)
  | (r, _) :: l =>
      let '(d, e) := match r with
                     | Reloc_getglobal g => (e g, e)
                     | Reloc_setglobal g => (Some (Def k j), upd e g (Some (Def k j)))
                     | _ => (None, e)
                     end in
      let '(ds, e) := resolve_list k (S j) l e in (d :: ds, e)
  end.
Fixpoint resolve_phrases (k : nat) (ps : list phrase) (e : env) : list (list (option def)) * env :=
  match ps with
  | [] => ([], e)
  | p :: ps => let '(r, e) := resolve_list k 0 (others p) e in
               let '(rs, e) := resolve_phrases (S k) ps e in (r :: rs, e)
  end.
(** after a unit, its exported identifiers can be used without stamps *)
Definition export (uname : Z) (vs : list (Z * Z)) (e : env) : env :=
  fun g => let '(q, id, st) := g in
           if (q =? uname) && (st =? 0) then match findZ vs id with Some st => e (uname, id, st) | None => e g end
           else e g.
Fixpoint resolve (k : nat) (us : list (Z * tables)) (e : env) : list (list (option def)) :=
  match us with
  | [] => []
  | u :: us => let '(rs, e) := resolve_phrases k (phrases_of u) e in
               rs ++ resolve (k + length (phrases_of u)) us (export (fst u) (val_ren (snd u)) e)
  end.
(** at the start: the predefined variables *)
Fixpoint predefined (i : nat) (predef : list (Z * Z)) (e : env) : env :=
  match predef with
  | [] => e
  | (q, id) :: predef => predefined (S i) predef (upd e (q, id, 0) (Some (Predef i)))
  end.
Definition start (predef : list (Z * Z)) : env := predefined 0 predef (fun _ => None).

(** ** Code *)
(** the bytes of the operands of a phrase *)
Definition long_bytes (pos : Z) : list Z := [pos; pos + 1; pos + 2; pos + 3].
Definition reloc_bytes (r : reloc * Z) : list Z :=
  match fst r with Reloc_primitive _ => [snd r; snd r + 1] | _ => long_bytes (snd r) end.
Definition operand_bytes (p : phrase) : list Z :=
  flat_map (fun x => flat_map long_bytes (snd x)) (lits p) ++ flat_map reloc_bytes (others p).
(** the operands are in the code and do not overlap *)
Definition layout (p : phrase) : Prop :=
  NoDup (operand_bytes p) /\ Forall (fun i => 0 <= i < zlen (code p)) (operand_bytes p).
(** the operand at [pos], 4 or 2 bytes, the lowest first, is [n] *)
Definition long_at (c : list Z) (pos n : Z) : Prop :=
  exists b0 b1 b2 b3, zget c pos = Some b0 /\ zget c (pos + 1) = Some b1 /\ zget c (pos + 2) = Some b2 /\ zget c (pos + 3) = Some b3 /\
    Forall (fun b => 0 <= b < 256) [b0; b1; b2; b3] /\ n = b0 + 256 * b1 + 65536 * b2 + 16777216 * b3.
Definition short_at (c : list Z) (pos n : Z) : Prop :=
  exists b0 b1, zget c pos = Some b0 /\ zget c (pos + 1) = Some b1 /\ 0 <= b0 < 256 /\ 0 <= b1 < 256 /\ n = b0 + 256 * b1.

(** ** The linked program

    [slot]: the slot of each definition that is linked; [is_lit s sc]: slot [s]
    holds the constant [sc].  [c] is phrase [p], number [k], with all operands
    filled in; [ds]: what its names refer to *)
Definition patched (slot : def -> option Z) (is_lit : Z -> Z -> Prop) (prims : list Z) (k : nat) (p : phrase)
  (ds : list (option def)) (c : list Z) : Prop :=
  zlen c = zlen (code p) /\
  (forall i, ~ In i (operand_bytes p) -> zget c i = zget (code p) i) /\
  (forall lit poss, In (lit, poss) (lits p) -> exists s, is_lit s lit /\ forall pos, In pos poss -> long_at c pos s) /\
  (forall j r pos, nth_error (others p) j = Some (r, pos) ->
     match r with
     | Reloc_getglobal _ => exists d s, nth_error ds j = Some (Some d) /\ slot d = Some s /\ long_at c pos s
     | Reloc_setglobal _ => exists s, slot (Def k j) = Some s /\ long_at c pos s
     | Reloc_literal sc => exists s, is_lit s sc /\ long_at c pos s
     | Reloc_primitive name => exists i, nth_error prims i = Some name /\ short_at c pos (Z.of_nat i)
     end).
(** phrase by phrase: left out, which is allowed for pure phrases only, or
    patched *)
Fixpoint aligned (slot : def -> option Z) (is_lit : Z -> Z -> Prop) (prims : list Z) (k : nat) (ps : list phrase)
  (ds : list (list (option def))) (kept : list (option (list Z))) : Prop :=
  match ps, ds, kept with
  | [], [], [] => True
  | p :: ps, d :: ds, o :: kept =>
      match o with None => pure p = true | Some c => patched slot is_lit prims k p d c end /\
      aligned slot is_lit prims (S k) ps ds kept
  | _, _, _ => False
  end.
Fixpoint somes {A} (l : list (option A)) : list A :=
  match l with [] => [] | None :: l => somes l | Some a :: l => a :: somes l end.

(** The pieces of code [cs] and the table of globals [data] are the program
    [us], linked. *)
Definition linked (predef : list (Z * Z)) (prims : list Z) (us : list (Z * tables)) (cs : list (list Z)) (data : list (option Z)) : Prop :=
  exists slot kept,
    cs = somes kept /\
    aligned slot (fun s sc => zget data s = Some (Some sc)) prims 0 (all_phrases us) (resolve 0 us (start predef)) kept /\
    (** different definitions have different slots, which hold no constants *)
    (forall d1 d2 s, slot d1 = Some s -> slot d2 = Some s -> d1 = d2) /\
    (forall d s, slot d = Some s -> zget data s = Some None) /\
    (** only what is linked has a slot; the predefined variables have the first ones *)
    (forall i s, slot (Predef i) = Some s -> (i < length predef)%nat /\ s = Z.of_nat i) /\
    (forall k j s, slot (Def k j) = Some s ->
       exists p g pos c, nth_error (all_phrases us) k = Some p /\ nth_error (others p) j = Some (Reloc_setglobal g, pos) /\
         nth_error kept k = Some (Some c)).

(** a name without definition or a primitive that is not available, in the
    phrases [ps]; [ds]: what their names refer to *)
Definition undefined_in (prims : list Z) (ps : list phrase) (ds : list (list (option def))) : Prop :=
  exists i p d j r pos, nth_error ps i = Some p /\ nth_error ds i = Some d /\ nth_error (others p) j = Some (r, pos) /\
    match r with
    | Reloc_getglobal _ => nth_error d j = Some None
    | Reloc_primitive name => ~ In name prims
    | _ => False
    end.
(** the same in the units [us], or an exported identifier without definition *)
Fixpoint undefined (prims : list Z) (k : nat) (us : list (Z * tables)) (e : env) : Prop :=
  match us with
  | [] => False
  | u :: us =>
      let '(rs, e) := resolve_phrases k (phrases_of u) e in
      undefined_in prims (phrases_of u) rs \/
      (exists id st, In (id, st) (val_ren (snd u)) /\ e (fst u, id, st) = None) \/
      undefined prims (k + length (phrases_of u)) us (export (fst u) (val_ren (snd u)) e)
  end.
(** what the compiler guarantees of units *)
Definition unit_ok (u : Z * tables) : Prop :=
  NoDup (map fst (val_ren (snd u))) /\ Forall layout (phrase_index (snd u)).

(** ** The units of the program

    [us] are different units from the files, each after the units that it
    mentions, with the signatures that it was compiled against. *)
Definition consistent (files : list (Z * tables)) (reserved : list Z) (us : list (Z * tables)) : Prop :=
  NoDup (map fst us) /\
  (forall u t, In (u, t) us -> findZ files u = Some t /\ ~ In u reserved) /\
  (forall us1 u t us2 v s, us = us1 ++ (u, t) :: us2 -> In (v, s) (mentions t) ->
     exists t', In (v, t') us1 /\ sig_stamp t' = s).
