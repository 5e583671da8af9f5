(** Model of mosmllib/Path.mlp as compiled for Unix (the branches #ifdef unix and #else of #ifdef
    macintosh).  Strings are lists of character codes; the String and Substring functions used
    (extract, fields, concat, ^, splitr, trimr, string, CharVector.exists) are written here as their
    meaning on lists, which is what C33 proves of them for strings below 2^31 characters.  Strings
    beyond the maximal length are not considered.  A path record {isAbs, vol, arcs} is a triple. *)
From Verif Require Import Base.

Notation arc := (list Z) (only parsing).
Definition eqs (a b : list Z) : bool := if list_eq_dec Z.eq_dec a b then true else false.

(** Path.mlp 23 and 35: isunixslash, isslash *)
Definition isslash (c : Z) : bool := c =? 47.
(** Path.mlp 20-21, 33-34 *)
Definition slash : list Z := [47].
Definition volslash : list Z := [47].
(** Path.mlp 136-137 *)
Definition parentArc : arc := [46; 46].
Definition currentArc : arc := [46].
(** Path.mlp 36 *)
Definition validVol (s : list Z) : bool := eqs s [].
(** Path.mlp 25-29, 42 *)
Definition splitabsvolrest (s : list Z) : bool * list Z * list Z :=
  match s with
  | c :: r => if isslash c then (true, [], r) else (false, [], s)
  | [] => (false, [], s)
  end.
(** String.fields isslash (String.sml 120-121, Strbase.mlp 94-102): see C33 *)
Fixpoint fields (s : list Z) : list arc :=
  match s with
  | [] => [[]]
  | c :: s => if isslash c then [] :: fields s
              else match fields s with f :: fs => (c :: f) :: fs | [] => [[c]] end
  end.
(** Path.mlp 140-142 *)
Definition isAbsolute (p : list Z) : bool := let '(a, _, _) := splitabsvolrest p in a.
Definition isRelative (p : list Z) : bool := negb (isAbsolute p).
(** Path.mlp 144-152 *)
Definition fromString (p : list Z) : bool * list Z * list arc :=
  match splitabsvolrest p with
  | (false, v, []) => (false, v, [])
  | (isAbs, v, rest) => (isAbs, v, fields rest)
  end.
(** Path.mlp 154-160 *)
Definition isRoot (p : list Z) : bool := match splitabsvolrest p with (true, _, []) => true | _ => false end.
Definition getVolume (p : list Z) : list Z := let '(_, v, _) := splitabsvolrest p in v.
Definition validVolume (isAbs : bool) (vol : list Z) : bool := validVol vol.
(** Path.mlp 163-164 *)
Fixpoint h_slash (arcs : list arc) (res : list arc) : list arc :=
  match arcs with [] => res | a :: ar => h_slash ar (a :: slash :: res) end.
(** Path.mlp 162-185 *)
Definition toString (path : bool * list Z * list arc) : outcome (list Z) :=
  let '(isAbs, vol, arcs) := path in
  if validVolume isAbs vol then
    match isAbs, arcs with
    | false, [] => Ret vol
    | false, [] :: _ => Raise PathExn
    | false, a1 :: arest => Ret (List.concat (vol :: rev (h_slash arest [a1])))
    | true, [] => Ret (vol ++ volslash)
    | true, a1 :: arest => Ret (List.concat (rev (h_slash arest [a1; volslash; vol])))
    end
  else Raise PathExn.
(** Path.mlp 210-213; only called on a non-empty path *)
Definition stripslash (path : list Z) : outcome (list Z) :=
  match rev path with
  | [] => Raise Subscript
  | c :: r => Ret (if isslash c then rev r else path)
  end.
(** Path.mlp 209-222 *)
Definition concat (p1 p2 : list Z) : outcome (list Z) :=
  if isAbsolute p2 then Raise PathExn
  else match splitabsvolrest p1 with
       | (false, [], []) => Ret p2
       | (false, v, path) => do s <- stripslash path; Ret (v ++ s ++ slash ++ p2)
       | (true, v, []) => Ret (v ++ volslash ++ p2)
       | (true, v, path) => do s <- stripslash path; Ret (v ++ volslash ++ s ++ slash ++ p2)
       end.
(** Path.mlp 247-254 *)
Definition getpar (isAbs : bool) (xs : list arc) : list arc :=
  rev (match rev xs with
       | [] => [parentArc]
       | last :: revrest =>
         if eqs last [] then
           match revrest with [] => if isAbs then [] else [parentArc] | _ => parentArc :: revrest end
         else if eqs last currentArc then parentArc :: revrest
         else if eqs last parentArc then parentArc :: parentArc :: revrest
         else revrest
       end).
(** Path.mlp 244-261 *)
Definition getParent (p : list Z) : outcome (list Z) :=
  let '(isAbs, vol, arcs) := fromString p in
  match getpar isAbs arcs with
  | [] => if isAbs then toString (true, vol, [[]]) else Ret currentArc
  | arcs => toString (isAbs, vol, arcs)
  end.
(** Path.mlp 288-290 *)
Definition backup (isAbs : bool) (res : list arc) : list arc :=
  match res with
  | [] => if isAbs then [] else [parentArc]
  | a :: r => if eqs a parentArc then parentArc :: parentArc :: r else r
  end.
(** Path.mlp 292-297 *)
Fixpoint reduce_h (isAbs : bool) (arcs res : list arc) : list arc :=
  match arcs with
  | [] => match res with [] => if isAbs then [[]] else [currentArc] | _ => res end
  | a :: ar =>
    if eqs a [] then reduce_h isAbs ar res
    else if eqs a currentArc then reduce_h isAbs ar res
    else if eqs a parentArc then reduce_h isAbs ar (backup isAbs res)
    else reduce_h isAbs ar (a :: res)
  end.
(** Path.mlp 286-301 *)
Definition mkCanonical (p : list Z) : outcome (list Z) :=
  let '(isAbs, vol, arcs) := fromString p in
  toString (isAbs, vol, rev (reduce_h isAbs arcs [])).
(** Path.mlp 329-330 *)
Fixpoint parentize (ar : list arc) : list arc := match ar with [] => [] | _ :: ar => parentArc :: parentize ar end.
(** Path.mlp 337-342 *)
Fixpoint rel_h (arcs1 a1 a2 : list arc) : list arc :=
  match a1, a2 with
  | [], [] => [currentArc]
  | a1, [] => a1
  | [], a2 => parentize a2
  | a11 :: a1r, a21 :: a2r =>
    if eqs a11 a21 then rel_h arcs1 a1r a2r
    else parentize a2 ++ (if list_eq_dec (list_eq_dec Z.eq_dec) arcs1 [[]] then [] else a1)
  end.
(** Path.mlp 332-346 *)
Definition mkRelative (p1 p2 : list Z) : outcome (list Z) :=
  do c2 <- mkCanonical p2;
  match fromString p1, fromString c2 with
  | _, (false, _, _) => Raise PathExn
  | (false, _, _), _ => Ret p1
  | (_, vol1, arcs1), (_, vol2, arcs2) =>
    if negb (eqs vol1 vol2) then Raise PathExn else toString (false, [], rel_h arcs1 arcs1 arcs2)
  end.
(** Path.mlp 349-352 *)
Definition mkAbsolute (p1 p2 : list Z) : outcome (list Z) :=
  if isRelative p2 then Raise PathExn
  else if isAbsolute p1 then Ret p1
  else do c <- concat p2 p1; mkCanonical c.
(** Path.mlp 354 *)
Definition isCanonical (p : list Z) : outcome bool := do c <- mkCanonical p; Ret (eqs c p).
(** Path.mlp 356 *)
Definition joinDirFile (dir file : list Z) : outcome (list Z) := concat dir file.
(** Path.mlp 358-378 *)
Definition splitDirFile (p : list Z) : outcome (list Z * list Z) :=
  let '(isAbs, vol, arcs) := fromString p in
  match rev arcs with
  | [] => do d <- toString (isAbs, vol, []); Ret (d, [])
  | arcn :: farcs => do d <- toString (isAbs, vol, rev farcs); Ret (d, arcn)
  end.
(** Path.mlp 380-381 *)
Definition dir (s : list Z) : outcome (list Z) := do (d, _) <- splitDirFile s; Ret d.
Definition file (s : list Z) : outcome (list Z) := do (_, f) <- splitDirFile s; Ret f.
(** Path.mlp 383-385 *)
Definition joinBaseExt (base : list Z) (ext : option (list Z)) : list Z :=
  match ext with
  | None => base
  | Some [] => base
  | Some ex => base ++ [46] ++ ex
  end.
(** Substring.splitr (fn c => c <> #".") on a whole string: the longest suffix without dots, C33 *)
Fixpoint splitr_dot (s : list Z) : list Z * list Z :=
  match s with
  | [] => ([], [])
  | c :: s => let (a, b) := splitr_dot s in
              match a with
              | [] => if c =? 46 then ([c], b) else ([], c :: b)
              | _ => (c :: a, b)
              end
  end.
(** Path.mlp 387-400 *)
Definition splitBaseExt (s : list Z) : outcome (list Z * option (list Z)) :=
  do (dir, file) <- splitDirFile s;
  let (fst, snd) := splitr_dot file in
  match snd, fst with
  | [], _ => Ret (s, None)
  | _, [] => Ret (s, None)
  | _, [_] => Ret (s, None)
  | _, _ => do b <- joinDirFile dir (removelast fst); Ret (b, Some snd)
  end.
(** Path.mlp 402-403 *)
Definition ext (s : list Z) : outcome (option (list Z)) := do (_, e) <- splitBaseExt s; Ret e.
Definition base (s : list Z) : outcome (list Z) := do (b, _) <- splitBaseExt s; Ret b.
(** Path.mlp 407-428: on Unix these are fromString and toString *)
Definition fromUnixString := fromString.
Definition toUnixString := toString.
(** Path.mlp 432-434 *)
Definition invalidArc (isInvalid : arc -> bool) (a : arc) : outcome unit := if isInvalid a then Ret tt else Raise InvalidArc.
(** List.app *)
Fixpoint app_ (f : arc -> outcome unit) (l : list arc) : outcome unit :=
  match l with [] => Ret tt | a :: l => do _ <- f a; app_ f l end.
(** Path.mlp 430-431, 436-446 *)
Definition fromUnixPath (s : list Z) : outcome (list Z) :=
  let '(isAbs, vol, arcs) := fromUnixString s in
  do _ <- app_ (invalidArc (existsb isslash)) arcs; toString (isAbs, vol, arcs).
Definition toUnixPath (s : list Z) : outcome (list Z) :=
  let '(isAbs, vol, arcs) := fromString s in
  do _ <- app_ (invalidArc (existsb isslash)) arcs; toUnixString (isAbs, vol, arcs).
