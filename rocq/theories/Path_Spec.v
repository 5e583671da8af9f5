(** What Unix paths are and where they lead (independent of the code). *)
From Verif Require Import Base.

Definition no_slash (a : list Z) : Prop := ~ In 47 a.
(** the arcs separated by slashes *)
Fixpoint join (arcs : list (list Z)) : list Z :=
  match arcs with [] => [] | [a] => a | a :: r => a ++ 47 :: join r end.
(** [parts abs arcs p]: p is an absolute (leading slash) or relative path with the given arcs; the
    empty path has no arcs, the root one empty arc, and a relative path does not begin with an empty
    arc (that would be a leading slash) *)
Definition parts (abs : bool) (arcs : list (list Z)) (p : list Z) : Prop :=
  Forall no_slash arcs /\ p = (if abs then [47] else []) ++ join arcs /\
  (if abs then arcs <> [] else forall r, arcs <> [] :: r).
(** A place in the file system (without symbolic links): names of the directories, innermost first.
    Walking an arc: "" and "." stay, ".." goes up (the root is its own parent), others go down. *)
Definition arc_step (place : list (list Z)) (a : list Z) : list (list Z) :=
  if list_eq_dec Z.eq_dec a [] then place
  else if list_eq_dec Z.eq_dec a [46] then place
  else if list_eq_dec Z.eq_dec a [46; 46] then tl place
  else a :: place.
Definition walk (arcs place : list (list Z)) : list (list Z) := fold_left arc_step arcs place.
(** path p leads from the working directory [from] to [to] *)
Definition leads (p : list Z) (from to : list (list Z)) : Prop :=
  exists abs arcs, parts abs arcs p /\ to = walk arcs (if abs then [] else from).
Definition same_place (p q : list Z) : Prop := forall from to, leads p from to <-> leads q from to.
(** proper names *)
Definition proper (a : list Z) : Prop := no_slash a /\ a <> [] /\ a <> [46] /\ a <> [46; 46].
(** canonical paths (Path.sig 60-62): parent arcs only at the beginning of a relative path, then
    proper names; "/" and "." if there are none *)
Definition cpath (abs : bool) (ups : nat) (names : list (list Z)) : list Z :=
  match ups, names with
  | O, [] => if abs then [47] else [46]
  | _, _ => (if abs then [47] else []) ++ join (repeat [46; 46] ups ++ names)
  end.
Definition canonical (p : list Z) : Prop :=
  exists abs ups names, Forall proper names /\ (abs = true -> ups = O) /\ p = cpath abs ups names.
(** begins with a slash *)
Definition absolute (p : list Z) : Prop := exists r, p = 47 :: r.
(** an empty arc just before the last arc *)
Definition doubled (p : list Z) : Prop := exists a f, p = a ++ 47 :: 47 :: f /\ no_slash f.
