(** Model of mosmllib/List.sml and mosmllib/ListPair.sml.
    The functions given by the user may have effects on a state of any type [S] and raise exceptions
    (they are taken to return: a call that does not return is not modelled).  An expression is a
    function from the state to a value or an exception, with the new state; subexpressions are
    evaluated from left to right, as the Definition of Standard ML prescribes.
    Integers here are positions in lists and counts of their elements; they are unbounded:
    a list has fewer than 2^62 elements. *)
From Verif Require Import Base.

Inductive res (S A : Type) := Val (a : A) (s : S) | Exn (e : exn) (s : S).
Arguments Val {S A} _ _. Arguments Exn {S A} _ _.
Definition M (S A : Type) := S -> res S A.
Definition val {S A} (a : A) : M S A := fun s => Val a s.
Definition raise {S A} (e : exn) : M S A := fun s => Exn e s.
Definition seq {S A B} (m : M S A) (k : A -> M S B) : M S B :=
  fun s => match m s with Val a s' => k a s' | Exn e s' => Exn e s' end.
Notation "'run' x <- m ; k" := (seq m (fun x => k)) (at level 200, x pattern, m at level 100, k at level 200).

Section List.
Context {S A B : Type}.

(** List.sml 10-18 *)
Definition hd (l : list A) : outcome A := match l with [] => Raise EmptyExn | x :: _ => Ret x end.
Definition tl (l : list A) : outcome (list A) := match l with [] => Raise EmptyExn | _ :: xr => Ret xr end.
Fixpoint last (l : list A) : outcome A := match l with [] => Raise EmptyExn | [x] => Ret x | _ :: xr => last xr end.
(** List.sml 20-23 *)
Fixpoint nth_h (l : list A) (n : Z) : outcome A :=
  match l with [] => Raise Subscript | x :: xr => if n =? 0 then Ret x else nth_h xr (n - 1) end.
Definition nth (xs : list A) (n : Z) : outcome A := if n <? 0 then Raise Subscript else nth_h xs n.
(** List.sml 25-29 *)
Fixpoint drop_h (l : list A) (n : Z) : outcome (list A) :=
  if n =? 0 then Ret l else match l with [] => Raise Subscript | _ :: xr => drop_h xr (n - 1) end.
Definition drop (xs : list A) (n : Z) : outcome (list A) := if n <? 0 then Raise Subscript else drop_h xs n.
(** List.sml 31-35 *)
Fixpoint take_h (l : list A) (n : Z) : outcome (list A) :=
  if n =? 0 then Ret [] else match l with [] => Raise Subscript | x :: xr => do r <- take_h xr (n - 1); Ret (x :: r) end.
Definition take (xs : list A) (n : Z) : outcome (list A) := if n <? 0 then Raise Subscript else take_h xs n.
(** List.sml 37-40 *)
Fixpoint len_acc (l : list A) (k : Z) : Z := match l with [] => k | _ :: xr => len_acc xr (k + 1) end.
Definition length (xs : list A) : Z := len_acc xs 0.
(** List.sml 43-48 *)
Fixpoint revAcc (l ys : list A) : list A := match l with [] => ys | x :: xs => revAcc xs (x :: ys) end.
Definition rev (xs : list A) : list A := revAcc xs [].
Definition revAppend (xs ys : list A) : list A := revAcc xs ys.
(** List.sml 52-56 *)
Fixpoint append_h (l ys : list A) : list A := match l with [] => ys | x :: xs => x :: append_h xs ys end.
Definition append (xs ys : list A) : list A := match ys with [] => xs | _ => append_h xs ys end.
(** List.sml 59-60 *)
Fixpoint concat (l : list (list A)) : list A := match l with [] => [] | xs :: xsr => append xs (concat xsr) end.
(** List.sml 62-63 *)
Fixpoint app (f : A -> M S unit) (l : list A) : M S unit :=
  match l with [] => val tt | x :: xr => run _ <- f x; app f xr end.
(** List.sml 65-66 *)
Fixpoint map (f : A -> M S B) (l : list A) : M S (list B) :=
  match l with [] => val [] | x :: xs => run b <- f x; run r <- map f xs; val (b :: r) end.
(** List.sml 68-70 *)
Fixpoint mapPartial (f : A -> M S (option B)) (l : list A) : M S (list B) :=
  match l with
  | [] => val []
  | x :: xr => run o <- f x; match o with None => mapPartial f xr | Some r => run l' <- mapPartial f xr; val (r :: l') end
  end.
(** List.sml 72-73 *)
Fixpoint find (p : A -> M S bool) (l : list A) : M S (option A) :=
  match l with [] => val None | x :: xr => run b <- p x; if b then val (Some x) else find p xr end.
(** List.sml 75-76 *)
Fixpoint filter (p : A -> M S bool) (l : list A) : M S (list A) :=
  match l with [] => val [] | x :: xr => run b <- p x; if b then (run r <- filter p xr; val (x :: r)) else filter p xr end.
(** List.sml 78-82 *)
Fixpoint part_h (p : A -> M S bool) (l are arent : list A) : M S (list A * list A) :=
  match l with
  | [] => val (rev are, rev arent)
  | x :: xr => run b <- p x; if b then part_h p xr (x :: are) arent else part_h p xr are (x :: arent)
  end.
Definition partition (p : A -> M S bool) (xs : list A) : M S (list A * list A) := part_h p xs [] [].
(** List.sml 84-85 *)
Fixpoint foldr (f : A * B -> M S B) (e : B) (l : list A) : M S B :=
  match l with [] => val e | x :: xr => run r <- foldr f e xr; f (x, r) end.
(** List.sml 87-88 *)
Fixpoint foldl (f : A * B -> M S B) (e : B) (l : list A) : M S B :=
  match l with [] => val e | x :: xr => run e' <- f (x, e); foldl f e' xr end.
(** List.sml 90-94 *)
Fixpoint exists_ (p : A -> M S bool) (l : list A) : M S bool :=
  match l with [] => val false | x :: xr => run b <- p x; if b then val true else exists_ p xr end.
Fixpoint all (p : A -> M S bool) (l : list A) : M S bool :=
  match l with [] => val true | x :: xr => run b <- p x; if b then all p xr else val false end.
(** List.sml 106-108: [n - i] calls remain; structural on their number *)
Fixpoint tab_h (n : Z) (f : Z -> M S B) (calls : nat) (i : Z) : M S (list B) :=
  if i <? n then
    match calls with O => val [] | Datatypes.S calls => run b <- f i; run r <- tab_h n f calls (i + 1); val (b :: r) end
  else val [].
Definition tabulate (n : Z) (f : Z -> M S B) : M S (list B) :=
  if n <? 0 then raise Size else tab_h n f (Z.to_nat n) 0.
End List.
(** List.sml 96-104 *)
Fixpoint collate {S A C} (cmp : A * C -> M S comparison) (xs : list A) (ys : list C) : M S comparison :=
  match xs, ys with
  | [], [] => val Eq
  | [], _ :: _ => val Lt
  | _ :: _, [] => val Gt
  | x1 :: xr, y1 :: yr => run c <- cmp (x1, y1); match c with Eq => collate cmp xr yr | r => val r end
  end.

Section ListPair.
Context {S A C B : Type}.
(** ListPair.sml 3-6 *)
Fixpoint zip_h (xs : list A) (ys : list C) (r : list (A * C)) : list (A * C) :=
  match xs, ys with x :: xr, y :: yr => zip_h xr yr ((x, y) :: r) | _, _ => rev r end.
Definition zip (xs : list A) (ys : list C) := zip_h xs ys [].
(** ListPair.sml 8-11 *)
Fixpoint unzip_h (l : list (A * C)) (xs : list A) (ys : list C) : list A * list C :=
  match l with [] => (rev xs, rev ys) | (x, y) :: xyr => unzip_h xyr (x :: xs) (y :: ys) end.
Definition unzip (xys : list (A * C)) := unzip_h xys [] [].
(** ListPair.sml 13-16 *)
Fixpoint map2_h (f : A * C -> M S B) (xs : list A) (ys : list C) (r : list B) : M S (list B) :=
  match xs, ys with x :: xr, y :: yr => run b <- f (x, y); map2_h f xr yr (b :: r) | _, _ => val (rev r) end.
Definition map2 f xs ys := map2_h f xs ys [].
(** ListPair.sml 18-21 *)
Fixpoint app2 (f : A * C -> M S unit) (xs : list A) (ys : list C) : M S unit :=
  match xs, ys with x :: xr, y :: yr => run _ <- f (x, y); app2 f xr yr | _, _ => val tt end.
(** ListPair.sml 23-31 *)
Fixpoint all2 (p : A * C -> M S bool) (xs : list A) (ys : list C) : M S bool :=
  match xs, ys with x :: xr, y :: yr => run b <- p (x, y); if b then all2 p xr yr else val false | _, _ => val true end.
Fixpoint some2 (p : A * C -> M S bool) (xs : list A) (ys : list C) : M S bool :=
  match xs, ys with x :: xr, y :: yr => run b <- p (x, y); if b then val true else some2 p xr yr | _, _ => val false end.
(** ListPair.sml 33-41 *)
Fixpoint foldr2 (f : A * C * B -> M S B) (e : B) (xs : list A) (ys : list C) : M S B :=
  match xs, ys with x :: xr, y :: yr => run r <- foldr2 f e xr yr; f (x, y, r) | _, _ => val e end.
Fixpoint foldl2 (f : A * C * B -> M S B) (e : B) (xs : list A) (ys : list C) : M S B :=
  match xs, ys with x :: xr, y :: yr => run e' <- f (x, y, e); foldl2 f e' xr yr | _, _ => val e end.
(** ListPair.sml 45-49 *)
Fixpoint zipEq_h (xs : list A) (ys : list C) (r : list (A * C)) : outcome (list (A * C)) :=
  match xs, ys with x :: xr, y :: yr => zipEq_h xr yr ((x, y) :: r) | [], [] => Ret (rev r) | _, _ => Raise UnequalLengths end.
Definition zipEq (xs : list A) (ys : list C) := zipEq_h xs ys [].
(** ListPair.sml 51-55 *)
Fixpoint mapEq_h (f : A * C -> M S B) (xs : list A) (ys : list C) (r : list B) : M S (list B) :=
  match xs, ys with
  | x :: xr, y :: yr => run b <- f (x, y); mapEq_h f xr yr (b :: r)
  | [], [] => val (rev r) | _, _ => raise UnequalLengths
  end.
Definition mapEq f xs ys := mapEq_h f xs ys [].
(** ListPair.sml 57-61 *)
Fixpoint appEq (f : A * C -> M S unit) (xs : list A) (ys : list C) : M S unit :=
  match xs, ys with x :: xr, y :: yr => run _ <- f (x, y); appEq f xr yr | [], [] => val tt | _, _ => raise UnequalLengths end.
(** ListPair.sml 63-67 *)
Fixpoint allEq (p : A * C -> M S bool) (xs : list A) (ys : list C) : M S bool :=
  match xs, ys with x :: xr, y :: yr => run b <- p (x, y); if b then allEq p xr yr else val false | [], [] => val true | _, _ => val false end.
(** ListPair.sml 69-79 *)
Fixpoint foldrEq (f : A * C * B -> M S B) (e : B) (xs : list A) (ys : list C) : M S B :=
  match xs, ys with x :: xr, y :: yr => run r <- foldrEq f e xr yr; f (x, y, r) | [], [] => val e | _, _ => raise UnequalLengths end.
Fixpoint foldlEq (f : A * C * B -> M S B) (e : B) (xs : list A) (ys : list C) : M S B :=
  match xs, ys with x :: xr, y :: yr => run e' <- f (x, y, e); foldlEq f e' xr yr | [], [] => val e | _, _ => raise UnequalLengths end.
End ListPair.
