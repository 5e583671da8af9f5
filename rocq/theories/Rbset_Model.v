(** Model of src/mosmllib/Rbset.sml (red-black sets).
    Simplifications: the user's functions (compare, f, p, h) are pure and total; the item count
    is an unbounded integer (a tree with 2^62 nodes does not fit in a 64-bit address space, so
    the Overflow checks on the count are unreachable). *)
From Verif Require Import Base.

Section Rbset.
Context {A : Type}.

(** Rbset.sml 8-10: datatype tree *)
Inductive tree : Type :=
| LEAF
| RED (x : A) (l r : tree)
| BLACK (x : A) (l r : tree).

(** Rbset.sml 12: type set (the comparison function is a parameter here) *)
Definition set : Type := (tree * Z)%type.

(** Rbset.sml 14-18 *)
Inductive intv := All | From (e1 : A) | To (e2 : A) | FromTo (e1 e2 : A).

(** Rbset.sml 22 *)
Definition empty : set := (LEAF, 0).
(** Rbset.sml 26 *)
Definition numItems (s : set) : Z := snd s.
(** Rbset.sml 28 *)
Definition singleton (x : A) : set := (BLACK x LEAF LEAF, 1).
(** Rbset.sml 30-31 *)
Definition isEmpty (s : set) : bool := match fst s with LEAF => true | _ => false end.

Variable compare : A -> A -> comparison.

(** Rbset.sml 33-42 *)
Fixpoint mem (elm : A) (t : tree) : bool :=
  match t with
  | LEAF => false
  | RED x lft rgt | BLACK x lft rgt =>
    match compare elm x with
    | Eq => true
    | Lt => mem elm lft
    | Gt => mem elm rgt
    end
  end.
Definition member (s : set) (elm : A) : bool := mem elm (fst s).

(** Rbset.sml 48-52 *)
Definition lbalance (z : A) (l d : tree) : tree :=
  match l with
  | RED y (RED x a b) c => RED y (BLACK x a b) (BLACK z c d)
  | RED x a (RED y b c) => RED y (BLACK x a b) (BLACK z c d)
  | _ => BLACK z l d
  end.

(** Rbset.sml 54-58 *)
Definition rbalance (x : A) (a r : tree) : tree :=
  match r with
  | RED y b (RED z c d) => RED y (BLACK x a b) (BLACK z c d)
  | RED z (RED y b c) d => RED y (BLACK x a b) (BLACK z c d)
  | _ => BLACK x a r
  end.

(** Rbset.sml 63-75; [None] stands for the exception GETOUT, which is only raised here and only
    handled in [add] *)
Fixpoint ins (elm : A) (t : tree) : option tree :=
  match t with
  | LEAF => Some (RED elm LEAF LEAF)
  | BLACK x lft rgt =>
    match compare elm x with
    | Lt => match ins elm lft with Some l => Some (lbalance x l rgt) | None => None end
    | Gt => match ins elm rgt with Some r => Some (rbalance x lft r) | None => None end
    | Eq => None
    end
  | RED x lft rgt =>
    match compare elm x with
    | Lt => match ins elm lft with Some l => Some (RED x l rgt) | None => None end
    | Gt => match ins elm rgt with Some r => Some (RED x lft r) | None => None end
    | Eq => None
    end
  end.

(** Rbset.sml 80-82 and 435-437: recolouring of the root *)
Definition blacken (t : tree) : tree :=
  match t with RED x l r => BLACK x l r | t => t end.

(** Rbset.sml 78-84 *)
Definition add (s : set) (elm : A) : set :=
  match ins elm (fst s) with
  | Some t => (blacken t, snd s + 1)
  | None => s
  end.
(** Rbset.sml 86-88 *)
Definition addList (s : set) (xs : list A) : set := fold_left add xs s.

(** Rbset.sml 91-92 *)
Definition push (t : tree) (stack : list tree) : list tree :=
  match t with LEAF => stack | _ => t :: stack end.

(** Rbset.sml 94 *)
Definition pushNode (x : A) (right : tree) (stack : list tree) :=
  BLACK x LEAF LEAF :: push right stack.

(** Rbset.sml 96-105; fuel bounds the number of calls to getMin itself *)
Fixpoint getMin_f (fuel : nat) {R} (stack : list tree)
    (some : A -> list tree -> outcome R) (none : outcome R) : outcome R :=
  match fuel with
  | O => Diverge
  | S fuel =>
    match stack with
    | [] => none
    | t :: rest =>
      (fix descend (t : tree) (stack : list tree) : outcome R :=
         match t with
         | LEAF => getMin_f fuel stack some none
         | RED x LEAF rgt => some x (push rgt stack)
         | BLACK x LEAF rgt => some x (push rgt stack)
         | RED x lft rgt => descend lft (pushNode x rgt stack)
         | BLACK x lft rgt => descend lft (pushNode x rgt stack)
         end) t rest
    end
  end.
Definition getMin {R} (stack : list tree) (some : A -> list tree -> outcome R) (none : outcome R) :=
  getMin_f (S (length stack)) stack some none.

(** Rbset.sml 117-126 *)
Fixpoint getMax_f (fuel : nat) {R} (stack : list tree)
    (some : A -> list tree -> outcome R) (none : outcome R) : outcome R :=
  match fuel with
  | O => Diverge
  | S fuel =>
    match stack with
    | [] => none
    | t :: rest =>
      (fix descend (t : tree) (stack : list tree) : outcome R :=
         match t with
         | LEAF => getMax_f fuel stack some none
         | RED x lft LEAF => some x (push lft stack)
         | BLACK x lft LEAF => some x (push lft stack)
         | RED x lft rgt => descend rgt (pushNode x lft stack)
         | BLACK x lft rgt => descend rgt (pushNode x lft stack)
         end) t rest
    end
  end.
Definition getMax {R} (stack : list tree) (some : A -> list tree -> outcome R) (none : outcome R) :=
  getMax_f (S (length stack)) stack some none.

(** number of nodes in a tree / in a stack of trees; only used to choose fuel *)
Fixpoint size (t : tree) : nat :=
  match t with LEAF => O | RED _ l r | BLACK _ l r => S (size l + size r) end.
Fixpoint ssize (s : list tree) : nat :=
  match s with [] => O | t :: s => (size t + ssize s)%nat end.

Definition getter := forall R, list tree -> (A -> list tree -> outcome R) -> outcome R -> outcome R.

(** Rbset.sml 137-140 *)
Fixpoint fold_loop (fuel : nat) (get : getter) {B} (f : A -> B -> B)
    (stack : list tree) (acc : B) : outcome B :=
  match fuel with
  | O => Diverge
  | S fuel => get B stack (fun x stack => fold_loop fuel get f stack (f x acc)) (Ret acc)
  end.
Definition fold (get : getter) {B} (f : A -> B -> B) (e : B) (s : set) : outcome B :=
  fold_loop (S (size (fst s))) get f (push (fst s) []) e.

(** Rbset.sml 142-146 *)
Definition foldl {B} (f : A -> B -> B) (e : B) (s : set) := fold (@getMin) f e s.
Definition foldr {B} (f : A -> B -> B) (e : B) (s : set) := fold (@getMax) f e s.
Definition listItems (s : set) : outcome (list A) := foldr cons [] s.

(** Rbset.sml 148-154.  The effects of [f] are modelled as a state transformer. *)
Fixpoint appAll_loop (fuel : nat) (get : getter) {S} (f : A -> S -> S)
    (stack : list tree) (s : S) : outcome S :=
  match fuel with
  | O => Diverge
  | Datatypes.S fuel =>
    get S stack (fun x stack => let s' := f x s in appAll_loop fuel get f stack s') (Ret s)
  end.
Definition app {S} (f : A -> S -> S) (d : set) (s : S) : outcome S :=
  appAll_loop (Datatypes.S (size (fst d))) (@getMin) f [fst d] s.
Definition revapp {S} (f : A -> S -> S) (d : set) (s : S) : outcome S :=
  appAll_loop (Datatypes.S (size (fst d))) (@getMax) f [fst d] s.

(** Rbset.sml 156-160 *)
Fixpoint find_loop (fuel : nat) (p : A -> bool) (stack : list tree) : outcome (option A) :=
  match fuel with
  | O => Diverge
  | S fuel => getMin stack (fun x stack => if p x then Ret (Some x) else find_loop fuel p stack) (Ret None)
  end.
Definition find (p : A -> bool) (s : set) : outcome (option A) :=
  find_loop (S (size (fst s))) p (push (fst s) []).

(** Rbset.sml 167-170 *)
Inductive digits : Type :=
| ZERO
| ONE (x : A) (a : tree) (ds : digits)
| TWO (y : A) (b : tree) (x : A) (a : tree) (ds : digits).

(** Rbset.sml 172-175 *)
Fixpoint incr (x : A) (a : tree) (d : digits) : digits :=
  match d with
  | ZERO => ONE x a ZERO
  | ONE y b ds => TWO x a y b ds
  | TWO y b x' a' ds => ONE x a (incr y (BLACK x' a' b) ds)
  end.
(** Rbset.sml 177 *)
Definition insertMax (a : A) (d : digits) : digits := incr a LEAF d.

(** Rbset.sml 179-183 *)
Fixpoint build (d : digits) (b : tree) : tree :=
  match d with
  | ZERO => b
  | ONE x a ds => build ds (BLACK x a b)
  | TWO y b' x a ds => build ds (BLACK x a (RED y b' b))
  end.
Definition buildAll (d : digits) : tree := build d LEAF.

(** Rbset.sml 185-191 *)
Fixpoint toInt_loop (d : digits) (power acc : Z) : Z :=
  match d with
  | ZERO => acc
  | ONE _ _ rest => toInt_loop rest (2 * power) (power + acc)
  | TWO _ _ _ _ rest => toInt_loop rest (2 * power) (2 * power + acc)
  end.
Definition toInt (d : digits) : Z := toInt_loop d 1 0.

(** Rbset.sml 193 *)
Definition get (stack : list tree) : outcome (option (A * list tree)) :=
  getMin stack (fun x stack => Ret (Some (x, stack))) (Ret None).

(** Rbset.sml 195-197 *)
Fixpoint insRest_f (fuel : nat) (stack : list tree) (acc : digits) : outcome digits :=
  match fuel with
  | O => Diverge
  | S fuel => getMin stack (fun x stack => insRest_f fuel stack (insertMax x acc)) (Ret acc)
  end.
Definition insRest (stack : list tree) (acc : digits) := insRest_f (S (ssize stack)) stack acc.

(** Rbset.sml 200-202 *)
Definition finish (d : digits) : set := (buildAll d, toInt d).
Definition fromSortedList (ls : list A) : set :=
  finish (fold_left (fun d x => insertMax x d) ls ZERO).

(** Rbset.sml 209-230 *)
Fixpoint union_loop (fuel : nat) (x y : A) (stack1 stack2 : list tree) (res : digits) : outcome digits :=
  match fuel with
  | O => Diverge
  | S fuel =>
    match compare x y with
    | Eq =>
      let res := insertMax x res in
      do g1 <- get stack1; do g2 <- get stack2;
      match g1, g2 with
      | Some (x, s1), Some (y, s2) => union_loop fuel x y s1 s2 res
      | None, None => Ret res
      | Some _, _ => insRest stack1 res
      | _, Some _ => insRest stack2 res
      end
    | Lt =>
      let res := insertMax x res in
      do g1 <- get stack1;
      match g1 with
      | None => insRest stack2 (insertMax y res)
      | Some (x, stack1) => union_loop fuel x y stack1 stack2 res
      end
    | Gt =>
      let res := insertMax y res in
      do g2 <- get stack2;
      match g2 with
      | None => insRest stack1 (insertMax x res)
      | Some (y, stack2) => union_loop fuel x y stack1 stack2 res
      end
    end
  end.
Definition loop_fuel (s1 s2 : set) : nat := S (size (fst s1) + size (fst s2)).
(** Rbset.sml 208, 231-237 *)
Definition union (s1 s2 : set) : outcome set :=
  do g1 <- get [fst s1]; do g2 <- get [fst s2];
  match g1, g2 with
  | Some (x, stack1), Some (y, stack2) =>
    do d <- union_loop (loop_fuel s1 s2) x y stack1 stack2 ZERO; Ret (finish d)
  | _, Some _ => Ret s2
  | _, _ => Ret s1
  end.

(** Rbset.sml 241-256 *)
Fixpoint inter_loop (fuel : nat) (x y : A) (stack1 stack2 : list tree) (res : digits) : outcome digits :=
  match fuel with
  | O => Diverge
  | S fuel =>
    match compare x y with
    | Eq =>
      let res := insertMax x res in
      do g1 <- get stack1; do g2 <- get stack2;
      match g1, g2 with
      | Some (x, s1), Some (y, s2) => inter_loop fuel x y s1 s2 res
      | _, _ => Ret res
      end
    | Lt =>
      do g1 <- get stack1;
      match g1 with
      | None => Ret res
      | Some (x, stack1) => inter_loop fuel x y stack1 stack2 res
      end
    | Gt =>
      do g2 <- get stack2;
      match g2 with
      | None => Ret res
      | Some (y, stack2) => inter_loop fuel x y stack1 stack2 res
      end
    end
  end.
(** Rbset.sml 240, 257-262 *)
Definition intersection (s1 s2 : set) : outcome set :=
  do g1 <- get [fst s1]; do g2 <- get [fst s2];
  match g1, g2 with
  | Some (x, stack1), Some (y, stack2) =>
    do d <- inter_loop (loop_fuel s1 s2) x y stack1 stack2 ZERO; Ret (finish d)
  | _, _ => Ret empty
  end.

(** Rbset.sml 266-282 *)
Fixpoint diff_loop (fuel : nat) (x y : A) (stack1 stack2 : list tree) (res : digits) : outcome digits :=
  match fuel with
  | O => Diverge
  | S fuel =>
    match compare x y with
    | Eq =>
      do g1 <- get stack1; do g2 <- get stack2;
      match g1, g2 with
      | Some (x, s1), Some (y, s2) => diff_loop fuel x y s1 s2 res
      | Some _, _ => insRest stack1 res
      | _, _ => Ret res
      end
    | Lt =>
      let res := insertMax x res in
      do g1 <- get stack1;
      match g1 with
      | None => Ret res
      | Some (x, stack1) => diff_loop fuel x y stack1 stack2 res
      end
    | Gt =>
      do g2 <- get stack2;
      match g2 with
      | None => insRest stack1 (insertMax x res)
      | Some (y, stack2) => diff_loop fuel x y stack1 stack2 res
      end
    end
  end.
(** Rbset.sml 265, 283-289 *)
Definition difference (s1 s2 : set) : outcome set :=
  do g1 <- get [fst s1]; do g2 <- get [fst s2];
  match g1, g2 with
  | Some (x, stack1), Some (y, stack2) =>
    do d <- diff_loop (loop_fuel s1 s2) x y stack1 stack2 ZERO; Ret (finish d)
  | _, Some _ => Ret empty
  | _, _ => Ret s1
  end.

(** Rbset.sml 292-299 *)
Fixpoint equal_loop (fuel : nat) (x y : A) (stack1 stack2 : list tree) : outcome bool :=
  match fuel with
  | O => Diverge
  | S fuel =>
    match compare x y with
    | Eq =>
      do g1 <- get stack1; do g2 <- get stack2;
      match g1, g2 with
      | Some (x, s1), Some (y, s2) => equal_loop fuel x y s1 s2
      | None, None => Ret true
      | _, _ => Ret false
      end
    | _ => Ret false
    end
  end.
(** Rbset.sml 291, 300-304 *)
Definition equal (s1 s2 : set) : outcome bool :=
  do g1 <- get [fst s1]; do g2 <- get [fst s2];
  match g1, g2 with
  | Some (x, stack1), Some (y, stack2) => equal_loop (loop_fuel s1 s2) x y stack1 stack2
  | None, None => Ret true
  | _, _ => Ret false
  end.

(** Rbset.sml 307-315 *)
Fixpoint compare_loop (fuel : nat) (x y : A) (stack1 stack2 : list tree) : outcome comparison :=
  match fuel with
  | O => Diverge
  | S fuel =>
    match compare x y with
    | Eq =>
      do g1 <- get stack1; do g2 <- get stack2;
      match g1, g2 with
      | Some (x, s1), Some (y, s2) => compare_loop fuel x y s1 s2
      | None, None => Ret Eq
      | None, _ => Ret Lt
      | _, None => Ret Gt
      end
    | order => Ret order
    end
  end.
(** Rbset.sml 306, 316-322 *)
Definition compare_sets (s1 s2 : set) : outcome comparison :=
  do g1 <- get [fst s1]; do g2 <- get [fst s2];
  match g1, g2 with
  | Some (x, stack1), Some (y, stack2) => compare_loop (loop_fuel s1 s2) x y stack1 stack2
  | None, None => Ret Eq
  | None, _ => Ret Lt
  | _, None => Ret Gt
  end.

(** Rbset.sml 325-336 *)
Fixpoint isSubset_loop (fuel : nat) (x y : A) (stack1 stack2 : list tree) : outcome bool :=
  match fuel with
  | O => Diverge
  | S fuel =>
    match compare x y with
    | Eq =>
      do g1 <- get stack1; do g2 <- get stack2;
      match g1, g2 with
      | Some (x, s1), Some (y, s2) => isSubset_loop fuel x y s1 s2
      | None, _ => Ret true
      | _, _ => Ret false
      end
    | Lt => Ret false
    | Gt =>
      do g2 <- get stack2;
      match g2 with
      | Some (y, stack2) => isSubset_loop fuel x y stack1 stack2
      | None => Ret false
      end
    end
  end.
(** Rbset.sml 324, 337-341 *)
Definition isSubset (s1 s2 : set) : outcome bool :=
  do g1 <- get [fst s1]; do g2 <- get [fst s2];
  match g1, g2 with
  | Some (x, stack1), Some (y, stack2) => isSubset_loop (loop_fuel s1 s2) x y stack1 stack2
  | None, _ => Ret true
  | _, _ => Ret false
  end.

(** Rbset.sml 352-356 *)
Fixpoint sorted_h (x0 : A) (xs : list A) : bool :=
  match xs with
  | [] => true
  | x1 :: xr => match compare x0 x1 with Lt => sorted_h x1 xr | _ => false end
  end.
Definition sorted (ys : list A) : bool :=
  match ys with [] => true | y1 :: yr => sorted_h y1 yr end.

(** Rbset.sml 388-389 *)
Definition sub1 (t : tree) : outcome tree :=
  match t with BLACK x l r => Ret (RED x l r) | _ => Raise FailExn end.

(** Rbset.sml 391-395 *)
Definition balleft (y : A) (l c : tree) : outcome tree :=
  match l, c with
  | RED x a b, c => Ret (RED y (BLACK x a b) c)
  | bl, BLACK y' a b => Ret (rbalance y bl (RED y' a b))
  | bl, RED z (BLACK y' a b) c =>
    do c' <- sub1 c;
    Ret (RED y' (BLACK y bl a) (rbalance z b c'))
  | _, _ => Raise FailExn
  end.

(** Rbset.sml 397-401 *)
Definition balright (x : A) (a r : tree) : outcome tree :=
  match a, r with
  | a, RED y b c => Ret (RED x a (BLACK y b c))
  | BLACK x' a b, br => Ret (lbalance x (RED x' a b) br)
  | RED x' a (BLACK y b c), br =>
    do a' <- sub1 a;
    Ret (RED y (lbalance x' a' b) (BLACK x c br))
  | _, _ => Raise FailExn
  end.

(** Rbset.sml 408-419.  An inner fixpoint on the right tree makes the recursion structural. *)
Fixpoint append (left : tree) : tree -> outcome tree :=
  match left with
  | LEAF => fun right => Ret right
  | RED x a b =>
    fix append_red (right : tree) : outcome tree :=
    match right with
    | LEAF => Ret left
    | RED y c d =>
      do bc <- append b c;
      match bc with
      | RED z b c => Ret (RED z (RED x a b) (RED y c d))
      | _ => Ret (RED x a (RED y bc d))
      end
    | BLACK _ _ _ => do bc <- append b right; Ret (RED x a bc)
    end
  | BLACK x a b =>
    fix append_black (right : tree) : outcome tree :=
    match right with
    | LEAF => Ret left
    | RED y c d => do ac <- append_black c; Ret (RED y ac d)
    | BLACK y c d =>
      do bc <- append b c;
      match bc with
      | RED z b c => Ret (RED z (BLACK x a b) (BLACK y c d))
      | _ => balleft x a (BLACK y bc d)
      end
    end
  end.

Definition is_black (t : tree) : bool := match t with BLACK _ _ _ => true | _ => false end.

(** Rbset.sml 422-433 *)
Fixpoint del (x : A) (t : tree) : outcome tree :=
  match t with
  | LEAF => Raise NotFound
  | RED y a b | BLACK y a b =>
    match compare x y with
    | Eq => append a b
    | Lt => do a' <- del x a; if is_black a then balleft y a' b else Ret (RED y a' b)
    | Gt => do b' <- del x b; if is_black b then balright y a b' else Ret (RED y a b')
    end
  end.
(** Rbset.sml 421, 434-438 *)
Definition delete (s : set) (x : A) : outcome set :=
  do t <- del x (fst s); Ret (blacken t, snd s - 1).

(** Rbset.sml 440-446 *)
Fixpoint min_h (t : tree) : option A :=
  match t with
  | LEAF => None
  | RED k LEAF _ => Some k
  | RED k t1 _ => min_h t1
  | BLACK k LEAF _ => Some k
  | BLACK k t1 _ => min_h t1
  end.
Definition min (s : set) : option A := min_h (fst s).
(** Rbset.sml 448-454 *)
Fixpoint max_h (t : tree) : option A :=
  match t with
  | LEAF => None
  | RED k _ LEAF => Some k
  | RED k _ t2 => max_h t2
  | BLACK k _ LEAF => Some k
  | BLACK k _ t2 => max_h t2
  end.
Definition max (s : set) : option A := max_h (fst s).

(** Rbset.sml 456-457; words are modelled as 0 .. 2^63-1 *)
Definition hash (h : A -> Z) (s : set) : outcome Z :=
  foldl (fun k res => (h k + res) mod two63) 0 s.

(** Rbset.sml 462-466 *)
Fixpoint collectall (t : tree) (res : list A) : list A :=
  match t with
  | LEAF => res
  | RED k t1 t2 | BLACK k t1 t2 => collectall t1 (k :: collectall t2 res)
  end.
(** Rbset.sml 468-485 *)
Fixpoint collectfrom (i : intv) (t : tree) (res : list A) : list A :=
  match t with
  | LEAF => res
  | RED k t1 t2 | BLACK k t1 t2 =>
    match i with
    | From from =>
      match compare from k with
      | Gt => collectfrom i t2 res
      | _ => collectfrom i t1 (k :: collectall t2 res)
      end
    | FromTo from _ =>
      match compare from k with
      | Gt => collectfrom i t2 res
      | _ => collectfrom i t1 (k :: collectfrom i t2 res)
      end
    | _ => collectall t res
    end
  end.
(** Rbset.sml 487-504 *)
Fixpoint collectto (i : intv) (t : tree) (res : list A) : list A :=
  match t with
  | LEAF => res
  | RED k t1 t2 | BLACK k t1 t2 =>
    match i with
    | To to =>
      match compare k to with
      | Lt => collectall t1 (k :: collectto i t2 res)
      | _ => collectto i t1 res
      end
    | FromTo _ to =>
      match compare k to with
      | Lt => collectall t1 (k :: collectto i t2 res)
      | _ => collectto i t1 res
      end
    | _ => collectall t res
    end
  end.
(** Rbset.sml 506-522 *)
Fixpoint collectfromto (i : intv) (t : tree) (res : list A) : list A :=
  match t with
  | LEAF => res
  | RED k t1 t2 | BLACK k t1 t2 =>
    match i with
    | From _ => collectfrom i t res
    | To _ => collectto i t res
    | FromTo from to =>
      match compare from k with
      | Gt => collectfromto i t2 res
      | _ =>
        match compare k to with
        | Lt => collectfrom i t1 (k :: collectto i t2 res)
        | _ => collectfromto i t1 res
        end
      end
    | All => collectall t res
    end
  end.
(** Rbset.sml 461, 523 *)
Definition sublist (s : set) (i : intv) : list A := collectfromto i (fst s) [].
(** Rbset.sml 526-527 *)
Definition subset (s : set) (i : intv) : set := fromSortedList (sublist s i).

(** Rbset.sml 531-535 (with unbounded integers) *)
Fixpoint depth_h (t : tree) : Z :=
  match t with
  | LEAF => 0
  | RED _ t1 t2 | BLACK _ t1 t2 => 1 + Z.max (depth_h t1) (depth_h t2)
  end.
Definition depth (s : set) : Z := depth_h (fst s).
End Rbset.

Arguments tree : clear implicits.
Arguments set : clear implicits.
Arguments intv : clear implicits.
Arguments digits : clear implicits.

(** Rbset.sml 162-163 *)
Definition map {A B} (f : A -> B) (compare : B -> B -> comparison) (s : set A) : outcome (set B) :=
  foldl (fun k res => add compare res (f k)) empty s.

(** Rbset.sml 350-362 *)
Definition mapMono {A B} (f : A -> B) (compare : B -> B -> comparison) (s : set A) : outcome (set B) :=
  do fxs <- foldl (fun x res => f x :: res) [] s;
  if sorted compare fxs then Ret (fromSortedList fxs) else Raise NonMonotonic.
