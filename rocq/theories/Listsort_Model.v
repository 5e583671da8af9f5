(** Model of /repo/src/mosmllib/Listsort.sml.
    The inner functions [take] recurse on the sum of two list lengths, and [sorting] on
    the remaining list; both take a fuel argument whose exhaustion is [Diverge].
    Simplification: the run counters [k], [r] are unbounded integers (they are bounded
    by the list length, so the 63-bit bound is not reachable). *)
From Verif Require Import Base.

Section Listsort.
Context {A : Type} (ordr : A -> A -> comparison).

(** List.hd *)
Definition hd (l : list A) : outcome A :=
  match l with [] => Raise EmptyExn | x :: _ => Ret x end.

(** Listsort.sml:21-25 (and 65-69): inner [take] *)
Fixpoint take (fuel : nat) (x1 : A) (xr ys : list A) : outcome (list A) :=
  match fuel with
  | O => Diverge
  | S fuel =>
    match ys with
    | [] => Ret (x1 :: xr)
    | y1 :: yr =>
      match ordr x1 y1 with
      | Lt => do r <- take fuel y1 yr xr; Ret (x1 :: r)
      | _ => do r <- take fuel x1 xr yr; Ret (y1 :: r)
      end
    end
  end.

(** Listsort.sml:19-26 and 63-70: merge *)
Definition merge (xs ys : list A) : outcome (list A) :=
  match xs with
  | [] => Ret ys
  | x1 :: xr => take (S (length xr + length ys)) x1 xr ys
  end.

(** Listsort.sml:27-30: mergepairs *)
Fixpoint mergepairs (l1 : list A) (ls : list (list A)) (k : Z) : outcome (list (list A)) :=
  match ls with
  | [] => Ret [l1]
  | l2 :: lr =>
    if k mod 2 =? 1 then Ret (l1 :: ls)
    else do m <- merge l1 l2; mergepairs m lr (k / 2)
  end.

(** Listsort.sml:31-34: nextrun *)
Fixpoint nextrun (run xs : list A) : outcome (list A * list A) :=
  match xs with
  | [] => Ret (run, [])
  | x :: xr =>
    do h <- hd run;
    match ordr x h with
    | Lt => Ret (run, xs)
    | _ => nextrun (x :: run) xr
    end
  end.

(** List.hd at type 'a list list *)
Definition hdl (l : list (list A)) : outcome (list A) :=
  match l with [] => Raise EmptyExn | x :: _ => Ret x end.

(** Listsort.sml:35-38: sorting *)
Fixpoint sorting (fuel : nat) (xs : list A) (ls : list (list A)) (r : Z) : outcome (list A) :=
  match fuel with
  | O => Diverge
  | S fuel =>
    match xs with
    | [] => do m <- mergepairs [] ls 0; hdl m
    | x :: xs =>
      do rt <- nextrun [x] xs;
      let '(revrun, tail) := rt in
      do ls' <- mergepairs (rev revrun) ls (r + 1);
      sorting fuel tail ls' (r + 1)
    end
  end.

(** Listsort.sml:12-39: sort *)
Definition sort (xs : list A) : outcome (list A) :=
  match xs with
  | [] => Ret []
  | [_] => Ret xs
  | [x1; x2] => match ordr x1 x2 with Gt => Ret [x2; x1] | _ => Ret xs end
  | _ => sorting (S (length xs)) xs [] 0
  end.

(** Listsort.sml:43-47: sorted *)
Fixpoint sorted_h (x0 : A) (xs : list A) : bool :=
  match xs with
  | [] => true
  | x1 :: xr => (match ordr x0 x1 with Gt => false | _ => true end) && sorted_h x1 xr
  end.
Definition sorted (ys : list A) : bool :=
  match ys with [] => true | y1 :: yr => sorted_h y1 yr end.

(** Listsort.sml:51-59: mergeUniq *)
Fixpoint takeUniq (fuel : nat) (x1 : A) (xr ys : list A) : outcome (list A) :=
  match fuel with
  | O => Diverge
  | S fuel =>
    match ys with
    | [] => Ret (x1 :: xr)
    | y1 :: yr =>
      match ordr x1 y1 with
      | Lt => do r <- takeUniq fuel y1 yr xr; Ret (x1 :: r)
      | Gt => do r <- takeUniq fuel x1 xr yr; Ret (y1 :: r)
      | Eq => takeUniq fuel x1 xr yr
      end
    end
  end.
Definition mergeUniq (xs ys : list A) : outcome (list A) :=
  match xs with
  | [] => Ret ys
  | x1 :: xr => takeUniq (S (length xr + length ys)) x1 xr ys
  end.

(** Listsort.sml:74-88: eqclasses *)
Fixpoint group (last : A) (rest : list A) (cs1 : list A) (css : list (list A)) : list (list A) :=
  match rest with
  | [] => cs1 :: css
  | r1 :: rr =>
    match ordr r1 last with
    | Eq => group r1 rr (r1 :: cs1) css
    | _ => group r1 rr [r1] (cs1 :: css)
    end
  end.
Definition eqclasses (xs : list A) : outcome (list (list A)) :=
  do s <- sort xs;
  match rev s with
  | [] => Ret []
  | x1 :: xr => Ret (group x1 xr [x1] [])
  end.

End Listsort.
