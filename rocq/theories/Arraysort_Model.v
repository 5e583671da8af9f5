(** Model of src/mosmllib/Arraysort.sml.  The array is a list which every step takes and returns;
    elements are read and written with the unchecked primitives (12-21), so an access outside the
    array is [UB].  Loops that are not structural take fuel and give [Diverge] without any.
    Indices are unbounded integers (an array has less than 2^54 elements, so the SML index
    additions cannot overflow). *)
From Verif Require Import Base ArrayLib.

Section Arraysort.
Context {A : Type} (cmp : A -> A -> comparison).
Notation array := (list A).

(** Arraysort.sml 23 *)
Definition min (x y : Z) : Z := if x <? y then x else y.
(** Arraysort.sml 26-28 *)
Definition swap (a : array) (i j : Z) : outcome array :=
  do tmp <- sub_raw a i;
  do y <- sub_raw a j;
  do a <- update_raw a i y;
  update_raw a j tmp.
(** Arraysort.sml 29-30 *)
Fixpoint vecswap (fuel : nat) (a : array) (i j n : Z) : outcome array :=
  match fuel with
  | O => Diverge
  | S fuel => if n =? 0 then Ret a else do a <- swap a i j; vecswap fuel a (i + 1) (j + 1) (n - 1)
  end.
(** Arraysort.sml 36-45; [inner] ends where the SML code calls outer(i+1) *)
Fixpoint inner (fuel : nat) (a : array) (start j : Z) : outcome array :=
  match fuel with
  | O => Diverge
  | S fuel =>
    if j =? start then Ret a
    else
      let j' := j - 1 in
      do x <- sub_raw a j'; do y <- sub_raw a j;
      match cmp x y with
      | Gt => do a <- swap a j j'; inner fuel a start j'
      | _ => Ret a
      end
  end.
(** Arraysort.sml 33-35, 45; [f] is the fuel of each inner loop *)
Fixpoint outer (f fuel : nat) (a : array) (start limit i : Z) : outcome array :=
  match fuel with
  | O => Diverge
  | S fuel =>
    if i >=? limit then Ret a
    else do a <- inner f a start i; outer f fuel a start limit (i + 1)
  end.
(** Arraysort.sml 31-32, 46-48 *)
Definition insertSort (fuel : nat) (a : array) (start n : Z) : outcome array :=
  outer fuel fuel a start (start + n) (start + 1).
(** Arraysort.sml 50-58 *)
Definition med3 (arr : array) (a b c : Z) : outcome Z :=
  do xa <- sub_raw arr a; do xb <- sub_raw arr b; do xc <- sub_raw arr c;
  match cmp xa xb, cmp xb xc with
  | Lt, Lt => Ret b
  | Lt, _ => match cmp xa xc with Lt => Ret c | _ => Ret a end
  | _, Gt => Ret b
  | _, _ => match cmp xa xc with Lt => Ret a | _ => Ret c end
  end.
(** Arraysort.sml 60-76 *)
Definition getPivot (arr : array) (a n : Z) : outcome Z :=
  if n <=? 7 then Ret (a + n / 2)
  else
    let p1 := a in
    let pm := a + n / 2 in
    let pn := a + n - 1 in
    if n <=? 40 then med3 arr p1 pm pn
    else
      let d := n / 8 in
      do p1 <- med3 arr p1 (p1 + d) (p1 + 2 * d);
      do pm <- med3 arr (pm - d) pm (pm + d);
      do pn <- med3 arr (pn - 2 * d) (pn - d) pn;
      med3 arr p1 pm pn.
(** Arraysort.sml 79-86 *)
Fixpoint bottom (fuel : nat) (arr : array) (a limit pa pb : Z) : outcome (array * Z * Z) :=
  match fuel with
  | O => Diverge
  | S fuel =>
    if pb >? limit then Ret (arr, pa, pb)
    else
      do x <- sub_raw arr pb; do v <- sub_raw arr a;
      match cmp x v with
      | Gt => Ret (arr, pa, pb)
      | Lt => bottom fuel arr a limit pa (pb + 1)
      | _ => do arr <- swap arr pa pb; bottom fuel arr a limit (pa + 1) (pb + 1)
      end
  end.
(** Arraysort.sml 88-95 *)
Fixpoint top (fuel : nat) (arr : array) (a limit pc pd : Z) : outcome (array * Z * Z) :=
  match fuel with
  | O => Diverge
  | S fuel =>
    if limit >? pc then Ret (arr, pc, pd)
    else
      do x <- sub_raw arr pc; do v <- sub_raw arr a;
      match cmp x v with
      | Lt => Ret (arr, pc, pd)
      | Gt => top fuel arr a limit (pc - 1) pd
      | _ => do arr <- swap arr pc pd; top fuel arr a limit (pc - 1) (pd - 1)
      end
  end.
(** Arraysort.sml 97-103 *)
Fixpoint split (fuel : nat) (arr : array) (a pa pb pc pd : Z) : outcome (array * (Z * Z * Z * Z)) :=
  match fuel with
  | O => Diverge
  | S fuel =>
    do (arr, pa, pb) <- bottom (S fuel) arr a pc pa pb;
    do (arr, pc, pd) <- top (S fuel) arr a pb pc pd;
    if pb >? pc then Ret (arr, (pa, pb, pc, pd))
    else do arr <- swap arr pb pc; split fuel arr a pa (pb + 1) (pc - 1) pd
  end.
(** Arraysort.sml 78, 105-122 *)
Fixpoint sort_ (fuel : nat) (arr : array) (a n : Z) : outcome array :=
  match fuel with
  | O => Diverge
  | S fuel =>
    if n <? 7 then insertSort (S fuel) arr a n
    else
      do pm <- getPivot arr a n;
      do arr <- swap arr a pm;
      let pa := a + 1 in
      let pc := a + (n - 1) in
      do (arr, (pa, pb, pc, pd)) <- split (S fuel) arr a pa pa pc pc;
      let pn := a + n in
      let r := min (pa - a) (pb - pa) in
      do arr <- vecswap (S fuel) arr a (pb - r) r;
      let r := min (pd - pc) (pn - pd - 1) in
      do arr <- vecswap (S fuel) arr pb (pn - r) r;
      let n' := pb - pa in
      do arr <- (if n' >? 1 then sort_ fuel arr a n' else Ret arr);
      let n' := pd - pc in
      if n' >? 1 then sort_ fuel arr (pn - n') n' else Ret arr
  end.
(** Arraysort.sml 126-127 *)
Definition sort (fuel : nat) (arr : array) : outcome array := sort_ fuel arr 0 (zlen arr).

(** Arraysort.sml 132-135 *)
Fixpoint s (fuel : nat) (arr : array) (v1 v2 : A) (i : Z) : outcome bool :=
  match fuel with
  | O => Diverge
  | S fuel =>
    match cmp v1 v2 with
    | Gt => Ret false
    | _ => if i >=? zlen arr then Ret true else do v <- sub_raw arr i; s fuel arr v2 v (i + 1)
    end
  end.
(** Arraysort.sml 129-138 *)
Definition sorted (fuel : nat) (arr : array) : outcome bool :=
  let len := zlen arr in
  if (len =? 0) || (len =? 1) then Ret true
  else do v1 <- sub_raw arr 0; do v2 <- sub_raw arr 1; s fuel arr v1 v2 2.
End Arraysort.
