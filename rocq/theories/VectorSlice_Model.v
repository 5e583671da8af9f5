(** Model of mosmllib/VectorSlice.sml on 64-bit machines.
    Vectors, unchecked primitives, user functions and fuel are as in Vector_Model.  Sums of indexes
    that stay inside a vector cannot overflow and are plain; the sum of lengths in concat is checked.
    The loops of find, exists, all, app, foldl, findi, appi and foldli have the text of those of
    Vector.mlp with other ends, so the loops of Vector_Model are used. *)
From Verif Require Import Base ArrayLib List_Model Vector_Model.

(** VectorSlice.sml 13: vector, start, length *)
Definition slice (A : Type) : Type := list A * Z * Z.
Definition rounds (n : Z) : nat := Datatypes.S (Z.to_nat n).

Section Slice.
Context {S A B : Type}.
(** VectorSlice.sml 20 *)
Definition sl_length (sl : slice A) : Z := snd sl.
(** VectorSlice.sml 22-24 *)
Definition sl_sub (sl : slice A) (i : Z) : outcome A :=
  let '(a', i', n') := sl in if (i <? 0) || (i >=? n') then Raise Subscript else sub_raw a' (i' + i).
(** VectorSlice.sml 26-34 *)
Definition sl_slice (a : list A) (i : Z) (len : option Z) : outcome (slice A) :=
  let alen := zlen a in
  match len with
  | None => if (0 <=? i) && (i <=? alen) then Ret (a, i, alen - i) else Raise Subscript
  | Some n => if (0 <=? i) && (0 <=? n) && (n <=? alen - i) then Ret (a, i, n) else Raise Subscript
  end.
(** VectorSlice.sml 36 *)
Definition sl_full (a : list A) : slice A := (a, 0, zlen a).
(** VectorSlice.sml 38-43 *)
Definition sl_subslice (sl : slice A) (i' : Z) (len : option Z) : outcome (slice A) :=
  let '(a, i, n) := sl in
  match len with
  | None => if (0 <=? i') && (i' <=? n) then Ret (a, i + i', n - i') else Raise Subscript
  | Some n' => if (0 <=? i') && (0 <=? n') && (n' <=? n - i') then Ret (a, i + i', n') else Raise Subscript
  end.
(** VectorSlice.sml 45 *)
Definition sl_base (sl : slice A) : list A * Z * Z := sl.
(** VectorSlice.sml 66-70; and 49-53, where [to] is 0 *)
Fixpoint sl_copy (fuel : nat) (a : list A) (newvec : list (option A)) (to i n j : Z) : outcome (list (option A)) :=
  match fuel with
  | O => Diverge
  | Datatypes.S fuel =>
      if j <? n then do x <- sub_raw a (i + j); do newvec <- update_raw newvec (to + j) (Some x); sl_copy fuel a newvec to i n (j + 1)
      else Ret newvec
  end.
(** VectorSlice.sml 47-54 *)
Definition sl_vector (sl : slice A) : outcome (list (option A)) :=
  let '(a, i, n) := sl in sl_copy (rounds n) a (vector_ n) 0 i n 0.
(** VectorSlice.sml 56 *)
Definition sl_isEmpty (sl : slice A) : bool := let '(_, _, n) := sl in n =? 0.
(** VectorSlice.sml 58-74 *)
Fixpoint sl_acc (slis : list (slice A)) (len : Z) : outcome Z :=
  match slis with
  | [] => Ret len
  | (_, _, len1) :: vr => let n := len1 + len in if n >? 4611686018427387903 then Raise Overflow else sl_acc vr n
  end.
Fixpoint sl_copyall (newvec : list (option A)) (to : Z) (slis : list (slice A)) : outcome (list (option A)) :=
  match slis with
  | [] => Ret newvec
  | (v1, i1, n1) :: slir => do newvec <- sl_copy (rounds n1) v1 newvec to i1 n1 0; sl_copyall newvec (to + n1) slir
  end.
Definition sl_concat (slis : list (slice A)) : outcome (list (option A)) :=
  do len <- sl_acc slis 0;
  if len >? maxLen then Raise Size else sl_copyall (vector_ len) 0 slis.
(** VectorSlice.sml 76-77 *)
Definition sl_getItem (sl : slice A) : outcome (option (A * slice A)) :=
  let '(a, i, n) := sl in if n =? 0 then Ret None else do x <- sub_raw a i; Ret (Some (x, (a, i + 1, n - 1))).
(** VectorSlice.sml 79-85 *)
Definition sl_find (p : A -> M S bool) (sl : slice A) : VM S (option A) :=
  let '(a, i, n) := sl in let stop := i + n in
  let! r := find_lr (rounds n) (fun _ x => p x) a stop i in vval (match r with Some (_, x) => Some x | None => None end).
(** VectorSlice.sml 87-90 *)
Definition sl_exists (p : A -> M S bool) (sl : slice A) : VM S bool :=
  let '(a, i, n) := sl in let stop := i + n in exists_lr (rounds n) p a stop i.
(** VectorSlice.sml 92-95 *)
Definition sl_all (p : A -> M S bool) (sl : slice A) : VM S bool :=
  let '(a, i, n) := sl in let stop := i + n in all_lr (rounds n) p a stop i.
(** VectorSlice.sml 97-101 *)
Definition sl_app (f : A -> M S unit) (sl : slice A) : VM S unit :=
  let '(a, i, n) := sl in let stop := i + n in app_lr (rounds n) (fun _ x => f x) a stop i.
(** VectorSlice.sml 103-111, and 140-148 with the index *)
Fixpoint sl_map_lr (fuel : nat) (f : Z -> A -> M S B) (a : list A) (newvec : list (option B)) (i stop j : Z) : VM S (list (option B)) :=
  match fuel with
  | O => fun _ => Diverge
  | Datatypes.S fuel =>
      if j <? stop then
        let! x := prim (sub_raw a j) in let! b := call (f j x) in
        let! newvec := prim (update_raw newvec (j - i) (Some b)) in sl_map_lr fuel f a newvec i stop (j + 1)
      else vval newvec
  end.
Definition sl_map (f : A -> M S B) (sl : slice A) : VM S (list (option B)) :=
  let '(a, i, n) := sl in let stop := i + n in sl_map_lr (rounds n) (fun _ x => f x) a (vector_ n) i stop i.
(** VectorSlice.sml 113-117 *)
Definition sl_foldl (f : A * B -> M S B) (e : B) (sl : slice A) : VM S B :=
  let '(a, i, n) := sl in let stop := i + n in foldl_lr (rounds n) (fun _ x r => f (x, r)) a stop i e.
(** VectorSlice.sml 119-122, and 157-161 with the index *)
Fixpoint sl_rl (fuel : nat) (f : Z -> A -> B -> M S B) (a : list A) (i j : Z) (r : B) : VM S B :=
  match fuel with
  | O => fun _ => Diverge
  | Datatypes.S fuel =>
      if j >=? i then let! x := prim (sub_raw a j) in let! r := call (f j x r) in sl_rl fuel f a i (j - 1) r
      else vval r
  end.
Definition sl_foldr (f : A * B -> M S B) (e : B) (sl : slice A) : VM S B :=
  let '(a, i, n) := sl in sl_rl (rounds n) (fun _ x r => f (x, r)) a i (i + n - 1) e.
(** VectorSlice.sml 124-131 *)
Definition sl_findi (p : Z * A -> M S bool) (sl : slice A) : VM S (option (Z * A)) :=
  let '(a, i, n) := sl in let stop := i + n in find_lr (rounds n) (fun j x => p (j, x)) a stop i.
(** VectorSlice.sml 133-138 *)
Definition sl_appi (f : Z * A -> M S unit) (sl : slice A) : VM S unit :=
  let '(a, i, n) := sl in let stop := i + n in app_lr (rounds n) (fun j x => f (j, x)) a stop i.
(** VectorSlice.sml 140-148 *)
Definition sl_mapi (f : Z * A -> M S B) (sl : slice A) : VM S (list (option B)) :=
  let '(a, i, n) := sl in let stop := i + n in sl_map_lr (rounds n) (fun j x => f (j, x)) a (vector_ n) i stop i.
(** VectorSlice.sml 150-155 *)
Definition sl_foldli (f : Z * A * B -> M S B) (e : B) (sl : slice A) : VM S B :=
  let '(a, i, n) := sl in let stop := i + n in foldl_lr (rounds n) (fun j x r => f (j, x, r)) a stop i e.
(** VectorSlice.sml 157-161 *)
Definition sl_foldri (f : Z * A * B -> M S B) (e : B) (sl : slice A) : VM S B :=
  let '(a, i, n) := sl in sl_rl (rounds n) (fun j x r => f (j, x, r)) a i (i + n - 1) e.
(** VectorSlice.sml 163-173 *)
Fixpoint sl_h (fuel : nat) (cmp : A * A -> M S comparison) (a1 a2 : list A) (i1 n1 i2 n2 stop j : Z) : VM S comparison :=
  match fuel with
  | O => fun _ => Diverge
  | Datatypes.S fuel =>
      if j =? stop then vval (if n1 <? n2 then Lt else if n1 >? n2 then Gt else Eq)
      else
        let! x := prim (sub_raw a1 (i1 + j)) in let! y := prim (sub_raw a2 (i2 + j)) in let! c := call (cmp (x, y)) in
        match c with Eq => sl_h fuel cmp a1 a2 i1 n1 i2 n2 stop (j + 1) | r => vval r end
  end.
Definition sl_collate (cmp : A * A -> M S comparison) (sl1 sl2 : slice A) : VM S comparison :=
  let '(a1, i1, n1) := sl1 in let '(a2, i2, n2) := sl2 in
  let stop := if n1 <? n2 then n1 else n2 in sl_h (rounds n1) cmp a1 a2 i1 n1 i2 n2 stop 0.
End Slice.
