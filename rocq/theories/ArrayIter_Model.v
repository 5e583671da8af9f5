(** Model of the iterators of mosmllib/Array.mlp (122-208).
    The functions given by the user may change the array that is being iterated over: the state is
    the list of the elements of the array, with a state of any type for the rest.  sub_ and update_
    are the unchecked primitives: out of range is [UB].  An array keeps its block, so from_array is
    read once.  Everything else is as in Vector_Model. *)
From Verif Require Import Base ArrayLib List_Model Vector_Model.

Section Iter.
Context {S A B : Type}.
Notation St := (list A * S)%type.
(** sub_ a j, now *)
Definition rd (j : Z) : VM St A := fun s => do x <- sub_raw (fst s) j; Ret (Val x s).
(** update_ a j v *)
Definition wr (j : Z) (v : A) : VM St unit := fun s => do a <- update_raw (fst s) j v; Ret (Val tt (a, snd s)).
Definition len : VM St Z := fun s => Ret (Val (zlen (fst s)) s).
(** one turn for each element; the length does not change *)
Definition loop {C} (k : nat -> VM St C) : VM St C := fun s => k (Datatypes.S (Datatypes.length (fst s))) s.

(** Array.mlp 122-129, and 170-177 with the index *)
Fixpoint a_find_lr (fuel : nat) (p : Z -> A -> M St bool) (stop j : Z) : VM St (option (Z * A)) :=
  match fuel with
  | O => fun _ => Diverge
  | Datatypes.S fuel =>
      if j <? stop then
        let! x := rd j in let! b := call (p j x) in
        if b then (let! y := rd j in vval (Some (j, y))) else a_find_lr fuel p stop (j + 1)
      else vval None
  end.
Definition a_findi (p : Z * A -> M St bool) : VM St (option (Z * A)) :=
  let! stop := len in loop (fun n => a_find_lr n (fun j x => p (j, x)) stop 0).
Definition a_find (p : A -> M St bool) : VM St (option A) :=
  let! stop := len in let! r := loop (fun n => a_find_lr n (fun _ x => p x) stop 0) in vval (match r with Some (_, x) => Some x | None => None end).
(** Array.mlp 131-135 *)
Fixpoint a_exists_lr (fuel : nat) (p : A -> M St bool) (stop j : Z) : VM St bool :=
  match fuel with
  | O => fun _ => Diverge
  | Datatypes.S fuel =>
      if j <? stop then let! x := rd j in let! b := call (p x) in if b then vval true else a_exists_lr fuel p stop (j + 1) else vval false
  end.
Definition a_exists (p : A -> M St bool) : VM St bool := let! stop := len in loop (fun n => a_exists_lr n p stop 0).
(** Array.mlp 137-141 *)
Fixpoint a_all_lr (fuel : nat) (p : A -> M St bool) (stop j : Z) : VM St bool :=
  match fuel with
  | O => fun _ => Diverge
  | Datatypes.S fuel =>
      if j >=? stop then vval true else let! x := rd j in let! b := call (p x) in if b then a_all_lr fuel p stop (j + 1) else vval false
  end.
Definition a_all (p : A -> M St bool) : VM St bool := let! stop := len in loop (fun n => a_all_lr n p stop 0).
(** Array.mlp 143-148, and 179-185 with the index *)
Fixpoint a_foldl_lr (fuel : nat) (f : Z -> A -> B -> M St B) (stop j : Z) (r : B) : VM St B :=
  match fuel with
  | O => fun _ => Diverge
  | Datatypes.S fuel =>
      if j <? stop then let! x := rd j in let! r := call (f j x r) in a_foldl_lr fuel f stop (j + 1) r else vval r
  end.
Definition a_foldl (f : A * B -> M St B) (e : B) : VM St B := let! stop := len in loop (fun n => a_foldl_lr n (fun _ x r => f (x, r)) stop 0 e).
Definition a_foldli (f : Z * A * B -> M St B) (e : B) : VM St B := let! stop := len in loop (fun n => a_foldl_lr n (fun j x r => f (j, x, r)) stop 0 e).
(** Array.mlp 150-154, and 187-192 with the index *)
Fixpoint a_foldr_rl (fuel : nat) (f : Z -> A -> B -> M St B) (j : Z) (r : B) : VM St B :=
  match fuel with
  | O => fun _ => Diverge
  | Datatypes.S fuel =>
      if j >=? 0 then let! x := rd j in let! r := call (f j x r) in a_foldr_rl fuel f (j - 1) r else vval r
  end.
Definition a_foldr (f : A * B -> M St B) (e : B) : VM St B := let! l := len in loop (fun n => a_foldr_rl n (fun _ x r => f (x, r)) (l - 1) e).
Definition a_foldri (f : Z * A * B -> M St B) (e : B) : VM St B := let! l := len in loop (fun n => a_foldr_rl n (fun j x r => f (j, x, r)) (l - 1) e).
(** Array.mlp 156-161, and 194-200 with the index *)
Fixpoint a_modify_lr (fuel : nat) (f : Z -> A -> M St A) (stop j : Z) : VM St unit :=
  match fuel with
  | O => fun _ => Diverge
  | Datatypes.S fuel =>
      if j <? stop then let! x := rd j in let! y := call (f j x) in let! _ := wr j y in a_modify_lr fuel f stop (j + 1) else vval tt
  end.
Definition a_modify (f : A -> M St A) : VM St unit := let! stop := len in loop (fun n => a_modify_lr n (fun _ x => f x) stop 0).
Definition a_modifyi (f : Z * A -> M St A) : VM St unit := let! stop := len in loop (fun n => a_modify_lr n (fun j x => f (j, x)) stop 0).
(** Array.mlp 163-168, and 202-208 with the index *)
Fixpoint a_app_lr (fuel : nat) (f : Z -> A -> M St unit) (stop j : Z) : VM St unit :=
  match fuel with
  | O => fun _ => Diverge
  | Datatypes.S fuel =>
      if j <? stop then let! x := rd j in let! _ := call (f j x) in a_app_lr fuel f stop (j + 1) else vval tt
  end.
Definition a_app (f : A -> M St unit) : VM St unit := let! stop := len in loop (fun n => a_app_lr n (fun _ x => f x) stop 0).
Definition a_appi (f : Z * A -> M St unit) : VM St unit := let! stop := len in loop (fun n => a_app_lr n (fun j x => f (j, x)) stop 0).
End Iter.
