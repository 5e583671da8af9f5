(** Model of mosmllib/Vector.mlp on 64-bit machines.
    A vector is the list of its elements.  sub_ and update_ are the unchecked primitives: out of range
    is [UB].  A vector under construction comes from make_vect with the unit value in every cell, here
    [None].  Functions given by the user are as in List_Model: they act on a state of any type and
    return or raise an exception.  [fuel] bounds the number of turns of a loop. *)
From Verif Require Import Base ArrayLib List_Model.

(** Vector.mlp 14 *)
Definition maxLen : Z := 18014398509481983.

Definition VM (S A : Type) := S -> outcome (res S A).
Definition vval {S A} (a : A) : VM S A := fun s => Ret (Val a s).
Definition vraise {S A} (e : exn) : VM S A := fun s => Ret (Exn e s).
Definition vseq {S A B} (m : VM S A) (k : A -> VM S B) : VM S B :=
  fun s => do r <- m s; match r with Val a s' => k a s' | Exn e s' => Ret (Exn e s') end.
(** a call of a function of the user *)
Definition call {S A} (m : M S A) : VM S A := fun s => Ret (m s).
(** a primitive *)
Definition prim {S A} (o : outcome A) : VM S A := fun s => do a <- o; Ret (Val a s).
Notation "'let!' x := m 'in' k" := (vseq m (fun x => k)) (at level 200, x pattern, m at level 100, k at level 200).

(** make_vect n (), for n of at most maxLen *)
Definition vector_ {A} (n : Z) : list (option A) := repeat None (Z.to_nat n).
Definition turns {A} (a : list A) : nat := Datatypes.S (Datatypes.length a).

(** Vector.mlp 27-32 *)
Fixpoint init_list {A} (a : list (option A)) (vs : list A) (i : Z) : outcome (list (option A)) :=
  match vs with [] => Ret a | v :: vs => do a <- update_raw a i (Some v); init_list a vs (i + 1) end.
Definition fromList {A} (vs : list A) : outcome (list (option A)) :=
  let n := List_Model.length vs in
  if n >? maxLen then Raise Size else init_list (vector_ n) vs 0.

Section Vector.
Context {S A B : Type}.
(** Vector.mlp 34-38 *)
Fixpoint v_init (fuel : nat) (n : Z) (f : Z -> M S B) (a : list (option B)) (i : Z) : VM S (list (option B)) :=
  match fuel with
  | O => fun _ => Diverge
  | Datatypes.S fuel =>
      if i >=? n then vval a
      else let! b := call (f i) in let! a := prim (update_raw a i (Some b)) in v_init fuel n f a (i + 1)
  end.
Definition v_tabulate (n : Z) (f : Z -> M S B) : VM S (list (option B)) :=
  if (n <? 0) || (n >? maxLen) then vraise Size else v_init (Datatypes.S (Z.to_nat n)) n f (vector_ n) 0.
(** Vector.mlp 40-42 *)
Definition v_sub (v : list A) (i : Z) : outcome A :=
  if (i <? 0) || (i >=? zlen v) then Raise Subscript else sub_raw v i.
(** Vector.mlp 44-50 *)
Fixpoint copy_lr (fuel : nat) (v : list A) (newvec : list (option A)) (stop j : Z) : outcome (list (option A)) :=
  match fuel with
  | O => Diverge
  | Datatypes.S fuel =>
      if j <? stop then do x <- sub_raw v j; do newvec <- update_raw newvec j (Some x); copy_lr fuel v newvec stop (j + 1)
      else Ret newvec
  end.
Definition v_update (v : list A) (i : Z) (x : A) : outcome (list (option A)) :=
  if (i <? 0) || (i >=? zlen v) then Raise Subscript
  else do newvec <- copy_lr (turns v) v (vector_ (zlen v)) (zlen v) 0; update_raw newvec i (Some x).
(** Vector.mlp 52-66; the addition of lengths raises Overflow above the largest int *)
Fixpoint acc (vecs : list (list A)) (len : Z) : outcome Z :=
  match vecs with
  | [] => Ret len
  | v1 :: vr => let n := zlen v1 + len in if n >? 4611686018427387903 then Raise Overflow else acc vr n
  end.
Fixpoint copy_to (fuel : nat) (v1 : list A) (newvec : list (option A)) (to len1 j : Z) : outcome (list (option A)) :=
  match fuel with
  | O => Diverge
  | Datatypes.S fuel =>
      if j <? len1 then do x <- sub_raw v1 j; do newvec <- update_raw newvec (to + j) (Some x); copy_to fuel v1 newvec to len1 (j + 1)
      else Ret newvec
  end.
Fixpoint copyall (newvec : list (option A)) (to : Z) (vecs : list (list A)) : outcome (list (option A)) :=
  match vecs with
  | [] => Ret newvec
  | v1 :: vr => let len1 := zlen v1 in do newvec <- copy_to (turns v1) v1 newvec to len1 0; copyall newvec (to + len1) vr
  end.
Definition v_concat (vecs : list (list A)) : outcome (list (option A)) :=
  do len <- acc vecs 0;
  if len >? maxLen then Raise Size else copyall (vector_ len) 0 vecs.
(** Vector.mlp 68-74, and 111-117 with the index *)
Fixpoint find_lr (fuel : nat) (p : Z -> A -> M S bool) (a : list A) (stop j : Z) : VM S (option (Z * A)) :=
  match fuel with
  | O => fun _ => Diverge
  | Datatypes.S fuel =>
      if j <? stop then
        let! x := prim (sub_raw a j) in let! b := call (p j x) in
        if b then (let! y := prim (sub_raw a j) in vval (Some (j, y))) else find_lr fuel p a stop (j + 1)
      else vval None
  end.
Definition v_find (p : A -> M S bool) (a : list A) : VM S (option A) :=
  let! r := find_lr (turns a) (fun _ x => p x) a (zlen a) 0 in vval (match r with Some (_, x) => Some x | None => None end).
Definition v_findi (p : Z * A -> M S bool) (a : list A) : VM S (option (Z * A)) := find_lr (turns a) (fun j x => p (j, x)) a (zlen a) 0.
(** Vector.mlp 76-79 *)
Fixpoint exists_lr (fuel : nat) (p : A -> M S bool) (a : list A) (stop j : Z) : VM S bool :=
  match fuel with
  | O => fun _ => Diverge
  | Datatypes.S fuel =>
      if j <? stop then let! x := prim (sub_raw a j) in let! b := call (p x) in if b then vval true else exists_lr fuel p a stop (j + 1)
      else vval false
  end.
Definition v_exists (p : A -> M S bool) (a : list A) : VM S bool := exists_lr (turns a) p a (zlen a) 0.
(** Vector.mlp 81-84 *)
Fixpoint all_lr (fuel : nat) (p : A -> M S bool) (a : list A) (stop j : Z) : VM S bool :=
  match fuel with
  | O => fun _ => Diverge
  | Datatypes.S fuel =>
      if j >=? stop then vval true
      else let! x := prim (sub_raw a j) in let! b := call (p x) in if b then all_lr fuel p a stop (j + 1) else vval false
  end.
Definition v_all (p : A -> M S bool) (a : list A) : VM S bool := all_lr (turns a) p a (zlen a) 0.
(** Vector.mlp 86-90, and 126-131 with the index *)
Fixpoint foldl_lr (fuel : nat) (f : Z -> A -> B -> M S B) (a : list A) (stop j : Z) (r : B) : VM S B :=
  match fuel with
  | O => fun _ => Diverge
  | Datatypes.S fuel =>
      if j <? stop then let! x := prim (sub_raw a j) in let! r := call (f j x r) in foldl_lr fuel f a stop (j + 1) r
      else vval r
  end.
Definition v_foldl (f : A * B -> M S B) (e : B) (a : list A) : VM S B := foldl_lr (turns a) (fun _ x r => f (x, r)) a (zlen a) 0 e.
Definition v_foldli (f : Z * A * B -> M S B) (e : B) (a : list A) : VM S B := foldl_lr (turns a) (fun j x r => f (j, x, r)) a (zlen a) 0 e.
(** Vector.mlp 92-95, and 133-137 with the index *)
Fixpoint foldr_rl (fuel : nat) (f : Z -> A -> B -> M S B) (a : list A) (j : Z) (r : B) : VM S B :=
  match fuel with
  | O => fun _ => Diverge
  | Datatypes.S fuel =>
      if j >=? 0 then let! x := prim (sub_raw a j) in let! r := call (f j x r) in foldr_rl fuel f a (j - 1) r
      else vval r
  end.
Definition v_foldr (f : A * B -> M S B) (e : B) (a : list A) : VM S B := foldr_rl (turns a) (fun _ x r => f (x, r)) a (zlen a - 1) e.
Definition v_foldri (f : Z * A * B -> M S B) (e : B) (a : list A) : VM S B := foldr_rl (turns a) (fun j x r => f (j, x, r)) a (zlen a - 1) e.
(** Vector.mlp 97-101, and 139-144 with the index *)
Fixpoint app_lr (fuel : nat) (f : Z -> A -> M S unit) (a : list A) (stop j : Z) : VM S unit :=
  match fuel with
  | O => fun _ => Diverge
  | Datatypes.S fuel =>
      if j <? stop then let! x := prim (sub_raw a j) in let! _ := call (f j x) in app_lr fuel f a stop (j + 1) else vval tt
  end.
Definition v_app (f : A -> M S unit) (a : list A) : VM S unit := app_lr (turns a) (fun _ x => f x) a (zlen a) 0.
Definition v_appi (f : Z * A -> M S unit) (a : list A) : VM S unit := app_lr (turns a) (fun j x => f (j, x)) a (zlen a) 0.
(** Vector.mlp 103-109, and 146-154 with the index *)
Fixpoint map_lr (fuel : nat) (f : Z -> A -> M S B) (a : list A) (newvec : list (option B)) (stop j : Z) : VM S (list (option B)) :=
  match fuel with
  | O => fun _ => Diverge
  | Datatypes.S fuel =>
      if j <? stop then
        let! x := prim (sub_raw a j) in let! b := call (f j x) in
        let! newvec := prim (update_raw newvec j (Some b)) in map_lr fuel f a newvec stop (j + 1)
      else vval newvec
  end.
Definition v_map (f : A -> M S B) (a : list A) : VM S (list (option B)) := map_lr (turns a) (fun _ x => f x) a (vector_ (zlen a)) (zlen a) 0.
Definition v_mapi (f : Z * A -> M S B) (a : list A) : VM S (list (option B)) := map_lr (turns a) (fun j x => f (j, x)) a (vector_ (zlen a)) (zlen a) 0.
(** Vector.mlp 156-168 *)
Fixpoint collate_h (fuel : nat) (cmp : A * A -> M S comparison) (v1 v2 : list A) (stop j : Z) : VM S comparison :=
  match fuel with
  | O => fun _ => Diverge
  | Datatypes.S fuel =>
      if j =? stop then
        vval (if zlen v1 <? zlen v2 then Lt else if zlen v1 >? zlen v2 then Gt else Eq)
      else
        let! x := prim (sub_raw v1 j) in let! y := prim (sub_raw v2 j) in let! c := call (cmp (x, y)) in
        match c with Eq => collate_h fuel cmp v1 v2 stop (j + 1) | r => vval r end
  end.
Definition v_collate (cmp : A * A -> M S comparison) (v1 v2 : list A) : VM S comparison :=
  collate_h (turns v1) cmp v1 v2 (if zlen v1 <? zlen v2 then zlen v1 else zlen v2) 0.
End Vector.
