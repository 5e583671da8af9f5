(** Model of mosmllib/Dynarray.sml.  The inner array of a dynamic array is never shared with
    another one (subArray and update build new ones), so a dynamic array is passed by value. *)
From Verif Require Import Base ArrayLib Hash_Model Copy_Model.

Section Dynarray.
Context {V : Type}.
(** Dynarray.sml 10 *)
Record dyn := Block { arr : list V; dflt : V }.
(** Array.tabulate (Array.mlp 51-55): Size unless 0 <= n <= maxLen; f is applied to i, i+1, ..., n-1
    and an exception of f is passed on *)
Fixpoint tab_from (k : nat) (i : Z) (f : Z -> outcome V) : outcome (list V) :=
  match k with O => Ret [] | S k => do v <- f i; do l <- tab_from k (i + 1) f; Ret (v :: l) end.
Definition tabulate_ (n : Z) (f : Z -> outcome V) : outcome (list V) :=
  if (n <? 0) || (n >? maxLen) then Raise Size else tab_from (Z.to_nat n) 0 f.
(** Dynarray.sml 12 *)
Definition array (sz : Z) (d : V) : outcome dyn := do a <- Hash_Model.array sz d; Ret (Block a d).
(** ML subtraction *)
Definition isub (x y : Z) : outcome Z := if in_intb (x - y) then Ret (x - y) else Raise Overflow.
(** Dynarray.sml 14-19: the handler catches Subscript and Overflow (of i+lo) *)
Definition subArray (b : dyn) (lo hi : Z) : outcome dyn :=
  do n <- isub hi lo;
  do a <- tabulate_ n (fun i => match (do k <- iadd i lo; sub_chk (arr b) k) with Raise _ => Ret (dflt b) | r => r end);
  Ret (Block a (dflt b)).
(** Dynarray.sml 21; Array.fromList raises Size beyond maxLen (Array.mlp 57-63) *)
Definition fromList (l : list V) (d : V) : outcome dyn :=
  if zlen l >? maxLen then Raise Size else Ret (Block l d).
(** Dynarray.sml 23 *)
Definition tabulate (sz : Z) (f : Z -> outcome V) (d : V) : outcome dyn := do a <- tabulate_ sz f; Ret (Block a d).
(** Dynarray.sml 25 *)
Definition default (b : dyn) : V := dflt b.
(** Dynarray.sml 27-28 *)
Definition sub (b : dyn) (idx : Z) : outcome V :=
  match sub_chk (arr b) idx with
  | Raise Subscript => if idx <? 0 then Raise Subscript else Ret (dflt b)
  | r => r
  end.
(** Dynarray.sml 30 *)
Definition bound (b : dyn) : Z := zlen (arr b).
(** Dynarray.sml 32-36 *)
Definition expand (a : list V) (oldlen newlen : Z) (d : V) : outcome (list V) :=
  tabulate_ newlen (fun i => if i <? oldlen then sub_chk a i else Ret d).
(** Dynarray.sml 38-46 *)
Definition update (b : dyn) (idx : Z) (v : V) : outcome dyn :=
  let len := bound b in
  do a <- (if idx >=? len then
             do l2 <- iadd len len;
             do i1 <- iadd idx 1;
             expand (arr b) len (if l2 >? i1 then l2 else i1) (dflt b)
           else Ret (arr b));
  do a <- update_chk a idx v;
  Ret (Block a (dflt b)).
End Dynarray.
Arguments dyn : clear implicits.
