(** What the stack of values and handlers should be, without addresses: the values pushed since the innermost
    handler was installed, and for each handler what it is and the values that were there before it. *)
From Verif Require Import Base Stack_Model.

Definition handler := (Z * Z * Z)%type.
Record hst := mkH { cur : list Z; hs : list (handler * list Z) }.

(** A handler takes four words of the stack.  The number of words in use, below and including handlers: *)
Fixpoint words (hs : list (handler * list Z)) : Z :=
  match hs with [] => 0 | (_, b) :: r => 4 + Z.of_nat (length b) + words r end.
Definition depth (s : hst) : Z := Z.of_nat (length (cur s)) + words (hs s).

(** the n-th word from the top, if it is a value *)
Fixpoint get (l : list Z) (hs : list (handler * list Z)) (n : nat) : option Z :=
  if Nat.ltb n (length l) then nth_error l n
  else match hs with
       | [] => None
       | (_, b) :: r => if Nat.ltb n (length l + 4) then None else get b r (n - length l - 4)
       end.
Fixpoint put (l : list Z) (hs : list (handler * list Z)) (n : nat) (v : Z) : option (list Z * list (handler * list Z)) :=
  if Nat.ltb n (length l) then Some (set_nth l n v, hs)
  else match hs with
       | [] => None
       | (h, b) :: r => if Nat.ltb n (length l + 4) then None
                        else match put b r (n - length l - 4) v with
                             | Some (b', r') => Some (l, (h, b') :: r') | None => None end
       end.

(** One operation.  An exception goes to the innermost handler, if it was installed in this call of
    interprete, that is, above the words that were there at the call; values pushed since are dropped.
    [None]: not an operation of compiled code, which pops only what it pushed. *)
Definition sop (o : op) (s : hst) : option (list obs * hst) :=
  match o with
  | Push v => Some ([], mkH (v :: cur s) (hs s))
  | Pop n => if Nat.leb n (length (cur s)) then Some ([], mkH (skipn n (cur s)) (hs s)) else None
  | Access n => match get (cur s) (hs s) n with Some v => Some ([OVal v], s) | None => None end
  | Assign n v => match put (cur s) (hs s) n v with Some (l, r) => Some ([], mkH l r) | None => None end
  | PushTrap pc env extra => Some ([], mkH [] (((pc, env, extra), cur s) :: hs s))
  | PopTrap => match cur s, hs s with [], (_, b) :: r => Some ([], mkH b r) | _, _ => None end
  | Raise_ base =>
      if base <? words (hs s) then
        match hs s with (h, b) :: r => Some ([OHandler (Some h)], mkH b r) | [] => None end
      else Some ([OHandler None], mkH [] (hs s))
  | Check _ _ => Some ([], s)
  end.
Fixpoint srun (l : list op) (s : hst) : option (list obs * hst) :=
  match l with
  | [] => Some ([], s)
  | o :: l => match sop o s with
              | Some (a, s) => match srun l s with Some (b, s) => Some (a ++ b, s) | None => None end
              | None => None end
  end.

(** the words that may still be pushed: at least [room], when the trace begins; a check makes room for 256 *)
Definition needs (o : op) : Z := match o with Push _ => 1 | PushTrap _ _ _ => 4 | _ => 0 end.
Fixpoint fits (room : Z) (l : list op) : Prop :=
  match l with
  | [] => True
  | o :: l => needs o <= room /\ fits (match o with Check _ _ => Threshold_words | _ => room - needs o end) l
  end.
(** stat_alloc gives as many words as were asked for *)
Definition junk_ok (l : list op) : Prop :=
  forall addr junk n, In (Check addr junk) l -> 0 <= n -> Z.of_nat (length (junk n)) = n.
(** the greatest depth of the stack at the points of the trace *)
Fixpoint deepest (l : list op) (s : hst) : Z :=
  match l with
  | [] => depth s
  | o :: l => Z.max (depth s) (match sop o s with Some (_, s') => deepest l s' | None => 0 end)
  end.
(** each call of interprete starts with some number of words in use *)
Definition bases_ok (l : list op) : Prop := forall b, In (Raise_ b) l -> 0 <= b.
