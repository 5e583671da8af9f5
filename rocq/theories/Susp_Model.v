(** Model of mosmllib/Susp.sml.
    The expressions a user delays are programs that return a value, raise an exception, act on a state
    of any type, delay other programs and force suspensions, going on with the value or the exception
    that comes back.  A suspension is the index of its reference in the heap.  [starts] is the list of
    the evaluations begun, last first; it is not in the code. *)
From Verif Require Import Base.

Section Susp.
Context {V St : Type}.
Inductive prog :=
| PVal (v : V)
| PExn (e : exn)
| PAct (f : St -> St * prog)
| PDelay (f : prog) (k : nat -> prog)
| PForce (su : nat) (k : V + exn -> prog).
(** Susp.sml 4 *)
Inductive thunk := VAL (v : V) | THUNK (f : prog).
Record world := mkW { cells : list thunk; starts : list nat; state : St }.
Fixpoint put (l : list thunk) (i : nat) (t : thunk) : list thunk :=
  match l, i with [], _ => [] | _ :: r, O => t :: r | x :: r, S i => x :: put r i t end.

(** Susp.sml 9-10 *)
Definition delay (f : prog) (w : world) : nat * world := (length (cells w), mkW (cells w ++ [THUNK f]) (starts w) (state w)).
(** Susp.sml 12-16; [eval] runs a program *)
Definition force (eval : prog -> world -> outcome ((V + exn) * world)) (su : nat) (w : world) : outcome ((V + exn) * world) :=
  match nth_error (cells w) su with
  | None => UB
  | Some (VAL v) => Ret (inl v, w)
  | Some (THUNK f) =>
      do (r, w1) <- eval f (mkW (cells w) (su :: starts w) (state w));
      match r with
      | inl v => Ret (inl v, mkW (put (cells w1) su (VAL v)) (starts w1) (state w1))
      | inr e => Ret (inr e, w1)
      end
  end.
(** the program of the user *)
Fixpoint eval (fuel : nat) (p : prog) (w : world) : outcome ((V + exn) * world) :=
  match fuel with
  | O => Diverge
  | S fuel =>
      match p with
      | PVal v => Ret (inl v, w)
      | PExn e => Ret (inr e, w)
      | PAct f => let '(s, p) := f (state w) in eval fuel p (mkW (cells w) (starts w) s)
      | PDelay f k => let '(su, w) := delay f w in eval fuel (k su) w
      | PForce su k => do (r, w) <- force (eval fuel) su w; eval fuel (k r) w
      end
  end.
End Susp.
Arguments prog : clear implicits. Arguments thunk : clear implicits. Arguments world : clear implicits.
