(** What lambda terms mean before the back end touches them: variables are de Bruijn indices, functions take
    one argument and are closures over their environment (the innermost variable first). *)
From Verif Require Import Base Opcodes Back_Model Back_Spec.

(** the store, the global variables, and the bodies of the functions made so far: the function [Clo k env] is
    the k-th body with the environment env *)
Record xst := mkX { xsto : store; xgl : sglob; xfn : list lam }.

Section Lev.
Variable p : sprims.
Variable ar : primitive -> nat.
Variable shc : nat -> option lam.

Definition alloc_fn (env : list sval) (b : lam) (s : xst) : sval * xst :=
  (SLoc (length (xsto s)), mkX (xsto s ++ [Clo (Z.of_nat (length (xfn s))) env]) (xgl s) (xfn s ++ [b])).
Definition fn_of (s : xst) (f : sval) : option (list sval * lam) :=
  match f with
  | SLoc l => match nth_error (xsto s) l with
              | Some (Clo k env) => match nth_error (xfn s) (Z.to_nat k) with Some b => Some (env, b) | None => None end
              | _ => None end
  | _ => None
  end.
Fixpoint as_fns (l : list lam) : option (list lam) :=
  match l with
  | [] => Some []
  | Lfn b :: r => match as_fns r with Some bs => Some (b :: bs) | None => None end
  | _ => None
  end.

Definition xbindV (r : option (res * xst)) (k : sval -> xst -> option (res * xst)) : option (res * xst) :=
  match r with Some (RV v, s) => k v s | _ => r end.
Definition xbindL (r : option (lres * xst)) (k : list sval -> xst -> option (res * xst)) : option (res * xst) :=
  match r with
  | Some (LV vs, s) => k vs s
  | Some (LX v, s) => Some (RX v, s)
  | Some (LF, s) => Some (RF, s)
  | None => None
  end.
Section Lists.
Variable ev : lam -> xst -> option (res * xst).
(** the arguments of functions: the last one first *)
Fixpoint xlist_rl (l : list lam) (s : xst) : option (lres * xst) :=
  match l with
  | [] => Some (LV [], s)
  | e :: r => match xlist_rl r s with
              | Some (LV vs, s) => match ev e s with
                                   | Some (RV v, s) => Some (LV (v :: vs), s)
                                   | Some (RX v, s) => Some (LX v, s)
                                   | Some (RF, s) => Some (LF, s)
                                   | None => None end
              | x => x
              end
  end.
(** the arguments of primitives *)
Fixpoint xlist_lr (l : list lam) (s : xst) : option (lres * xst) :=
  match l with
  | [] => Some (LV [], s)
  | e :: r => match ev e s with
              | Some (RV v, s) => match xlist_lr r s with
                                  | Some (LV vs, s) => Some (LV (v :: vs), s)
                                  | x => x end
              | Some (RX v, s) => Some (LX v, s)
              | Some (RF, s) => Some (LF, s)
              | None => None
              end
  end.
End Lists.
(** definitions, each in the scope of those before it *)
Fixpoint xlist_let (ev : list sval -> lam -> xst -> option (res * xst)) (env : list sval) (l : list lam) (s : xst) : option (lres * xst) :=
  match l with
  | [] => Some (LV env, s)
  | e :: r => match ev env e s with
              | Some (RV v, s) => xlist_let ev (v :: env) r s
              | Some (RX v, s) => Some (LX v, s)
              | Some (RF, s) => Some (LF, s)
              | None => None
              end
  end.
(** application, one argument at a time *)
Fixpoint xapps (run : list sval -> lam -> xst -> option (res * xst)) (f : sval) (xs : list sval) (s : xst) : option (res * xst) :=
  match xs with
  | [] => Some (RV f, s)
  | x :: xs => match fn_of s f with
               | Some (env, b) => match run (x :: env) b s with
                                  | Some (RV v, s) => xapps run v xs s
                                  | Some (RF, _) => None
                                  | r => r end
               | None => None
               end
  end.

(** made by the back end only *)
Definition is_closure (q : lprim) : bool := match q with Pclosure _ _ => true | _ => false end.
(** operations on data, as in Back_Spec; functions are made by Lfn only *)
Definition xprim (q : lprim) (vs : list sval) (s : xst) : option (res * xst) :=
  match q with
  | Pclosure _ _ => None
  | _ => match ev_lprim p ar q vs (mkS [] (xsto s) (xgl s)) with
         | Some (r, s') => Some (r, mkX (sto s') (gl s') (xfn s))
         | None => None
         end
  end.

Fixpoint lev (n : nat) (env : list sval) (e : lam) (s : xst) {struct n} : option (res * xst) :=
  match n with
  | O => None
  | S n =>
      let ev := lev n env in
      match e with
      | Lvar k => if k <? 0 then None else match nth_error env (Z.to_nat k) with Some v => Some (RV v, s) | None => None end
      | Lassign _ _ => None
      | Lconst c => Some (RV (sconst p c), s)
      | Lapply f args =>
          match args with
          | [] => None
          | _ => xbindL (xlist_rl ev args s) (fun vs s => xbindV (ev f s) (fun vf s => xapps (lev n) vf vs s))
          end
      | Lfn b => let (v, s) := alloc_fn env b s in Some (RV v, s)
      | Llet args b => xbindL (xlist_let (lev n) env args s) (fun env s => lev n env b s)
      | Lletrec args b =>
          match as_fns args with
          | Some [] => None
          | Some bs =>
              let k := length bs in
              let ls := map (fun i => SLoc (length (xsto s) + i)) (seq 0 k) in
              let env' := rev ls ++ env in
              let s' := mkX (xsto s ++ map (fun i => Clo (Z.of_nat (length (xfn s) + i)) env') (seq 0 k)) (xgl s) (xfn s ++ bs) in
              lev n env' b s'
          | None => None
          end
      | Lprim q es => if ident_ok q es && negb (is_closure q) then xbindL (xlist_lr ev es s) (xprim q) else None
      | Lcase e c =>
          xbindV (ev e s) (fun v s =>
            match select_case p v c (xsto s) with Some (Some e) => ev e s | Some None => Some (RF, s) | None => None end)
      | Lswitch size e c =>
          (* a type with one constructor: the argument is a variable, a constant or a field (Back_Spec) *)
          if (size =? 1) && negb (simple e) then None else
          xbindV (ev e s) (fun v s =>
            match select_tag size v c (xsto s) with Some (Some e) => ev e s | Some None => Some (RF, s) | None => None end)
      | Lstaticfail => Some (RF, s)
      | Lstatichandle b h => match ev b s with Some (RF, s) => ev h s | r => r end
      | Lhandle b h => match ev b s with Some (RX v, s) => lev n (v :: env) h s | Some (RF, _) => None | r => r end
      | Lif c t f => xbindV (ev c s) (fun v s => match struth v with Some true => ev t s | Some false => ev f s | None => None end)
      | Lseq a b => xbindV (ev a s) (fun _ s => ev b s)
      | Lwhile c b =>
          xbindV (ev c s) (fun v s =>
            match struth v with
            | Some true => xbindV (ev b s) (fun _ s => ev (Lwhile c b) s)
            | Some false => Some (RV sunit, s)
            | None => None
            end)
      | Landalso a b => xbindV (ev a s) (fun v s => match struth v with Some true => ev b s | Some false => Some (RV v, s) | None => None end)
      | Lorelse a b => xbindV (ev a s) (fun v s => match struth v with Some true => Some (RV v, s) | Some false => ev b s | None => None end)
      | Lunspec => Some (RV SAny, s)
      | Lshared k => match shc k with Some c => ev c s | None => None end
      end
  end.
End Lev.

(** every variable is one of the innermost [k] or bound in the term; no shared node and no assignment to a variable
    (the latter are made by the back end only) *)
Fixpoint closed (k : Z) (e : lam) : bool :=
  match e with
  | Lvar n => n <? k
  | Lconst _ | Lstaticfail | Lunspec => true
  | Lapply f es => closed k f && forallb (closed k) es
  | Lfn b => closed (k + 1) b
  | Llet es b => (fix go k l := match l with [] => closed k b | x :: r => closed k x && go (k + 1) r end) k es
  | Lletrec es b => forallb (closed (k + Z.of_nat (length es))) es && closed (k + Z.of_nat (length es)) b
  | Lprim _ es => forallb (closed k) es
  | Lcase a cl => closed k a && forallb (fun c => closed k (snd c)) cl
  | Lswitch _ a cl => closed k a && forallb (fun c => closed k (snd c)) cl
  | Lhandle a b => closed k a && closed (k + 1) b
  | Lif a b c => closed k a && closed k b && closed k c
  | Lstatichandle a b | Lseq a b | Lwhile a b | Landalso a b | Lorelse a b => closed k a && closed k b
  | Lshared _ | Lassign _ _ => false
  end.
