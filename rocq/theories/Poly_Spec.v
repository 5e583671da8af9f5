(** Specification for C52: the finite type that a type graph stands for *)
From Coq Require Import ZArith List Bool.
From Verif Require Import Unify_Model.
Import ListNotations.
Open Scope Z_scope.

(** Types with variables; [ORec ls os tail]: a record with labels [ls] and field
    types [os]; [tail] is the row variable of a record with [...]. *)
Inductive otree :=
| OVar (v : nat)
| OArrow (a b : otree)
| OCon (os : list otree) (tn : nat)
| ORec (ls : list lab) (os : list otree) (tail : option nat).

(** a variable that has not been given a type *)
Definition unbound (c : tvrec) : Prop := forall t, tvKind c <> LinkTo t.

Definition row_end (h : heap) (w : nat) (tl : option nat) : Prop :=
  match nth_error (ws h) w with
  | Some NILrow => tl = None
  | Some (VARrow _ _ _) => tl = Some w
  | _ => False
  end.

(** [means h t o]: in the heap [h], the type [t] stands for [o] (records normalised,
    as normType leaves them: no field is still in the row) *)
Inductive means (h : heap) : ty -> otree -> Prop :=
| M_unbound v c : nth_error (vs h) v = Some c -> unbound c -> means h (VARt v) (OVar v)
| M_link v c t o : nth_error (vs h) v = Some c -> tvKind c = LinkTo t -> means h t o -> means h (VARt v) o
| M_arrow a b oa ob : means h a oa -> means h b ob -> means h (ARROWt a b) (OArrow oa ob)
| M_con ts tn os : means_all h ts os -> means h (CONt ts tn) (OCon os tn)
| M_rec r c os tl : nth_error (rs h) r = Some c -> means_all h (map snd (fields c)) os -> row_end h (rho c) tl ->
    means h (RECt r) (ORec (map fst (fields c)) os tl)
with means_all (h : heap) : list ty -> list otree -> Prop :=
| Ms_nil : means_all h [] []
| Ms_cons t ts o os : means h t o -> means_all h ts os -> means_all h (t :: ts) (o :: os).

(** the variables of a type *)
Fixpoint occurs (v : nat) (o : otree) : Prop :=
  match o with
  | OVar u => u = v
  | OArrow a b => occurs v a \/ occurs v b
  | OCon os _ => (fix any os := match os with [] => False | o :: os' => occurs v o \/ any os' end) os
  | ORec _ os _ => (fix any os := match os with [] => False | o :: os' => occurs v o \/ any os' end) os
  end.

(** [rename s o]: every variable [v] of [o] replaced by [s v] *)
Fixpoint rename (s : nat -> nat) (o : otree) : otree :=
  match o with
  | OVar v => OVar (s v)
  | OArrow a b => OArrow (rename s a) (rename s b)
  | OCon os tn => OCon (map (rename s) os) tn
  | ORec ls os tl => ORec ls (map (rename s) os) tl
  end.

(** [replace ps fs v]: the element of [fs] at the place where [v] is in [ps], or [v] *)
Fixpoint replace (ps fs : list nat) (v : nat) : nat :=
  match ps, fs with
  | p :: ps', f :: fs' => if Nat.eqb v p then f else replace ps' fs' v
  | _, _ => v
  end.
