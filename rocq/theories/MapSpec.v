(** Abstract finite maps driven by histories of operations (specification only).
    A map is a list of (key, value) entries with pairwise non-EQUAL keys, order irrelevant
    (see FinMap.v for am_find, am_insert, am_remove, lists). *)
From Verif Require Import Base OrderSpec FinMap.

Inductive map_op (K V : Type) :=
| Insert (k : K) (v : V)
| Remove (k : K)
| MapKV (f : K -> V -> V)
| MapV (f : V -> V).
Arguments Insert {K V} k v.
Arguments Remove {K V} k.
Arguments MapKV {K V} f.
Arguments MapV {K V} f.

Section MapSpec.
Context {K V : Type} (c : K -> K -> comparison).

(** effect of one operation; the output is what Remove returns (None: NotFound is raised and
    the map stays as it is) *)
Definition abs_step (m : list (K * V)) (o : map_op K V) : list (K * V) * option V :=
  match o with
  | Insert k v => (am_insert fst c (k, v) m, None)
  | Remove k => (am_remove fst c k m, option_map snd (am_find fst c k m))
  | MapKV f => (map (fun p => (fst p, f (fst p) (snd p))) m, None)
  | MapV f => (map (fun p => (fst p, f (snd p))) m, None)
  end.

Fixpoint abs_run (m : list (K * V)) (os : list (map_op K V)) : list (K * V) * list (option V) :=
  match os with
  | [] => (m, [])
  | o :: os => let (m1, r) := abs_step m o in let (m2, rs) := abs_run m1 os in (m2, r :: rs)
  end.

(** what find returns for a map that binds [k] as in [m] *)
Definition found (r : option (K * V)) : outcome V :=
  match r with Some (_, v) => Ret v | None => Raise NotFound end.
End MapSpec.

(** Run a concrete implementation with a given step function over a history. *)
Fixpoint conc_run {D O R} (step : D -> O -> outcome (D * R)) (d : D) (os : list O) : outcome (D * list R) :=
  match os with
  | [] => Ret (d, [])
  | o :: os => do (d1, r) <- step d o; do (d2, rs) <- conc_run step d1 os; Ret (d2, r :: rs)
  end.

(** turn the NotFound result of a removal into an output *)
Definition or_notfound {D V} (d : D) (r : outcome (D * V)) : outcome (D * option V) :=
  match r with
  | Ret (d', v) => Ret (d', Some v)
  | Raise NotFound => Ret (d, None)
  | Raise e => Raise e
  | UB => UB
  | Diverge => Diverge
  end.

Lemma conc_run_simulates {D O R M} (step : D -> O -> outcome (D * R)) (astep : M -> O -> M * R)
    (I : D -> M -> Prop)
    (arun : M -> list O -> M * list R)
    (Hnil : forall m, arun m [] = (m, []))
    (Hcons : forall m o os, arun m (o :: os) = let (m1, r) := astep m o in let (m2, rs) := arun m1 os in (m2, r :: rs)) :
  (forall d m o, I d m -> exists d', step d o = Ret (d', snd (astep m o)) /\ I d' (fst (astep m o))) ->
  forall os d m, I d m -> exists d', conc_run step d os = Ret (d', snd (arun m os)) /\ I d' (fst (arun m os)).
Proof.
  intros Hs os. induction os as [|o os IH]; intros d m HI; cbn.
  - rewrite Hnil. eauto.
  - rewrite Hcons. destruct (Hs d m o HI) as (d1 & E & HI1). rewrite E. cbn.
    destruct (astep m o) as [m1 r]. cbn in *. destruct (IH d1 m1 HI1) as (d2 & E2 & HI2).
    rewrite E2. cbn. destruct (arun m1 os) as [m2 rs]. cbn in *. eauto.
Qed.
