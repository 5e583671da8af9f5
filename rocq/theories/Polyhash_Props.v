(** C30 for Polyhash: whatever the hash function (as long as equal keys hash alike) and whatever the
    history of operations, including the ones that grow the array, a hash table is the finite map
    given by the history. *)
From Coq Require Import Sorting.Permutation.
From Verif Require Import Base ArrayLib Hash_Model Hash_Proofs Polyhash_Model Polyhash_Proofs.

(** ** Specification: association lists *)
Section Spec.
Context {K V : Type} (same : K -> K -> bool) (nf : exn).
(** the operations that change a table *)
Inductive op :=
| Insert (k : K) (v : V) | PeekInsert (k : K) (v : V) | Remove (k : K)
| Filter (p : K -> V -> bool) | Map (f : K -> V -> V) | Transform (f : V -> V) | Copy.
(** what the caller sees *)
Inductive answer := Unit | Item (o : option V) | Raised (e : exn).

Definition assoc (k : K) (m : list (K * V)) : option V := option_map snd (List.find (fun e => same k (fst e)) m).
Definition others (k : K) (m : list (K * V)) : list (K * V) := List.filter (fun e => negb (same k (fst e))) m.
Definition spec_step (o : op) (m : list (K * V)) : answer * list (K * V) :=
  match o with
  | Insert k v => (Unit, (k, v) :: others k m)
  | PeekInsert k v => (Item (assoc k m), match assoc k m with Some _ => m | None => (k, v) :: m end)
  | Remove k => match assoc k m with Some v => (Item (Some v), others k m) | None => (Raised nf, m) end
  | Filter p => (Unit, List.filter (fun e => p (fst e) (snd e)) m)
  | Map f => (Unit, List.map (fun e => (fst e, f (fst e) (snd e))) m)
  | Transform f => (Unit, List.map (fun e => (fst e, f (snd e))) m)
  | Copy => (Unit, m)
  end.
Fixpoint spec_run (os : list op) (m : list (K * V)) : list answer * list (K * V) :=
  match os with
  | [] => ([], m)
  | o :: os => let (a, m) := spec_step o m in let (rest, m) := spec_run os m in (a :: rest, m)
  end.
End Spec.
Arguments op : clear implicits.
Arguments answer : clear implicits.

Section Run.
Context {K V : Type} (hashVal : K -> Z) (same : K -> K -> bool) (nf : exn).
(** ** The same history run by the model; an exception raised by remove leaves the table as it was
    (remove raises before its first update, Polyhash.sml 155-158) *)
Definition model_step (o : op K V) (t : table (K * V)) : outcome (answer V * table (K * V)) :=
  match o with
  | Insert k v => do t <- insert hashVal same t k v; Ret (Unit, t)
  | PeekInsert k v => do (r, t) <- peekInsert hashVal same t k v; Ret (Item r, t)
  | Remove k => match remove hashVal same nf t k with
                | Ret (v, t) => Ret (Item (Some v), t) | Raise x => Ret (Raised x, t) | UB => UB | Diverge => Diverge end
  | Filter p => do t <- filter p t; Ret (Unit, t)
  | Map f => do t <- map f t; Ret (Unit, t)
  | Transform f => do t <- transform f t; Ret (Unit, t)
  | Copy => do t <- copy t; Ret (Unit, t)
  end.
Fixpoint model_run (os : list (op K V)) (t : table (K * V)) : outcome (list (answer V) * table (K * V)) :=
  match os with
  | [] => Ret ([], t)
  | o :: os => do (a, t) <- model_step o t; do (rest, t) <- model_run os t; Ret (a :: rest, t)
  end.

(** what can be observed of a table holding the entries of m *)
Definition shows (t : table (K * V)) (m : list (K * V)) : Prop :=
  (forall k, peek hashVal same t k = Ret (assoc same k m)) /\
  (forall k, find hashVal same nf t k = match assoc same k m with Some v => Ret v | None => Raise nf end) /\
  numItems t = Z.of_nat (length m) /\
  (exists l, listItems t = Ret l /\ Permutation l m) /\
  (forall S (f : K -> V -> S -> S) s, exists l, Permutation l m /\
      apply f t s = Ret (fold_left (fun s e => f (fst e) (snd e) s) l s)) /\
  (exists l, bucketSizes t = Ret l /\ fold_right Z.add 0 l = Z.of_nat (length m) /\ Forall (fun n => 0 <= n) l).

Hypothesis same_refl : forall k, same k k = true.
Hypothesis same_sym : forall k k', same k k' = true -> same k' k = true.
Hypothesis same_trans : forall k1 k2 k3, same k1 k2 = true -> same k2 k3 = true -> same k1 k3 = true.
Hypothesis same_hash : forall k k', same k k' = true -> hashVal k = hashVal k'.

Lemma step_ok o t m : inv fst hashVal same t m -> n_items t < bound ->
  exists t', model_step o t = Ret (fst (spec_step same nf o m), t') /\ inv fst hashVal same t' (snd (spec_step same nf o m)).
Proof.
  intros I B. destruct o as [k v|k v|k|p|f|f|]; cbn [model_step spec_step].
  - destruct (insert_spec hashVal same same_refl same_sym same_trans same_hash t m k v I B) as (t' & -> & I'). cbn [bind]. eauto.
  - destruct (peekInsert_spec hashVal same same_refl same_sym same_trans same_hash t m k v I B) as (t' & -> & I').
    cbn [bind]. exists t'. split; [reflexivity|]. unfold assoc. unfold m_find in I'. cbn [snd].
    destruct (List.find _ m) in I' |- *; exact I'.
  - pose proof (remove_spec fst hashVal same same_refl same_sym same_trans same_hash nf t m k I) as R.
    unfold m_find in R. unfold remove, assoc. destruct (List.find _ m) as [e|] in R |- *.
    + destruct R as (t' & -> & I'). cbn [bind option_map]. eauto.
    + rewrite R. cbn [bind option_map fst snd]. eauto.
  - destruct (filter_spec hashVal same same_refl same_sym same_trans same_hash p t m I) as (t' & -> & I'). cbn [bind]. eauto.
  - destruct (map_spec hashVal same f t m I) as (t' & -> & I'). cbn [bind]. eauto.
  - rewrite transform_spec. destruct (map_spec hashVal same (fun _ v => f v) t m I) as (t' & -> & I'). cbn [bind]. eauto.
  - rewrite (copy_spec hashVal same t m I). cbn [bind]. eauto.
Qed.
Lemma filter_len {B} (p : B -> bool) l : (length (List.filter p l) <= length l)%nat.
Proof. induction l as [|x l IH]; cbn; [lia|]. destruct (p x); cbn; lia. Qed.
Lemma step_size (o : op K V) m : (length (snd (spec_step same nf o m)) <= S (length m))%nat.
Proof.
  destruct o as [k v|k v|k|p|f|f|]; cbn [spec_step snd]; unfold others;
    try destruct (assoc same k m); cbn [snd length]; rewrite ?map_length;
    repeat match goal with |- context [List.filter ?p ?l] => pose proof (filter_len p l); generalize dependent (List.filter p l); intros end; lia.
Qed.
Lemma run_ok os : forall t m, inv fst hashVal same t m -> n_items t + Z.of_nat (length os) <= bound ->
  exists t', model_run os t = Ret (fst (spec_run same nf os m), t') /\ inv fst hashVal same t' (snd (spec_run same nf os m)).
Proof.
  induction os as [|o os IH]; intros t m I B; cbn [model_run spec_run].
  - exists t. auto.
  - cbn [length] in B. destruct (step_ok o t m I) as (t1 & -> & I1); [lia|]. cbn [bind].
    pose proof (step_size o m) as Sz. destruct (spec_step same nf o m) as [a m1]. cbn [fst snd] in *.
    destruct (IH t1 m1 I1) as (t2 & -> & I2).
    { destruct I as (_ & _ & _ & N), I1 as (_ & _ & _ & N1). rewrite N1. rewrite N in B. lia. }
    cbn [bind]. destruct (spec_run same nf os m1) as [rest m2]. cbn [fst snd] in *. eauto.
Qed.
Lemma inv_shows t m : inv fst hashVal same t m -> shows t m.
Proof.
  intros I. pose proof (fun k => lookup_spec fst hashVal same same_refl same_sym same_trans same_hash t m k I) as L.
  split; [|split; [|split; [|split; [|split]]]].
  - intros k. unfold peek. rewrite L. cbn [bind]. unfold m_find, assoc. now destruct (List.find _ m) as [[]|].
  - intros k. unfold find. rewrite L. cbn [bind]. unfold m_find, assoc. now destruct (List.find _ m) as [[]|].
  - destruct I as (_ & _ & _ & N). exact N.
  - now apply (listItems_spec hashVal same same_refl same_sym same_trans same_hash t m).
  - intros S f s. now apply (apply_spec hashVal same f t m s).
  - destruct (bucketSizes_spec hashVal same t m I) as (l & E & H1 & _ & H2). eauto.
Qed.

(** After any history starting from an empty table made with any size hint up to 2^53, every call
    has answered as the association list does, and all observers agree with it.  The bound on the
    length of the history is the one under which growing never exceeds the largest array
    (Array.maxLen). *)
Theorem C30_polyhash fuel hint os : (57 <= fuel)%nat -> hint <= 2 ^ 53 -> 2 * Z.of_nat (length os) <= 2 ^ 54 - 2 ->
  exists t0 t, mkTable fuel hint = Ret t0 /\
    model_run os t0 = Ret (fst (spec_run same nf os []), t) /\ shows t (snd (spec_run same nf os [])).
Proof.
  intros Hf Hh Hl. destruct (mkTable_spec (V:=V) hashVal same fuel hint Hf Hh) as (t0 & E & I).
  destruct (run_ok os t0 [] I) as (t & Er & It).
  { destruct I as (_ & _ & _ & N). rewrite N. unfold bound. change (2 ^ 54 - 2) with 18014398509481982 in Hl. cbn [length]. lia. }
  exists t0, t. split; [assumption|]. split; [assumption|]. now apply inv_shows.
Qed.
(** Keys in the table are pairwise different: each key has one entry. *)
Theorem C30_polyhash_unique fuel hint os : (57 <= fuel)%nat -> hint <= 2 ^ 53 -> 2 * Z.of_nat (length os) <= 2 ^ 54 - 2 ->
  forall t0 as_ t l, mkTable fuel hint = Ret t0 -> model_run os t0 = Ret (as_, t) -> listItems t = Ret l ->
  ForallOrdPairs (fun e1 e2 => same (fst e1) (fst e2) = false) l.
Proof.
  intros Hf Hh Hl t0 as_ t l E0 Er El. destruct (mkTable_spec (V:=V) hashVal same fuel hint Hf Hh) as (t0' & E & I).
  rewrite E in E0. injection E0 as <-.
  destruct (run_ok os t0' [] I) as (t' & Er' & It).
  { destruct I as (_ & _ & _ & N). rewrite N. unfold bound. change (2 ^ 54 - 2) with 18014398509481982 in Hl. cbn [length]. lia. }
  rewrite Er' in Er. injection Er as <- <-. destruct (listItems_spec hashVal same same_refl same_sym same_trans same_hash t' _ It) as (l' & El' & P).
  rewrite El' in El. injection El as <-. destruct It as (_ & _ & D & _).
  apply (distinct_perm fst same same_sym _ _ (Permutation_sym P) D).
Qed.
End Run.
Print Assumptions C30_polyhash.
Print Assumptions C30_polyhash_unique.

(** Forty insertions into a table with 32 buckets (so it grows), with a hash function that makes every third
    key collide, then removals and a filter. *)
Definition ex_hash (k : Z) : Z := k mod 3.
Definition ex_ops : list (op Z Z) :=
  List.map (fun i => Insert (Z.of_nat i) (Z.of_nat i * 10)) (seq 0 40) ++
  [Insert 7 1; PeekInsert 8 2; PeekInsert 99 3; Remove 5; Remove 5; Copy; Transform (fun v => v + 1);
   Filter (fun k _ => k <? 9)].
Example C30_polyhash_ex : exists t0 t, mkTable 60 1 = Ret t0 /\ zlen (arr t0) = 32 /\
  model_run ex_hash Z.eqb NotFound ex_ops t0 = Ret (fst (spec_run Z.eqb NotFound ex_ops []), t) /\ zlen (arr t) = 64 /\
  numItems t = 8 /\ peek ex_hash Z.eqb t 7 = Ret (Some 2) /\ peek ex_hash Z.eqb t 5 = Ret None /\ peek ex_hash Z.eqb t 8 = Ret (Some 81) /\
  fst (spec_run Z.eqb NotFound ex_ops []) =
    repeat Unit 40 ++ [Unit; Item (Some 80); Item None; Item (Some 50); Raised NotFound; Unit; Unit; Unit].
Proof.
  eexists. eexists. split; [vm_compute; reflexivity|]. split; [vm_compute; reflexivity|].
  split; [vm_compute; reflexivity|]. repeat (split; [vm_compute; reflexivity|]). vm_compute. reflexivity.
Qed.

(** ** The array sizes: the size hint is rounded up to the least power of two that is at least 32;
    but if it exceeds 2^61 the loop of roundUp never ends, since doubling loses the top bit. *)
Theorem C30_mkTable_size fuel hint : (57 <= fuel)%nat -> hint <= 2 ^ 61 ->
  exists q, 5 <= q /\ roundUp fuel hint = Ret (2 ^ q) /\ hint <= 2 ^ q /\ (q = 5 \/ 2 ^ (q - 1) < hint).
Proof. intros Hf Hh. destruct (roundUp_spec fuel hint Hh Hf) as (q & E & ? & ? & ?). exists q. repeat split; auto; lia. Qed.
Theorem C30_mkTable_terminates_refuted : exists hint, - two62 <= hint < two62 /\
  forall fuel (K V : Type), @mkTable K V fuel hint = Diverge.
Proof.
  exists (2 ^ 61 + 1). split; [split; [discriminate|reflexivity]|]. intros fuel K V. unfold mkTable.
  rewrite roundUp_diverges; [reflexivity|]. lia.
Qed.
Print Assumptions C30_mkTable_size.
Print Assumptions C30_mkTable_terminates_refuted.
Example C30_mkTable_size_ex : roundUp 57 100 = Ret 128 /\ roundUp 57 (2 ^ 61) = Ret (2 ^ 61).
Proof. split; vm_compute; reflexivity. Qed.
