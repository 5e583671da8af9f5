(** Property C24: Binarymap implements finite maps. *)
From Coq Require Import Sorting.Sorted Sorting.Permutation.
From Verif Require Import Base OrderSpec FinMap MapSpec Wbtree_Model Wbtree_Proofs Binarymap_Model Binarymap_Proofs.

(** One operation of a client on a dictionary. *)
Definition bm_step {K V} (compare : K -> K -> comparison) (d : dict K V) (o : map_op K V)
  : outcome (dict K V * option V) :=
  match o with
  | Insert k v => do d' <- insert compare d k v; Ret (d', None)
  | Remove k => or_notfound d (remove compare d k)
  | MapKV f => Ret (map f d, None)
  | MapV f => Ret (transform f d, None)
  end.

(** The observable behaviour of [d] is that of the abstract map [m]. *)
Definition bm_agrees {K V} (compare : K -> K -> comparison) (d : dict K V) (m : list (K * V)) : Prop :=
  numItems d = Z.of_nat (length m) /\
  (forall k, find compare d k = found (am_find fst compare k m)) /\
  (forall k, peek compare d k = Ret (option_map snd (am_find fst compare k m))) /\
  exists l, lists fst compare l m /\ listItems d = l /\
    (forall B (f : K -> V -> B -> B) e, foldl f e d = fold_left (fun acc p => f (fst p) (snd p) acc) l e) /\
    (forall B (f : K -> V -> B -> B) e, foldr f e d = fold_right (fun p acc => f (fst p) (snd p) acc) e l) /\
    (forall S (f : K -> V -> S -> S) s, app f d s = fold_left (fun s p => f (fst p) (snd p) s) l s) /\
    (forall S (f : K -> V -> S -> S) s, revapp f d s = fold_left (fun s p => f (fst p) (snd p) s) (rev l) s).

Lemma inv_agrees {K V} compare (TP : total_preorder compare) (d : dict K V) m :
  inv compare d m -> bm_agrees compare d m.
Proof.
  intros H. split; [eapply inv_numItems; eauto|]. split; [|split].
  - intros k. rewrite (inv_find compare TP d m k H). reflexivity.
  - intros k. unfold peek. rewrite (inv_find compare TP d m k H).
    destruct (am_find fst compare k m) as [[k' x]|]; reflexivity.
  - exists (elements d). split; [apply H|]. split; [unfold listItems; rewrite d2l_spec; apply app_nil_r|].
    unfold foldl, foldr, app, revapp. split; [intros; apply foldlt_spec|]. split; [intros; apply foldrt_spec|].
    split; [intros; apply apply_spec|intros; apply revapply_spec].
Qed.

Lemma bm_step_inv {K V} compare (TP : total_preorder compare) (d : dict K V) m o : inv compare d m ->
  exists d', bm_step compare d o = Ret (d', snd (abs_step compare m o)) /\ inv compare d' (fst (abs_step compare m o)).
Proof.
  intros H. destruct o as [k v|k|f|f]; cbn.
  - destruct (inv_insert compare TP d m k v H) as (d' & E & I). rewrite E. cbn. eauto.
  - pose proof (inv_remove compare TP d m k H) as HR.
    destruct (am_find fst compare k m) as [[k' x]|] eqn:F.
    + destruct HR as (d' & E & H'). rewrite E. cbn. eauto.
    + rewrite HR. cbn. exists d. split; [reflexivity|].
      now rewrite am_remove_absent.
  - eexists. split; [reflexivity|]. now apply inv_map.
  - eexists. split; [reflexivity|]. now apply inv_transform.
Qed.

Lemma bm_run_inv {K V} compare (TP : total_preorder compare) (os : list (map_op K V)) :
  exists d, conc_run (bm_step compare) mkDict os = Ret (d, snd (abs_run compare [] os)) /\
    inv compare d (fst (abs_run compare [] os)).
Proof.
  apply (conc_run_simulates _ (abs_step compare) (inv compare)); auto using inv_empty.
  intros. now apply bm_step_inv.
Qed.

(** Every history of operations runs without internal failure, returns what the abstract map
    returns, and ends in a dictionary observably equal to the abstract map. *)
Theorem C24_history : forall K V (compare : K -> K -> comparison), total_preorder compare ->
  forall os : list (map_op K V), exists d,
    conc_run (bm_step compare) mkDict os = Ret (d, snd (abs_run compare [] os)) /\
    bm_agrees compare d (fst (abs_run compare [] os)).
Proof.
  intros K V compare TP os. destruct (bm_run_inv compare TP os) as (d & E & H).
  exists d. split; [assumption|]. now apply inv_agrees.
Qed.

(** map and transform may also change the type of the values. *)
Theorem C24_map : forall K V W (compare : K -> K -> comparison), total_preorder compare ->
  forall (os : list (map_op K V)) d out (f : K -> V -> W) (g : V -> W),
    conc_run (bm_step compare) mkDict os = Ret (d, out) ->
    bm_agrees compare (map f d) (List.map (fun p => (fst p, f (fst p) (snd p))) (fst (abs_run compare [] os))) /\
    bm_agrees compare (transform g d) (List.map (fun p => (fst p, g (snd p))) (fst (abs_run compare [] os))).
Proof.
  intros K V W compare TP os d out f g E. destruct (bm_run_inv compare TP os) as (d' & E' & H).
  rewrite E in E'. injection E' as <- _. split; apply inv_agrees; auto.
  - now apply inv_map.
  - now apply inv_transform.
Qed.

(** Every counter in a reachable tree is the number of entries below it. *)
Fixpoint counts_right {E} (t : tree E) : Prop :=
  match t with
  | Wbtree_Model.E => True
  | T _ n l r => n = 1 + treeSize l + treeSize r /\ counts_right l /\ counts_right r
  end.
Theorem C24_counts : forall K V (compare : K -> K -> comparison), total_preorder compare ->
  forall (os : list (map_op K V)) d out, conc_run (bm_step compare) mkDict os = Ret (d, out) -> counts_right d.
Proof.
  intros K V compare TP os d out E. destruct (bm_run_inv compare TP os) as (d' & E' & [_ O]).
  rewrite E in E'. injection E' as <- _. clear E.
  induction d as [|v n l IHl r IHr]; cbn [counts_right]; [auto|]. destruct O as (-> & Ol & Or). split; [|auto].
  rewrite !ok_size by assumption. cbn [elements]. rewrite app_length. cbn [length]. lia.
Qed.

(** Finding.  Binarymap.sml (35-40) claims a bounded balance criterion: one subtree never has more
    than 3 times as many elements as its sibling (an empty tree counting as one element, since a
    single element beside an empty tree is allowed).  It is not maintained. *)
Fixpoint weight_balanced {E} (t : tree E) : Prop :=
  match t with
  | Wbtree_Model.E => True
  | T _ n l r =>
    (treeSize l + treeSize r <= 1 \/
     (treeSize l <= 3 * treeSize r /\ treeSize r <= 3 * treeSize l)) /\
    weight_balanced l /\ weight_balanced r
  end.
Theorem C24_balanced_refuted : exists (os : list (map_op Z unit)) d out,
  conc_run (bm_step Z.compare) mkDict os = Ret (d, out) /\ ~ weight_balanced d.
Proof.
  exists (List.map (fun k => Insert k tt) [6; 7; 2; 4; 8; 1; 3; 5] ++ [Remove 6]).
  eexists. eexists. split; [vm_compute; reflexivity|]. cbn. lia.
Qed.

(** A concrete history: insertions (one replacing), removals of a present and an absent key. *)
Example C24_example : total_preorder Z.compare /\
  conc_run (bm_step Z.compare) mkDict
    [Insert 5 50; Insert 3 30; Insert 8 80; Insert 1 10; Insert 3 33; Remove 5; Remove 7; MapV Z.opp]
  = Ret (T (3, -33) 3 (T (1, -10) 1 E E) (T (8, -80) 1 E E),
         [None; None; None; None; None; Some 50; None; None]).
Proof. split; [apply to_tp, Z_compare_total_order|reflexivity]. Qed.

Print Assumptions C24_history.
Print Assumptions C24_counts.
Print Assumptions C24_balanced_refuted.
Print Assumptions C24_map.
