(** Property C26: Redblackmap implements finite maps with balanced trees. *)
From Coq Require Import Sorting.Sorted Sorting.Permutation.
From Verif Require Import Base OrderSpec FinMap MapSpec Redblackmap_Model Redblackmap_Proofs.

(** One operation of a client on a dictionary. *)
Definition rbm_step {K V} (compare : K -> K -> comparison) (d : dict K V) (o : map_op K V)
  : outcome (dict K V * option V) :=
  match o with
  | Insert k v => Ret (insert compare d k v, None)
  | Remove k => or_notfound d (remove compare d k)
  | MapKV f => Ret (map f d, None)
  | MapV f => Ret (transform f d, None)
  end.

(** The observable behaviour of [d] is that of the abstract map [m]. *)
Definition rbm_agrees {K V} (compare : K -> K -> comparison) (d : dict K V) (m : list (K * V)) : Prop :=
  numItems d = Z.of_nat (length m) /\
  (forall k, find compare d k = found (am_find fst compare k m)) /\
  (forall k, peek compare d k = Ret (option_map snd (am_find fst compare k m))) /\
  exists l, lists fst compare l m /\ listItems d = Ret l /\
    (forall B (f : K -> V -> B -> B) e, foldl f e d = Ret (fold_left (fun acc p => f (fst p) (snd p) acc) l e)) /\
    (forall B (f : K -> V -> B -> B) e, foldr f e d = Ret (fold_right (fun p acc => f (fst p) (snd p) acc) e l)) /\
    (forall S (f : K -> V -> S -> S) s, app f d s = Ret (fold_left (fun s p => f (fst p) (snd p) s) l s)) /\
    (forall S (f : K -> V -> S -> S) s, revapp f d s = Ret (fold_left (fun s p => f (fst p) (snd p) s) (rev l) s)).

Lemma inv_agrees {K V} compare (TP : total_preorder compare) (d : dict K V) m :
  inv compare d m -> rbm_agrees compare d m.
Proof.
  intros H. split; [apply H|]. split; [|split].
  - intros k. rewrite (inv_find compare TP d m k H). reflexivity.
  - intros k. unfold peek. rewrite (inv_find compare TP d m k H).
    destruct (am_find fst compare k m) as [[k' x]|]; reflexivity.
  - exists (elements (fst d)). split; [apply H|]. split; [apply listItems_spec|].
    split; [intros; apply foldl_spec|]. split; [intros; apply foldr_spec|].
    split; [intros; apply app_spec|intros; apply revapp_spec].
Qed.

Lemma rbm_step_inv {K V} compare (TP : total_preorder compare) (d : dict K V) m o : inv compare d m ->
  exists d', rbm_step compare d o = Ret (d', snd (abs_step compare m o)) /\ inv compare d' (fst (abs_step compare m o)).
Proof.
  intros H. destruct o as [k v|k|f|f]; cbn.
  - eexists. split; [reflexivity|]. now apply inv_insert.
  - pose proof (inv_remove compare TP d m k H) as HR.
    destruct (am_find fst compare k m) as [[k' x]|] eqn:F.
    + destruct HR as (d' & E & H'). rewrite E. cbn. eauto.
    + rewrite HR. cbn. exists d. split; [reflexivity|].
      now rewrite am_remove_absent.
  - eexists. split; [reflexivity|]. now apply inv_map.
  - eexists. split; [reflexivity|]. now apply inv_transform.
Qed.

Lemma rbm_run_inv {K V} compare (TP : total_preorder compare) (os : list (map_op K V)) :
  exists d, conc_run (rbm_step compare) mkDict os = Ret (d, snd (abs_run compare [] os)) /\
    inv compare d (fst (abs_run compare [] os)).
Proof.
  apply (conc_run_simulates _ (abs_step compare) (inv compare)); auto using inv_empty.
  intros. now apply rbm_step_inv.
Qed.

(** Every history of operations runs without internal failure, returns what the abstract map
    returns, and ends in a dictionary observably equal to the abstract map. *)
Theorem C26_history : forall K V (compare : K -> K -> comparison), total_preorder compare ->
  forall os : list (map_op K V), exists d,
    conc_run (rbm_step compare) mkDict os = Ret (d, snd (abs_run compare [] os)) /\
    rbm_agrees compare d (fst (abs_run compare [] os)).
Proof.
  intros K V compare TP os. destruct (rbm_run_inv compare TP os) as (d & E & H).
  exists d. split; [assumption|]. now apply inv_agrees.
Qed.

(** Red-black shape: no red node has a red child, all paths have equally many black nodes. *)
Fixpoint no_red_red {K V} (t : tree K V) : Prop :=
  match t with
  | LEAF => True
  | BLACK _ _ l r => no_red_red l /\ no_red_red r
  | RED _ _ l r =>
    (match l with RED _ _ _ _ => False | _ => True end) /\
    (match r with RED _ _ _ _ => False | _ => True end) /\ no_red_red l /\ no_red_red r
  end.
Fixpoint black_paths {K V} (t : tree K V) : list nat :=
  match t with
  | LEAF => [O]
  | RED _ _ l r => black_paths l ++ black_paths r
  | BLACK _ _ l r => List.map S (black_paths l ++ black_paths r)
  end.
Fixpoint depth {K V} (t : tree K V) : nat :=
  match t with LEAF => O | RED _ _ l r | BLACK _ _ l r => S (Nat.max (depth l) (depth r)) end.

Lemma rb_no_red_red {K V} n (t : tree K V) : rb n t -> no_red_red t.
Proof.
  induction 1 as [|n k x l r Hl IHl Hr IHr E1 E2|n k x l r Hl IHl Hr IHr]; cbn; auto.
  destruct l, r; cbn in *; try discriminate; auto.
Qed.
Lemma rb_black_paths {K V} n (t : tree K V) : rb n t -> forall a, In a (black_paths t) -> a = n.
Proof.
  induction 1 as [|n k x l r Hl IHl Hr IHr E1 E2|n k x l r Hl IHl Hr IHr]; cbn [black_paths]; intros a H.
  - destruct H as [<-|[]]. reflexivity.
  - apply in_app_or in H as [H|H]; auto.
  - apply in_map_iff in H as (b & <- & H). apply in_app_or in H as [H|H]; f_equal; auto.
Qed.
Lemma depth_height {K V} (t : tree K V) : depth t = height t.
Proof. induction t; cbn; congruence. Qed.

(** Every reachable tree is a red-black tree, and its depth is at most 2 log2(n+1):
    2^depth <= (n+1)^2. *)
Theorem C26_balanced : forall K V (compare : K -> K -> comparison), total_preorder compare ->
  forall (os : list (map_op K V)) d out, conc_run (rbm_step compare) mkDict os = Ret (d, out) ->
    no_red_red (fst d) /\
    (forall a b, In a (black_paths (fst d)) -> In b (black_paths (fst d)) -> a = b) /\
    2 ^ Z.of_nat (depth (fst d)) <= (numItems d + 1) ^ 2.
Proof.
  intros K V compare TP os d out E. destruct (rbm_run_inv compare TP os) as (d' & E' & L & (n & HR) & Hred & Hn).
  rewrite E in E'. injection E' as <- _. split; [eapply rb_no_red_red; eauto|]. split.
  - intros a b Ha Hb. transitivity n; [|symmetry]; eapply rb_black_paths; eauto.
  - unfold numItems. rewrite Hn, <- (lists_length _ _ _ _ L), depth_height.
    pose proof (rb_balanced n (fst d) HR Hred) as H. apply Nat2Z.inj_le in H.
    rewrite !Nat2Z.inj_pow in H. rewrite Nat2Z.inj_add in H. exact H.
Qed.

(** map and transform may also change the type of the values. *)
Theorem C26_map : forall K V W (compare : K -> K -> comparison), total_preorder compare ->
  forall (os : list (map_op K V)) d out (f : K -> V -> W) (g : V -> W),
    conc_run (rbm_step compare) mkDict os = Ret (d, out) ->
    rbm_agrees compare (map f d) (List.map (fun p => (fst p, f (fst p) (snd p))) (fst (abs_run compare [] os))) /\
    rbm_agrees compare (transform g d) (List.map (fun p => (fst p, g (snd p))) (fst (abs_run compare [] os))).
Proof.
  intros K V W compare TP os d out f g E. destruct (rbm_run_inv compare TP os) as (d' & E' & H).
  rewrite E in E'. injection E' as <- _. split; apply inv_agrees; auto.
  - now apply inv_map.
  - now apply inv_transform.
Qed.

(** A concrete history: insertions (one replacing), removals of a present and an absent key. *)
Example C26_example : total_preorder Z.compare /\
  conc_run (rbm_step Z.compare) mkDict
    [Insert 5 50; Insert 3 30; Insert 8 80; Insert 1 10; Insert 3 33; Remove 5; Remove 7; MapV Z.opp]
  = Ret ((BLACK 3 (-33) (BLACK 1 (-10) LEAF LEAF) (BLACK 8 (-80) LEAF LEAF), 3),
         [None; None; None; None; None; Some 50; None; None]).
Proof. split; [apply to_tp, Z_compare_total_order|reflexivity]. Qed.

Print Assumptions C26_history.
Print Assumptions C26_balanced.
Print Assumptions C26_map.
