(** Property C29: Binaryset implements finite sets. *)
From Coq Require Import Sorting.Sorted Sorting.Permutation.
From Verif Require Import Base OrderSpec FinMap SetSpec Wbtree_Model Wbtree_Proofs Binaryset_Model Binaryset_Proofs.

(** [built c d s]: some client program, using only operations of the signature, can build the
    concrete set [d], and the same operations on abstract sets (lists without EQUAL items) give [s].
    An abstract set may be listed in any order. *)
Inductive built {A} (c : A -> A -> comparison) : set A -> list A -> Prop :=
| b_empty : built c empty []
| b_singleton x : built c (singleton x) [x]
| b_add d s x d' : built c d s -> add c d x = Ret d' -> built c d' (set_replace c x s)
| b_addList d s xs d' : built c d s -> addList c d xs = Ret d' ->
    built c d' (fold_left (fun s x => set_replace c x s) xs s)
| b_delete d s x d' : built c d s -> delete c d x = Ret d' -> built c d' (set_delete c x s)
| b_union d1 s1 d2 s2 d : built c d1 s1 -> built c d2 s2 -> union c d1 d2 = Ret d ->
    built c d (set_union c s1 s2)
| b_inter d1 s1 d2 s2 d : built c d1 s1 -> built c d2 s2 -> intersection c d1 d2 = Ret d ->
    built c d (set_inter c s2 s1)
| b_diff d1 s1 d2 s2 d : built c d1 s1 -> built c d2 s2 -> difference c d1 d2 = Ret d ->
    built c d (set_diff c s1 s2)
| b_order d s s' : built c d s -> Permutation s s' -> built c d s'.

Lemma built_inv {A} (c : A -> A -> comparison) d s : total_preorder c -> built c d s -> inv c d s.
Proof.
  intros TP.
  induction 1 as [|x|d s x d' H IH E|d s xs d' H IH E|d s x d' H IH E
    |d1 s1 d2 s2 d H1 IH1 H2 IH2 E|d1 s1 d2 s2 d H1 IH1 H2 IH2 E|d1 s1 d2 s2 d H1 IH1 H2 IH2 E|d s s' H IH P].
  - apply inv_empty.
  - now apply inv_singleton.
  - destruct (inv_add c TP d s x IH) as (d3 & E3 & I3). rewrite E in E3. now injection E3 as <-.
  - destruct (inv_addList c TP xs d s IH) as (d3 & E3 & I3). rewrite E in E3. now injection E3 as <-.
  - pose proof (inv_delete c TP d s x IH) as D. destruct (set_mem c x s).
    + destruct D as (d2 & E2 & I2). rewrite E in E2. injection E2 as <-. assumption.
    + congruence.
  - destruct (inv_union c TP d1 s1 d2 s2 IH1 IH2) as (d3 & E3 & I3). rewrite E in E3. now injection E3 as <-.
  - destruct (inv_intersection c TP d1 s1 d2 s2 IH1 IH2) as (d3 & E3 & I3). rewrite E in E3. now injection E3 as <-.
  - destruct (inv_difference c TP d1 s1 d2 s2 IH1 IH2) as (d3 & E3 & I3). rewrite E in E3. now injection E3 as <-.
  - eapply inv_perm; eauto.
Qed.

(** The observers of a single set, and the operations that extend or shrink it. *)
Theorem C29_observers : forall A (c : A -> A -> comparison), total_preorder c -> forall d s, built c d s ->
  numItems d = Z.of_nat (length s) /\
  (isEmpty d = true <-> s = []) /\
  (forall x, member c d x = set_mem c x s) /\
  (forall x, peek c d x = List.find (is_equal c x) s) /\
  (forall x y, In y s -> c x y = Eq -> retrieve c d x = Ret y) /\
  (forall x, set_mem c x s = false -> retrieve c d x = Raise NotFound /\ delete c d x = Raise NotFound) /\
  (forall x, set_mem c x s = true -> exists d', delete c d x = Ret d') /\
  (forall x, exists d', add c d x = Ret d') /\
  (forall xs, exists d', addList c d xs = Ret d') /\
  (forall p, match find p d with
             | Some x => In x s /\ p x = true
             | None => forall x, In x s -> p x = false
             end) /\
  exists l, set_lists c l s /\ listItems d = l /\
    (forall B (f : A -> B -> B) e, foldl f e d = fold_left (fun acc x => f x acc) l e) /\
    (forall B (f : A -> B -> B) e, foldr f e d = fold_right f e l) /\
    (forall S (f : A -> S -> S) st, app f d st = fold_left (fun st x => f x st) l st) /\
    (forall S (f : A -> S -> S) st, revapp f d st = fold_left (fun st x => f x st) (rev l) st).
Proof.
  intros A c TP d s H. apply (built_inv c d s TP) in H.
  split; [eapply inv_numItems; eauto|]. split; [eapply inv_isEmpty; eauto|].
  split; [intros; now apply inv_member|].
  assert (PK : forall x, peek c d x = List.find (is_equal c x) s) by (intros; now apply inv_peek).
  split; [exact PK|]. split.
  { intros x y Hy E. unfold retrieve. rewrite PK. destruct (List.find (is_equal c x) s) as [z|] eqn:F.
    - apply find_some in F as [Hz Ez]. unfold is_equal in Ez. destruct (c x z) eqn:Exz; try discriminate.
      f_equal. apply (sorted_In_eq c TP (elements d)); [apply H| | |].
      + apply (set_lists_In c (elements d) s); [apply H|assumption].
      + apply (set_lists_In c (elements d) s); [apply H|assumption].
      + apply (tp_eq_trans c TP) with x; [now apply tp_eq_sym|assumption].
    - apply find_none with (x := y) in F; [|assumption]. unfold is_equal in F. now rewrite E in F. }
  split. { intros x Hx. split.
    - unfold retrieve. rewrite PK. destruct (List.find (is_equal c x) s) as [z|] eqn:F; [|reflexivity].
      apply find_some in F as [Hz Ez]. rewrite set_mem_false in Hx. specialize (Hx z Hz). unfold is_equal in Ez.
      now destruct (c x z).
    - pose proof (inv_delete c TP d s x H) as D. now rewrite Hx in D. }
  split. { intros x Hx. pose proof (inv_delete c TP d s x H) as D. rewrite Hx in D. destruct D as (d' & E & _). eauto. }
  split. { intros x. destruct (inv_add c TP d s x H) as (d' & E & _). eauto. }
  split. { intros xs. destruct (inv_addList c TP xs d s H) as (d' & E & _). eauto. }
  split. { intros p. pose proof (find_spec p d) as F. destruct (find p d) as [x|].
    - destruct F as [F1 F2]. split; [|assumption]. now apply (set_lists_In c (elements d) s); [apply H|].
    - intros x Hx. apply F. now apply (set_lists_In c (elements d) s); [apply H|]. }
  exists (elements d). split; [apply H|]. unfold listItems, foldl, foldr, app, revapp.
  split. { rewrite foldrt_spec. induction (elements d) as [|x l IH]; cbn; [|rewrite IH]; reflexivity. }
  split; [intros; apply foldlt_spec|]. split; [intros; apply foldrt_spec|].
  split; [intros; apply apply_spec|intros; apply revapply_spec].
Qed.

(** The operations on two sets: they all succeed (and [built] says with what result), and the
    comparisons answer as documented. *)
Theorem C29_binary : forall A (c : A -> A -> comparison), total_preorder c ->
  forall d1 s1 d2 s2, built c d1 s1 -> built c d2 s2 ->
  (exists d, union c d1 d2 = Ret d) /\
  (exists d, intersection c d1 d2 = Ret d) /\
  (exists d, difference c d1 d2 = Ret d) /\
  isSubset c d1 d2 = set_subset c s1 s2 /\
  equal c d1 d2 = set_equal c s1 s2.
Proof.
  intros A c TP d1 s1 d2 s2 H1 H2. apply (built_inv c _ _ TP) in H1, H2.
  destruct (inv_union c TP _ _ _ _ H1 H2) as (u & Eu & _).
  destruct (inv_intersection c TP _ _ _ _ H1 H2) as (i & Ei & _).
  destruct (inv_difference c TP _ _ _ _ H1 H2) as (f & Ef & _).
  split; [eauto|]. split; [eauto|]. split; [eauto|].
  split; [now apply inv_isSubset|now apply inv_equal].
Qed.

(** Every counter in a reachable tree is the number of items below it. *)
Fixpoint counts_right {E} (t : tree E) : Prop :=
  match t with
  | Wbtree_Model.E => True
  | T _ n l r => n = 1 + treeSize l + treeSize r /\ counts_right l /\ counts_right r
  end.
Theorem C29_counts : forall A (c : A -> A -> comparison), total_preorder c ->
  forall d s, built c d s -> counts_right d.
Proof.
  intros A c TP d s H. apply (built_inv c d s TP) in H as [_ O].
  induction d as [|v n l IHl r IHr]; cbn [counts_right]; [auto|]. destruct O as (-> & Ol & Or). split; [|auto].
  rewrite !ok_size by assumption. cbn [elements]. rewrite app_length. cbn [length]. lia.
Qed.

(** Finding.  The bounded balance criterion claimed in Binaryset.sml (34-39), one subtree never
    having more than 3 times as many elements as its sibling, is not maintained. *)
Fixpoint weight_balanced {E} (t : tree E) : Prop :=
  match t with
  | Wbtree_Model.E => True
  | T _ n l r =>
    (treeSize l + treeSize r <= 1 \/
     (treeSize l <= 3 * treeSize r /\ treeSize r <= 3 * treeSize l)) /\
    weight_balanced l /\ weight_balanced r
  end.
Theorem C29_balanced_refuted : exists (d : set Z) s, built Z.compare d s /\ ~ weight_balanced d.
Proof.
  eexists. eexists. split.
  - eapply b_delete with (x := 6).
    + eapply b_addList with (xs := [6; 7; 2; 4; 8; 1; 3; 5]); [constructor|vm_compute; reflexivity].
    + vm_compute. reflexivity.
  - cbn. lia.
Qed.

(** A set built by several operations, with an equality coarser than identity: the keys are
    compared by their first component only. *)
Definition cmp_fst (p q : Z * Z) : comparison := Z.compare (fst p) (fst q).
Lemma cmp_fst_tp : total_preorder cmp_fst.
Proof.
  pose proof (to_tp _ Z_compare_total_order) as [S T]. split; unfold cmp_fst; intros; eauto.
Qed.
Example C29_example : total_preorder cmp_fst /\
  exists d1 d2 d3, addList cmp_fst empty [(1, 10); (5, 50); (3, 30); (1, 11)] = Ret d1 /\
    addList cmp_fst empty [(3, 33); (4, 40); (5, 55)] = Ret d2 /\
    union cmp_fst d1 d2 = Ret d3 /\ listItems d3 = [(1, 11); (3, 30); (4, 40); (5, 50)] /\
    built cmp_fst d3 [(1, 11); (3, 30); (5, 50); (4, 40)].
Proof.
  split; [apply cmp_fst_tp|]. eexists. eexists. eexists.
  split; [vm_compute; reflexivity|]. split; [vm_compute; reflexivity|].
  split; [vm_compute; reflexivity|]. split; [reflexivity|].
  eapply b_order.
  - eapply b_union.
    + apply b_addList with (d := empty) (s := []) (xs := [(1, 10); (5, 50); (3, 30); (1, 11)]); [constructor|vm_compute; reflexivity].
    + apply b_addList with (d := empty) (s := []) (xs := [(3, 33); (4, 40); (5, 55)]); [constructor|vm_compute; reflexivity].
    + vm_compute. reflexivity.
  - vm_compute. apply Permutation_refl.
Qed.

Print Assumptions C29_observers.
Print Assumptions C29_binary.
Print Assumptions C29_counts.
Print Assumptions C29_balanced_refuted.
