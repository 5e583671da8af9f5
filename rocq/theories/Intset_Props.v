(** Property C25, second half: Intset implements finite sets of integers. *)
From Coq Require Import Sorting.Sorted Sorting.Permutation.
From Verif Require Import Base OrderSpec FinMap SetSpec Wbtree_Model.
From Verif Require Binaryset_Model Binaryset_Props.
From Verif Require Import Intset_Model Intset_Proofs.

(** [built d s]: some client program, using only operations of the signature, can build the
    intset [d], and the same operations on sets of integers, given by their characteristic
    functions, give [s]. *)
Inductive built : intset -> (Z -> bool) -> Prop :=
| b_empty : built empty (fun _ => false)
| b_singleton x : built (singleton x) (fun y => y =? x)
| b_add d s x d' : built d s -> add d x = Ret d' -> built d' (fun y => (y =? x) || s y)
| b_addList d s xs d' : built d s -> addList d xs = Ret d' -> built d' (fun y => existsb (Z.eqb y) xs || s y)
| b_delete d s x d' : built d s -> delete d x = Ret d' -> built d' (fun y => s y && negb (y =? x))
| b_union d1 s1 d2 s2 d : built d1 s1 -> built d2 s2 -> union d1 d2 = Ret d -> built d (fun y => s1 y || s2 y)
| b_inter d1 s1 d2 s2 d : built d1 s1 -> built d2 s2 -> intersection d1 d2 = Ret d -> built d (fun y => s1 y && s2 y)
| b_diff d1 s1 d2 s2 d : built d1 s1 -> built d2 s2 -> difference d1 d2 = Ret d -> built d (fun y => s1 y && negb (s2 y)).

Lemma is_equal_Z x y : is_equal Z.compare x y = (x =? y).
Proof. unfold is_equal. rewrite Z.eqb_compare. reflexivity. Qed.
Lemma set_mem_In x s : set_mem Z.compare x s = true <-> In x s.
Proof.
  rewrite set_mem_true. split.
  - intros (y & H & E). apply Z.compare_eq in E. now subst.
  - intros H. exists x. split; [assumption|apply Z.compare_refl].
Qed.
Lemma bool_iff a b : (a = true <-> b = true) -> a = b.
Proof. destruct a, b; intuition congruence. Qed.
Lemma In_filter_neq x y (s : list Z) : In y (filter (fun z => negb (is_equal Z.compare x z)) s) <-> In y s /\ y <> x.
Proof. rewrite filter_In, is_equal_Z, negb_true_iff, Z.eqb_neq. intuition. Qed.

Lemma built_list d s : built d s -> exists l, Binaryset_Props.built Z.compare d l /\ forall x, In x l <-> s x = true.
Proof.
  induction 1 as [|x|d s x d' H IH E|d s xs d' H IH E|d s x d' H IH E
    |d1 s1 d2 s2 d H1 IH1 H2 IH2 E|d1 s1 d2 s2 d H1 IH1 H2 IH2 E|d1 s1 d2 s2 d H1 IH1 H2 IH2 E].
  - exists []. split; [apply Binaryset_Props.b_empty|]. intros; split; [intros []|discriminate].
  - exists [x]. split; [apply Binaryset_Props.b_singleton|]. intros y. rewrite Z.eqb_eq. cbn. intuition.
  - destruct IH as (l & B & M). eexists. split.
    { eapply Binaryset_Props.b_add; [exact B|]. unfold add in E. rewrite addt_bs in E. exact E. }
    intros y. unfold set_replace. cbn [In]. rewrite In_filter_neq, M, orb_true_iff, Z.eqb_eq.
    destruct (Z.eq_dec y x); intuition.
  - destruct IH as (l & B & M). eexists. split.
    { eapply Binaryset_Props.b_addList; [exact B|]. rewrite <- addList_bs. exact E. }
    clear E B. intros y. rewrite orb_true_iff. rewrite existsb_exists.
    rewrite <- M. clear M. revert l. induction xs as [|a xs IH]; intros l; cbn [fold_left].
    { cbn. split; [auto|]. intros [(z & [] & _)|]; auto. }
    rewrite IH. unfold set_replace. cbn [In]. rewrite In_filter_neq.
    split.
    + intros [(z & Hz & Ez)|[->|[Hy N]]]; [left; exists z; auto| |auto]. left. exists y. rewrite Z.eqb_refl. auto.
    + intros [(z & [->|Hz] & Ez)|Hy].
      * apply Z.eqb_eq in Ez as ->. auto.
      * left. eauto.
      * destruct (Z.eq_dec y a); intuition.
  - destruct IH as (l & B & M). eexists. split.
    { eapply Binaryset_Props.b_delete; [exact B|]. rewrite <- delete_bs. exact E. }
    intros y. unfold set_delete. rewrite In_filter_neq, M, andb_true_iff, negb_true_iff, Z.eqb_neq. reflexivity.
  - destruct IH1 as (l1 & B1 & M1). destruct IH2 as (l2 & B2 & M2). eexists. split.
    { eapply Binaryset_Props.b_union; [exact B1|exact B2|]. rewrite <- union_bs. exact E. }
    intros y. unfold set_union. rewrite in_app_iff, filter_In, orb_true_iff, negb_true_iff, <- M1, <- M2.
    split; [intuition|]. intros [|H]; [auto|].
    destruct (set_mem Z.compare y l1) eqn:F; [|auto]. rewrite set_mem_In in F. auto.
  - destruct IH1 as (l1 & B1 & M1). destruct IH2 as (l2 & B2 & M2). eexists. split.
    { eapply Binaryset_Props.b_inter; [exact B1|exact B2|]. rewrite <- intersection_bs. exact E. }
    intros y. unfold set_inter. rewrite filter_In, set_mem_In, andb_true_iff, M1, M2. tauto.
  - destruct IH1 as (l1 & B1 & M1). destruct IH2 as (l2 & B2 & M2). eexists. split.
    { eapply Binaryset_Props.b_diff; [exact B1|exact B2|]. rewrite <- difference_bs. exact E. }
    intros y. unfold set_diff. rewrite filter_In, andb_true_iff, M1, !negb_true_iff.
    rewrite <- !not_true_iff_false, set_mem_In, M2. tauto.
Qed.

(** The observers of one set.  [l] lists the set in increasing order. *)
Theorem C25_intset_observers : forall d s, built d s ->
  (forall x, member d x = s x) /\
  (forall x, s x = false -> delete d x = Raise NotFound) /\
  (forall x, s x = true -> exists d', delete d x = Ret d') /\
  (forall x, exists d', add d x = Ret d') /\
  (forall xs, exists d', addList d xs = Ret d') /\
  (forall p, match find p d with
             | Some x => s x = true /\ p x = true
             | None => forall x, s x = true -> p x = false
             end) /\
  exists l, StronglySorted Z.lt l /\ (forall x, In x l <-> s x = true) /\ listItems d = l /\
    numItems d = Z.of_nat (length l) /\ (isEmpty d = true <-> l = []) /\
    (forall B (f : Z -> B -> B) e, foldl f e d = fold_left (fun acc x => f x acc) l e) /\
    (forall B (f : Z -> B -> B) e, foldr f e d = fold_right f e l) /\
    (forall S (f : Z -> S -> S) st, app f d st = fold_left (fun st x => f x st) l st) /\
    (forall S (f : Z -> S -> S) st, revapp f d st = fold_left (fun st x => f x st) (rev l) st).
Proof.
  intros d s H. apply built_list in H as (m & B & M).
  pose proof (to_tp _ Z_compare_total_order) as TP.
  pose proof (Binaryset_Props.C29_observers Z Z.compare TP d m B)
    as (Num & Emp & Mem & Pk & Retr & Abs & Del & Add & AddL & Fnd & l & [Inc Perm] & Li & Fl & Fr & Ap & Rv).
  assert (MS : forall x, set_mem Z.compare x m = s x) by (intros; apply bool_iff; now rewrite set_mem_In, M).
  split. { intros x. unfold member. rewrite membert_bs, <- MS. exact (Mem x). }
  split. { intros x Hx. rewrite delete_bs. apply Abs. now rewrite MS. }
  split. { intros x Hx. rewrite delete_bs. apply Del. now rewrite MS. }
  split. { intros x. unfold add. rewrite addt_bs. apply Add. }
  split. { intros xs. rewrite addList_bs. apply AddL. }
  split. { intros p. specialize (Fnd p). rewrite find_bs. destruct (B.find p d); [now rewrite <- M|].
    intros x Hx. apply Fnd. now apply M. }
  exists l. split. { clear - Inc. unfold increasing in Inc. induction Inc as [|x l H IH F]; constructor; auto. }
  split. { intros x. rewrite <- M. split; intros; [eapply Permutation_in; eauto|].
    eapply Permutation_in; [|eauto]. now apply Permutation_sym. }
  split; [now rewrite listItems_bs|].
  split. { rewrite (Permutation_length Perm). exact Num. }
  split. { unfold isEmpty. change (B.isEmpty d = true <-> l = []). rewrite Emp.
    split; intros ->; [|apply Permutation_nil in Perm; assumption].
    apply Permutation_sym, Permutation_nil in Perm. assumption. }
  split. { intros. rewrite foldl_bs. apply Fl. }
  split. { intros. rewrite foldr_bs. apply Fr. }
  split. { intros. rewrite app_bs. apply Ap. }
  intros. rewrite revapp_bs. apply Rv.
Qed.

(** The operations on two sets: they all succeed (and [built] says with what result), and the
    comparisons answer as documented. *)
Theorem C25_intset_binary : forall d1 s1 d2 s2, built d1 s1 -> built d2 s2 ->
  (exists d, union d1 d2 = Ret d) /\
  (exists d, intersection d1 d2 = Ret d) /\
  (exists d, difference d1 d2 = Ret d) /\
  (isSubset d1 d2 = true <-> forall x, s1 x = true -> s2 x = true) /\
  (equal d1 d2 = true <-> forall x, s1 x = s2 x).
Proof.
  intros d1 s1 d2 s2 H1 H2. apply built_list in H1 as (l1 & B1 & M1). apply built_list in H2 as (l2 & B2 & M2).
  pose proof (to_tp _ Z_compare_total_order) as TP.
  destruct (Binaryset_Props.C29_binary Z Z.compare TP d1 l1 d2 l2 B1 B2) as (U & I & D & Su & Eq).
  rewrite union_bs, intersection_bs, difference_bs, isSubset_bs, equal_bs.
  split; [exact U|]. split; [exact I|]. split; [exact D|].
  assert (HS : forall l1 l2, set_subset Z.compare l1 l2 = true <-> forall x, In x l1 -> In x l2).
  { intros a b. unfold set_subset. rewrite forallb_forall. split; intros G x Hx; [apply set_mem_In|apply set_mem_In]; auto. }
  rewrite Su, Eq. unfold set_equal. rewrite andb_true_iff, !HS. split.
  - split; intros G x Hx; [now apply M2, G, M1|now apply M2, G, M1].
  - split.
    + intros [G1 G2] x. apply bool_iff. rewrite <- M1, <- M2. split; auto.
    + intros G. split; intros x Hx; [apply M2; rewrite <- G|apply M1; rewrite G]; [now apply M1|now apply M2].
Qed.

(** Finding.  The bounded balance criterion claimed in Intset.sml (36-41) is not maintained. *)
Theorem C25_intset_balanced_refuted : exists d s, built d s /\ ~ Binaryset_Props.weight_balanced d.
Proof.
  eexists. eexists. split.
  - eapply b_delete with (x := 6).
    + eapply b_addList with (xs := [6; 7; 2; 4; 8; 1; 3; 5]); [constructor|vm_compute; reflexivity].
    + vm_compute. reflexivity.
  - cbn. lia.
Qed.

Example C25_intset_example : exists d1 d2 d3 s,
    addList empty [1; 5; 3; 1] = Ret d1 /\ addList empty [3; 4; 5] = Ret d2 /\
    union d1 d2 = Ret d3 /\ listItems d3 = [1; 3; 4; 5] /\ built d3 s.
Proof.
  eexists. eexists. eexists. eexists.
  split; [vm_compute; reflexivity|]. split; [vm_compute; reflexivity|].
  split; [vm_compute; reflexivity|]. split; [reflexivity|].
  eapply b_union.
  - apply b_addList with (d := empty) (s := fun _ => false) (xs := [1; 5; 3; 1]); [constructor|vm_compute; reflexivity].
  - apply b_addList with (d := empty) (s := fun _ => false) (xs := [3; 4; 5]); [constructor|vm_compute; reflexivity].
  - vm_compute. reflexivity.
Qed.

Print Assumptions C25_intset_observers.
Print Assumptions C25_intset_binary.
Print Assumptions C25_intset_balanced_refuted.
