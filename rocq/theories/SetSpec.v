(** Abstract finite sets over an SML ordering (specification), and facts about them.
    A set is a list of items, no two of them EQUAL; the order of the list is irrelevant.
    Items are identified up to EQUAL. *)
From Coq Require Import Sorting.Sorted Sorting.Permutation.
From Verif Require Import Base OrderSpec FinMap.

Section Spec.
Context {A : Type} (c : A -> A -> comparison).

Definition is_equal (x y : A) : bool := match c x y with Eq => true | _ => false end.
Definition set_mem (x : A) (s : list A) : bool := existsb (is_equal x) s.
Definition set_add (x : A) (s : list A) : list A := if set_mem x s then s else x :: s.
(** adding that replaces an EQUAL item *)
Definition set_replace (x : A) (s : list A) : list A := x :: filter (fun y => negb (is_equal x y)) s.
Definition set_delete (x : A) (s : list A) : list A := filter (fun y => negb (is_equal x y)) s.
Definition set_union (s1 s2 : list A) : list A := s1 ++ filter (fun y => negb (set_mem y s1)) s2.
Definition set_inter (s1 s2 : list A) : list A := filter (fun x => set_mem x s2) s1.
Definition set_diff (s1 s2 : list A) : list A := filter (fun x => negb (set_mem x s2)) s1.
Definition set_subset (s1 s2 : list A) : bool := forallb (fun x => set_mem x s2) s1.
Definition set_equal (s1 s2 : list A) : bool := set_subset s1 s2 && set_subset s2 s1.

(** [l] lists the set [s] in increasing order *)
Definition set_lists (l s : list A) : Prop := increasing c l /\ Permutation l s.

(** lexicographic comparison of lists *)
Fixpoint lex (l1 l2 : list A) : comparison :=
  match l1, l2 with
  | [], [] => Eq
  | [], _ => Lt
  | _, [] => Gt
  | x :: l1, y :: l2 => match c x y with Eq => lex l1 l2 | o => o end
  end.
End Spec.

Section Facts.
Context {A : Type} (c : A -> A -> comparison) (TP : total_preorder c).
Notation sorted := (StronglySorted (fun x y => c x y = Lt)).
Notation slookup := (FinMap.slookup (fun x => x) c).
Notation sdel := (FinMap.sdel (fun x => x) c).

Lemma lists_set l s : set_lists c l s <-> lists (fun x => x) c l s.
Proof. reflexivity. Qed.

Lemma set_mem_find x s : set_mem c x s = match am_find (fun x => x) c x s with Some _ => true | None => false end.
Proof.
  unfold am_find. induction s as [|y s IH]; [reflexivity|]. cbn. unfold is_equal, same_key at 1.
  destruct (c x y); cbn; auto.
Qed.
Lemma set_mem_true x s : set_mem c x s = true <-> exists y, In y s /\ c x y = Eq.
Proof.
  unfold set_mem. rewrite existsb_exists. unfold is_equal.
  split; intros (y & H1 & H2); exists y; destruct (c x y); auto; discriminate.
Qed.
Lemma set_mem_false x s : set_mem c x s = false <-> forall y, In y s -> c x y <> Eq.
Proof.
  split.
  - intros H y Hy E. assert (set_mem c x s = true) by (apply set_mem_true; eauto). congruence.
  - intros H. destruct (set_mem c x s) eqn:E; [|reflexivity].
    apply set_mem_true in E as (y & Hy & E). exfalso. eapply H; eauto.
Qed.
Lemma set_mem_perm x s s' : Permutation s s' -> set_mem c x s = set_mem c x s'.
Proof.
  intros P. destruct (set_mem c x s') eqn:E.
  - apply set_mem_true in E as (y & Hy & E). apply set_mem_true. exists y. split; [|assumption].
    eapply Permutation_in; [apply Permutation_sym|]; eauto.
  - rewrite set_mem_false in *. intros y Hy. apply E. eapply Permutation_in; eauto.
Qed.
Lemma set_mem_eq x x' s : c x x' = Eq -> set_mem c x s = set_mem c x' s.
Proof.
  intros E. destruct (set_mem c x' s) eqn:M.
  - apply set_mem_true in M as (y & Hy & M). apply set_mem_true. exists y. split; [assumption|].
    eapply tp_eq_trans; eauto.
  - rewrite set_mem_false in *. intros y Hy E2. apply (M y Hy).
    eapply tp_eq_trans; eauto using tp_eq_sym.
Qed.
Lemma set_mem_slookup x l s : set_lists c l s ->
  set_mem c x s = match slookup x l with Some _ => true | None => false end.
Proof.
  intros L. rewrite set_mem_find. now rewrite (lists_find (fun x => x) c TP x l s L).
Qed.

Lemma set_lists_nil : set_lists c [] [].
Proof. split; constructor. Qed.
Lemma set_lists_length l s : set_lists c l s -> length l = length s.
Proof. intros [_ P]. now apply Permutation_length. Qed.
Lemma set_lists_In l s x : set_lists c l s -> In x l <-> In x s.
Proof. intros [_ P]. split; apply Permutation_in; [|apply Permutation_sym]; assumption. Qed.

Lemma sins_perm_new x l : slookup x l = None -> Permutation (FinMap.sins (fun x => x) c x l) (x :: l).
Proof.
  induction l as [|a l IH]; cbn; [reflexivity|]. destruct (c x a); [discriminate|reflexivity|].
  intros H. etransitivity; [apply perm_skip, IH, H|]. constructor.
Qed.
Lemma set_lists_add x l s : set_lists c l s -> slookup x l = None ->
  set_lists c (FinMap.sins (fun x => x) c x l) (set_add c x s).
Proof.
  intros L H. unfold set_add. rewrite (set_mem_slookup x l s L), H.
  destruct L as [S P]. split; [now apply (sins_sorted (fun x => x) c TP)|].
  etransitivity; [now apply sins_perm_new|]. now apply perm_skip.
Qed.
Lemma set_lists_add_old x l s y : set_lists c l s -> slookup x l = Some y -> set_lists c l (set_add c x s).
Proof. intros L H. unfold set_add. now rewrite (set_mem_slookup x l s L), H. Qed.
Lemma set_delete_am x s : set_delete c x s = am_remove (fun x => x) c x s.
Proof. reflexivity. Qed.
Lemma set_lists_delete x l s : set_lists c l s -> set_lists c (sdel x l) (set_delete c x s).
Proof. intros L. rewrite set_delete_am. now apply (lists_remove (fun x => x) c TP). Qed.

(** *** filters of sorted lists *)
Lemma sorted_filter p l : sorted l -> sorted (filter p l).
Proof.
  induction 1 as [|a l S IH F]; cbn; [constructor|]. destruct (p a); [|assumption].
  constructor; [assumption|]. rewrite Forall_forall in *. intros y Hy. apply filter_In in Hy as [Hy _]. auto.
Qed.
Lemma filter_ext_perm (p q : A -> bool) l s : (forall x, p x = q x) -> Permutation l s ->
  Permutation (filter p l) (filter q s).
Proof. intros E P. rewrite (filter_ext _ _ E). now apply FinMap.filter_Permutation. Qed.
Lemma set_lists_filter p l s : set_lists c l s -> set_lists c (filter p l) (filter p s).
Proof. intros [S P]. split; [now apply sorted_filter|now apply FinMap.filter_Permutation]. Qed.
Lemma set_lists_inter l1 s1 l2 s2 : set_lists c l1 s1 -> set_lists c l2 s2 ->
  set_lists c (set_inter c l1 l2) (set_inter c s1 s2).
Proof.
  intros [S1 P1] [S2 P2]. split; [now apply sorted_filter|]. apply filter_ext_perm; [|assumption].
  intros x. now apply set_mem_perm.
Qed.
Lemma set_lists_diff l1 s1 l2 s2 : set_lists c l1 s1 -> set_lists c l2 s2 ->
  set_lists c (set_diff c l1 l2) (set_diff c s1 s2).
Proof.
  intros [S1 P1] [S2 P2]. split; [now apply sorted_filter|]. apply filter_ext_perm; [|assumption].
  intros x. f_equal. now apply set_mem_perm.
Qed.
Lemma set_union_perm l1 s1 l2 s2 : Permutation l1 s1 -> Permutation l2 s2 ->
  Permutation (set_union c l1 l2) (set_union c s1 s2).
Proof.
  intros P1 P2. unfold set_union. apply Permutation_app; [assumption|]. apply filter_ext_perm; [|assumption].
  intros x. f_equal. now apply set_mem_perm.
Qed.
Lemma set_subset_perm l1 s1 l2 s2 : Permutation l1 s1 -> Permutation l2 s2 ->
  set_subset c l1 l2 = set_subset c s1 s2.
Proof.
  intros P1 P2. unfold set_subset.
  destruct (forallb (fun x => set_mem c x s2) s1) eqn:E.
  - rewrite forallb_forall in *. intros x Hx. rewrite (set_mem_perm x l2 s2 P2). apply E.
    eapply Permutation_in; eauto.
  - destruct (forallb (fun x => set_mem c x l2) l1) eqn:E'; [|reflexivity].
    rewrite <- E. symmetry. rewrite forallb_forall in *. intros x Hx. rewrite <- (set_mem_perm x l2 s2 P2). apply E'.
    eapply Permutation_in; [apply Permutation_sym|]; eauto.
Qed.
Lemma set_equal_perm l1 s1 l2 s2 : Permutation l1 s1 -> Permutation l2 s2 ->
  set_equal c l1 l2 = set_equal c s1 s2.
Proof. intros P1 P2. unfold set_equal. now rewrite (set_subset_perm l1 s1 l2 s2), (set_subset_perm l2 s2 l1 s1). Qed.

(** merge of two sorted lists, keeping the first of two EQUAL items *)
Fixpoint smerge (l1 : list A) : list A -> list A :=
  match l1 with
  | [] => fun l2 => l2
  | x :: r1 =>
    fix smerge_aux (l2 : list A) : list A :=
    match l2 with
    | [] => x :: r1
    | y :: r2 =>
      match c x y with
      | Eq => x :: smerge r1 r2
      | Lt => x :: smerge r1 (y :: r2)
      | Gt => y :: smerge_aux r2
      end
    end
  end.
Lemma smerge_cons x r1 y r2 : smerge (x :: r1) (y :: r2) =
  match c x y with
  | Eq => x :: smerge r1 r2
  | Lt => x :: smerge r1 (y :: r2)
  | Gt => y :: smerge (x :: r1) r2
  end.
Proof. reflexivity. Qed.
Lemma smerge_nil_r l1 : smerge l1 [] = l1.
Proof. now destruct l1. Qed.

Lemma smerge_In x l1 : forall l2, In x (smerge l1 l2) -> In x l1 \/ In x l2.
Proof.
  induction l1 as [|a l1 IH1]; [auto|]. induction l2 as [|b l2 IH2]; [auto|].
  rewrite smerge_cons. destruct (c a b).
  - intros [->|H]; [left; now left|]. destruct (IH1 _ H); [left; now right|right; now right].
  - intros [->|H]; [left; now left|]. destruct (IH1 _ H); [left; now right|right; assumption].
  - intros [->|H]; [right; now left|]. destruct (IH2 H); [left; assumption|right; now right].
Qed.
Lemma smerge_lt x l1 l2 : Forall (fun y => c x y = Lt) l1 -> Forall (fun y => c x y = Lt) l2 ->
  Forall (fun y => c x y = Lt) (smerge l1 l2).
Proof.
  intros F1 F2. rewrite Forall_forall in *. intros y Hy. apply smerge_In in Hy as [Hy|Hy]; auto.
Qed.
Lemma smerge_sorted l1 : forall l2, sorted l1 -> sorted l2 -> sorted (smerge l1 l2).
Proof.
  induction l1 as [|a l1 IH1]; [auto|]. induction l2 as [|b l2 IH2]; [auto|]. intros S1 S2.
  rewrite smerge_cons. inversion S1; inversion S2; subst. destruct (c a b) eqn:E.
  - constructor; [auto|]. apply smerge_lt; auto. apply (kgt_le_trans (fun x => x) c TP l2 b); [assumption|congruence].
  - constructor; [auto|]. apply smerge_lt; auto. constructor; [assumption|].
    apply (kgt_trans (fun x => x) c TP l2 b); assumption.
  - constructor; [auto|]. apply smerge_lt; auto. apply (tp_gt_lt c TP) in E. constructor; [assumption|].
    apply (kgt_trans (fun x => x) c TP l1 a); assumption.
Qed.

Lemma slookup_None_lt x l : Forall (fun y => c x y = Lt) l -> set_mem c x l = false.
Proof. intros F. rewrite Forall_forall in F. apply set_mem_false. intros y Hy. rewrite (F y Hy). discriminate. Qed.

Lemma filter_cons (p : A -> bool) a l : filter p (a :: l) = if p a then a :: filter p l else filter p l.
Proof. reflexivity. Qed.
Lemma filter_all (p : A -> bool) l : (forall x, In x l -> p x = true) -> filter p l = l.
Proof.
  induction l as [|a l IH]; intros H; cbn; [reflexivity|]. rewrite (H a) by now left. f_equal. apply IH.
  intros x Hx. apply H. now right.
Qed.
Lemma filter_nil_iff (p : A -> bool) l : filter p l = [] <-> forall x, In x l -> p x = false.
Proof.
  induction l as [|a l IH]; cbn [filter]; [split; [intros _ x []|auto]|]. destruct (p a) eqn:E; split.
  - discriminate.
  - intros H. specialize (H a (or_introl eq_refl)). congruence.
  - intros H x [<-|Hx]; [assumption|]. now apply IH.
  - intros H. apply IH. intros x Hx. apply H. now right.
Qed.
Lemma filter_ext_In (p q : A -> bool) l : (forall x, In x l -> p x = q x) -> filter p l = filter q l.
Proof.
  induction l as [|a l IH]; intros H; cbn; [reflexivity|]. rewrite (H a) by now left.
  rewrite IH; [reflexivity|]. intros x Hx. apply H. now right.
Qed.

Lemma set_mem_cons x a l : set_mem c x (a :: l) = is_equal c x a || set_mem c x l.
Proof. reflexivity. Qed.
Lemma gt_not_mem x l : Forall (fun y => c y x = Gt) l -> forall y, In y l -> is_equal c y x = false.
Proof. intros F y Hy. rewrite Forall_forall in F. unfold is_equal. now rewrite (F y Hy). Qed.

Lemma set_union_eq s1 s2 : set_union c s1 s2 = s1 ++ filter (fun y => negb (set_mem c y s1)) s2.
Proof. reflexivity. Qed.
Lemma set_inter_eq s1 s2 : set_inter c s1 s2 = filter (fun y => set_mem c y s2) s1.
Proof. reflexivity. Qed.
Lemma set_diff_eq s1 s2 : set_diff c s1 s2 = filter (fun y => negb (set_mem c y s2)) s1.
Proof. reflexivity. Qed.
Lemma smerge_union l1 : forall l2, sorted l1 -> sorted l2 -> Permutation (smerge l1 l2) (set_union c l1 l2).
Proof.
  induction l1 as [|a l1 IH1].
  { intros l2 _ _. unfold set_union. cbn. rewrite filter_all; auto. }
  induction l2 as [|b l2 IH2].
  { intros _ _. unfold set_union. cbn. now rewrite app_nil_r. }
  intros S1 S2. rewrite smerge_cons. inversion S1 as [|? ? S1' F1]; inversion S2 as [|? ? S2' F2]; subst.
  rewrite set_union_eq, filter_cons. destruct (c a b) eqn:E.
  - assert (M : set_mem c b (a :: l1) = true).
    { apply set_mem_true. exists a. split; [now left|]. now apply tp_eq_sym. }
    rewrite M. cbn [negb app]. apply perm_skip. etransitivity; [apply IH1; auto|]. rewrite set_union_eq.
    apply Permutation_app_head. apply Permutation_refl'. apply filter_ext_In. intros x Hx.
    rewrite set_mem_cons. unfold is_equal. rewrite Forall_forall in F2.
    rewrite (tp_sym c TP a x). rewrite (tp_le_lt_trans c TP a b x); [reflexivity| |now apply F2].
    unfold ord_le. congruence.
  - rewrite set_mem_cons. unfold is_equal at 1. rewrite (tp_sym c TP a b), E. cbn [orb CompOpp].
    cbn [app]. apply perm_skip. etransitivity; [apply IH1; auto|]. rewrite set_union_eq, filter_cons.
    apply Permutation_app_head. apply Permutation_refl'.
    assert (EQ : forall x, In x l2 -> negb (set_mem c x l1) = negb (set_mem c x (a :: l1))).
    { intros x Hx. rewrite set_mem_cons. unfold is_equal. rewrite Forall_forall in F2.
      rewrite (tp_sym c TP a x). rewrite (tp_lt_le_trans c TP a b x); [reflexivity|assumption|].
      apply tp_lt_le. now apply F2. }
    rewrite (filter_ext_In _ _ _ EQ). reflexivity.
  - assert (M : set_mem c b (a :: l1) = false).
    { apply slookup_None_lt. apply (tp_gt_lt c TP) in E. constructor; [assumption|].
      apply (kgt_trans (fun x => x) c TP l1 a); assumption. }
    rewrite M. cbn [negb].
    etransitivity; [|apply Permutation_middle]. apply perm_skip. apply IH2; auto.
Qed.
Lemma set_lists_union l1 s1 l2 s2 : set_lists c l1 s1 -> set_lists c l2 s2 ->
  set_lists c (smerge l1 l2) (set_union c s1 s2).
Proof.
  intros [S1 P1] [S2 P2]. split; [now apply smerge_sorted|].
  etransitivity; [now apply smerge_union|]. now apply set_union_perm.
Qed.

(** *** walking two sorted lists in parallel *)
Lemma mem_below x y l : c x y = Lt -> Forall (fun z => c y z = Lt) l -> set_mem c x (y :: l) = false.
Proof.
  intros E F. apply slookup_None_lt. constructor; [assumption|].
  apply (kgt_trans (fun x => x) c TP l y); assumption.
Qed.
Lemma mem_skip x y l : c x y = Gt -> set_mem c x (y :: l) = set_mem c x l.
Proof. intros E. rewrite set_mem_cons. unfold is_equal. now rewrite E. Qed.
Lemma mem_head x y l : c x y = Eq -> set_mem c x (y :: l) = true.
Proof. intros E. rewrite set_mem_cons. unfold is_equal. now rewrite E. Qed.
(** if y < all of l1 (because x > y is its head) membership in y :: l2 is membership in l2 *)
Lemma mem_skip_all y l1 l2 : Forall (fun z => c y z = Lt) l1 ->
  forall z, In z l1 -> set_mem c z (y :: l2) = set_mem c z l2.
Proof.
  intros F z Hz. rewrite Forall_forall in F. apply mem_skip. apply (tp_gt_lt c TP). now apply F.
Qed.
Lemma sorted_tail_gt x y l : c x y = Gt -> Forall (fun z => c x z = Lt) l -> Forall (fun z => c y z = Lt) (x :: l).
Proof.
  intros E F. apply (tp_gt_lt c TP) in E. constructor; [assumption|]. apply (kgt_trans (fun x => x) c TP l x); assumption.
Qed.
Lemma sorted_tail_eq x y l : c x y = Eq -> Forall (fun z => c x z = Lt) l -> Forall (fun z => c y z = Lt) l.
Proof.
  intros E F. apply (kgt_le_trans (fun x => x) c TP l x); [assumption|].
  rewrite (tp_sym c TP x y), E. discriminate.
Qed.

Lemma inter_cons x l1 y l2 : sorted (x :: l1) -> sorted (y :: l2) ->
  set_inter c (x :: l1) (y :: l2) =
  match c x y with
  | Eq => x :: set_inter c l1 l2
  | Lt => set_inter c l1 (y :: l2)
  | Gt => set_inter c (x :: l1) l2
  end.
Proof.
  intros S1 S2. inversion S1 as [|? ? S1' F1]; inversion S2 as [|? ? S2' F2]; subst.
  rewrite set_inter_eq, filter_cons. destruct (c x y) eqn:E.
  - rewrite mem_head by assumption. f_equal. apply filter_ext_In. apply mem_skip_all.
    eapply sorted_tail_eq; eauto.
  - rewrite mem_below by assumption. reflexivity.
  - rewrite mem_skip by assumption. rewrite set_inter_eq, filter_cons.
    rewrite (filter_ext_In (fun z => set_mem c z (y :: l2)) (fun z => set_mem c z l2) l1); [reflexivity|].
    apply mem_skip_all. pose proof (sorted_tail_gt x y l1 E F1) as F. now inversion F.
Qed.
Lemma diff_cons x l1 y l2 : sorted (x :: l1) -> sorted (y :: l2) ->
  set_diff c (x :: l1) (y :: l2) =
  match c x y with
  | Eq => set_diff c l1 l2
  | Lt => x :: set_diff c l1 (y :: l2)
  | Gt => set_diff c (x :: l1) l2
  end.
Proof.
  intros S1 S2. inversion S1 as [|? ? S1' F1]; inversion S2 as [|? ? S2' F2]; subst.
  rewrite set_diff_eq, filter_cons. destruct (c x y) eqn:E.
  - rewrite mem_head by assumption. cbn [negb]. apply filter_ext_In. intros z Hz. f_equal. revert z Hz. apply mem_skip_all.
    eapply sorted_tail_eq; eauto.
  - rewrite mem_below by assumption. reflexivity.
  - rewrite mem_skip by assumption. rewrite set_diff_eq, filter_cons.
    rewrite (filter_ext_In (fun z => negb (set_mem c z (y :: l2))) (fun z => negb (set_mem c z l2)) l1); [reflexivity|].
    intros z Hz. f_equal. revert z Hz.
    apply mem_skip_all. pose proof (sorted_tail_gt x y l1 E F1) as F. now inversion F.
Qed.
Lemma forallb_ext_In (p q : A -> bool) l : (forall x, In x l -> p x = q x) -> forallb p l = forallb q l.
Proof.
  induction l as [|a l IH]; intros H; cbn; [reflexivity|]. rewrite (H a) by now left.
  rewrite IH; [reflexivity|]. intros x Hx. apply H. now right.
Qed.
Lemma subset_cons x l1 y l2 : sorted (x :: l1) -> sorted (y :: l2) ->
  set_subset c (x :: l1) (y :: l2) =
  match c x y with
  | Eq => set_subset c l1 l2
  | Lt => false
  | Gt => set_subset c (x :: l1) l2
  end.
Proof.
  intros S1 S2. inversion S1 as [|? ? S1' F1]; inversion S2 as [|? ? S2' F2]; subst.
  unfold set_subset at 1. cbn [forallb]. destruct (c x y) eqn:E.
  - rewrite mem_head by assumption. cbn [andb]. apply forallb_ext_In. apply mem_skip_all.
    eapply sorted_tail_eq; eauto.
  - rewrite mem_below by assumption. reflexivity.
  - rewrite mem_skip by assumption. unfold set_subset. cbn [forallb]. f_equal.
    apply forallb_ext_In.
    apply mem_skip_all. pose proof (sorted_tail_gt x y l1 E F1) as F. now inversion F.
Qed.
Lemma equal_cons x l1 y l2 : sorted (x :: l1) -> sorted (y :: l2) ->
  set_equal c (x :: l1) (y :: l2) = match c x y with Eq => set_equal c l1 l2 | _ => false end.
Proof.
  intros S1 S2. unfold set_equal. rewrite subset_cons by assumption.
  rewrite subset_cons by assumption. rewrite (tp_sym c TP x y). destruct (c x y); cbn; try reflexivity.
  now rewrite andb_false_r.
Qed.
Lemma set_diff_nil_r l : set_diff c l [] = l.
Proof. unfold set_diff. apply filter_all. reflexivity. Qed.
Lemma set_inter_nil_r l : set_inter c l [] = [].
Proof. unfold set_inter. induction l; cbn; auto. Qed.

(** *** replacing addition, cardinalities, extensionality of increasing lists *)
Lemma set_lists_replace x l s : set_lists c l s -> set_lists c (FinMap.sins (fun x => x) c x l) (set_replace c x s).
Proof. intros H. apply (lists_insert (fun x => x) c TP x l s H). Qed.

Lemma sorted_NoDup l : sorted l -> NoDup l.
Proof.
  induction 1 as [|x l S IH F]; constructor; auto. intros Hx. rewrite Forall_forall in F. specialize (F x Hx).
  pose proof (tp_refl c TP x). congruence.
Qed.
Lemma sorted_ext l l' : sorted l -> sorted l' -> (forall x, In x l <-> In x l') -> l = l'.
Proof.
  intros S S' H. apply (sorted_unique (fun x : A => x) c TP); auto.
  apply NoDup_Permutation; auto using sorted_NoDup.
Qed.
Lemma smerge_In_iff l1 l2 x : sorted l1 -> sorted l2 ->
  In x (smerge l1 l2) <-> In x l1 \/ (In x l2 /\ set_mem c x l1 = false).
Proof.
  intros S1 S2. split.
  - intros H. apply (Permutation_in x (smerge_union l1 l2 S1 S2)) in H. rewrite set_union_eq in H.
    apply in_app_or in H as [H|H]; [auto|]. apply filter_In in H as [H1 H2]. apply negb_true_iff in H2. auto.
  - intros H. apply (Permutation_in x (Permutation_sym (smerge_union l1 l2 S1 S2))). rewrite set_union_eq.
    apply in_or_app. destruct H as [H|[H1 H2]]; [auto|]. right. apply filter_In. rewrite H2. auto.
Qed.
Lemma set_delete_length x s : distinct_keys (fun x => x) c s -> set_mem c x s = true ->
  length s = S (length (set_delete c x s)).
Proof.
  induction s as [|y s IH]; intros D M; [discriminate|]. inversion D as [|? ? D1 D2]; subst. unfold set_delete. rewrite filter_cons.
  rewrite set_mem_cons in M. unfold is_equal at 1. unfold is_equal at 1 in M. destruct (c x y) eqn:E; cbn [negb orb] in *.
  - cbn [length]. f_equal. rewrite filter_all; [reflexivity|]. intros z Hz. unfold is_equal.
    rewrite Forall_forall in D1. specialize (D1 z Hz). destruct (c x z) eqn:E2; auto.
    exfalso. apply D1. eapply (tp_eq_trans c TP); [apply (tp_eq_sym c TP); exact E|exact E2].
  - cbn [length]. f_equal. now apply IH.
  - cbn [length]. f_equal. now apply IH.
Qed.
Lemma set_mem_delete x y s : set_mem c y (set_delete c x s) = negb (is_equal c x y) && set_mem c y s.
Proof.
  induction s as [|z s IH]; [now rewrite andb_false_r|].
  unfold set_delete. rewrite filter_cons. change (filter (fun y => negb (is_equal c x y)) s) with (set_delete c x s).
  rewrite (set_mem_cons y z s). destruct (is_equal c x z) eqn:E; cbn [negb].
  - rewrite IH. destruct (is_equal c y z) eqn:E2; [|reflexivity]. unfold is_equal in *.
    destruct (c x z) eqn:Ex; try discriminate. destruct (c y z) eqn:Ey; try discriminate.
    rewrite (tp_eq_trans c TP x z y Ex (tp_eq_sym c TP _ _ Ey)). reflexivity.
  - rewrite set_mem_cons, IH. destruct (is_equal c y z) eqn:E2; cbn [orb]; [|reflexivity].
    unfold is_equal in *. destruct (c x y) eqn:Ex; cbn; auto. destruct (c y z) eqn:Ey; try discriminate.
    rewrite (tp_eq_trans c TP x y z Ex Ey) in E. discriminate.
Qed.
Lemma distinct_delete x s : distinct_keys (fun x => x) c s -> distinct_keys (fun x => x) c (set_delete c x s).
Proof.
  induction s as [|y s IH]; intros D; [assumption|]. inversion D as [|? ? D1 D2]; subst. unfold set_delete. rewrite filter_cons.
  destruct (negb (is_equal c x y)); [|now apply IH]. constructor; [|now apply IH].
  rewrite Forall_forall in *. intros z Hz. apply filter_In in Hz as [Hz _]. auto.
Qed.
Lemma subset_length s1 : forall s2, distinct_keys (fun x => x) c s1 -> distinct_keys (fun x => x) c s2 ->
  set_subset c s1 s2 = true -> (length s1 <= length s2)%nat.
Proof.
  induction s1 as [|x s1 IH]; intros s2 D1 D2 H; [cbn; lia|]. inversion D1 as [|? ? D0 D1b]; subst; clear D1; rename D1b into D1.
  cbn [set_subset forallb] in H. apply andb_true_iff in H as [H1 H2].
  rewrite (set_delete_length x s2 D2 H1). cbn [length]. apply le_n_S. apply IH; auto using distinct_delete.
  unfold set_subset. apply forallb_forall. intros y Hy. rewrite set_mem_delete.
  unfold set_subset in H2. rewrite forallb_forall in H2. rewrite (H2 y Hy), andb_true_r.
  rewrite Forall_forall in D0. specialize (D0 y Hy). unfold is_equal. destruct (c x y); auto; congruence.
Qed.
Lemma subset_equal_length s1 s2 : distinct_keys (fun x => x) c s1 -> distinct_keys (fun x => x) c s2 ->
  set_subset c s1 s2 = true -> length s1 = length s2 -> set_subset c s2 s1 = true.
Proof.
  intros D1 D2 H L. unfold set_subset. apply forallb_forall. intros z Hz.
  destruct (set_mem c z s1) eqn:M; [reflexivity|]. exfalso.
  assert (set_subset c s1 (set_delete c z s2) = true) as H'.
  { unfold set_subset in *. rewrite forallb_forall in *. intros y Hy. rewrite set_mem_delete, (H y Hy), andb_true_r.
    unfold is_equal. destruct (c z y) eqn:E; auto. exfalso.
    rewrite set_mem_false in M. eapply M; eauto. }
  apply subset_length in H'; auto using distinct_delete.
  assert (set_mem c z s2 = true) as Mz by (apply set_mem_true; exists z; split; [assumption|apply (tp_refl c TP)]).
  rewrite (set_delete_length z s2 D2 Mz) in L. lia.
Qed.
Lemma set_lists_distinct l s : set_lists c l s -> distinct_keys (fun x => x) c s.
Proof. apply (lists_distinct (fun x => x) c TP). Qed.
End Facts.

(** *** Cutting and merging sorted lists at an element *)
Section Pivot.
Context {A : Type} (c : A -> A -> comparison) (TP : total_preorder c).
Notation sorted := (StronglySorted (fun x y => c x y = Lt)).
Notation slookup := (FinMap.slookup (fun x => x) c).

Lemma sorted_mid l v r : sorted (l ++ v :: r) <->
  sorted l /\ sorted r /\ (forall x, In x l -> c x v = Lt) /\ (forall x, In x r -> c v x = Lt).
Proof.
  rewrite (sorted_app (fun x : A => x) c TP). unfold klt, kgt. rewrite !Forall_forall. tauto.
Qed.
(** *** cutting a listing at an element *)
Definition lt_ (x v : A) : bool := match c v x with Lt => true | _ => false end.
Definition gt_ (x v : A) : bool := match c v x with Gt => true | _ => false end.
Lemma lt_iff x v : lt_ x v = true <-> c v x = Lt.
Proof. unfold lt_. destruct (c v x); split; congruence. Qed.
Lemma gt_iff x v : gt_ x v = true <-> c x v = Lt.
Proof. unfold gt_. rewrite <- (tp_gt_lt c TP). destruct (c v x); split; congruence. Qed.
Lemma lt_trans x y z : c x y = Lt -> c y z = Lt -> c x z = Lt.
Proof. intros H1 H2. eapply (tp_lt_le_trans c TP); eauto. now apply tp_lt_le. Qed.
Lemma lt_eq x y z : c x y = Lt -> c y z = Eq -> c x z = Lt.
Proof. intros H1 H2. eapply (tp_lt_le_trans c TP); eauto. unfold ord_le. congruence. Qed.
Lemma eq_lt x y z : c x y = Eq -> c y z = Lt -> c x z = Lt.
Proof. intros H1 H2. eapply (tp_le_lt_trans c TP); eauto. unfold ord_le. congruence. Qed.
Lemma lt_irrefl x : c x x <> Lt.
Proof. rewrite (tp_refl c TP). discriminate. Qed.
Lemma sorted_In_eq l x y : sorted l -> In x l -> In y l -> c x y = Eq -> x = y.
Proof.
  induction 1 as [|z l S IH F]; [easy|]. rewrite Forall_forall in F. intros [->|Hx] [->|Hy] E; auto.
  - specialize (F y Hy). congruence.
  - specialize (F x Hx). apply (tp_eq_sym c TP) in E. congruence.
Qed.
Lemma filter_sorted p l : sorted l -> sorted (filter p l).
Proof. apply sorted_filter. Qed.

(** merging at a pivot *)
Lemma mem_mid x l v r : sorted (l ++ v :: r) -> set_mem c x (l ++ v :: r) =
  match c x v with Eq => true | Lt => set_mem c x l | Gt => set_mem c x r end.
Proof.
  intros S. rewrite (set_mem_slookup c TP x (l ++ v :: r) (l ++ v :: r)) by now split.
  rewrite (slookup_app (fun x : A => x) c TP) by assumption. apply sorted_mid in S as (S1 & S2 & _).
  destruct (c x v); [reflexivity| |]; symmetry; apply (set_mem_slookup c TP); now split.
Qed.

Lemma smerge_mid l1 v r1 l2 : sorted (l1 ++ v :: r1) -> sorted l2 ->
  smerge c (l1 ++ v :: r1) l2 = smerge c l1 (filter (lt_ v) l2) ++ v :: smerge c r1 (filter (gt_ v) l2).
Proof.
  intros S S2. pose proof S as S'. apply sorted_mid in S' as (Sl & Sr & Hl & Hr).
  assert (SA : sorted (smerge c l1 (filter (lt_ v) l2))) by (apply smerge_sorted; auto using filter_sorted).
  assert (SB : sorted (smerge c r1 (filter (gt_ v) l2))) by (apply smerge_sorted; auto using filter_sorted).
  assert (S3 : sorted (smerge c l1 (filter (lt_ v) l2) ++ v :: smerge c r1 (filter (gt_ v) l2))).
  { apply sorted_mid. repeat split; auto; intros x Hx; apply (smerge_In_iff c TP) in Hx; auto using filter_sorted.
    - destruct Hx as [Hx|[Hx _]]; [auto|]. apply filter_In in Hx as [_ Hx]. now apply lt_iff.
    - destruct Hx as [Hx|[Hx _]]; [auto|]. apply filter_In in Hx as [_ Hx]. now apply gt_iff. }
  apply (sorted_ext c TP); auto; [now apply smerge_sorted|].
  assert (M1 : forall x, In x l2 -> c x v = Lt -> set_mem c x (l1 ++ v :: r1) = set_mem c x l1).
  { intros x Hx E. now rewrite (mem_mid x _ _ _ S), E. }
  assert (M2 : forall x, In x l2 -> c v x = Lt -> set_mem c x (l1 ++ v :: r1) = set_mem c x r1).
  { intros x Hx E. now rewrite (mem_mid x _ _ _ S), (proj2 (tp_gt_lt c TP x v) E). }
  intros x. rewrite (smerge_In_iff c TP) by auto. rewrite !in_app_iff. cbn [In].
  rewrite !(smerge_In_iff c TP) by auto using filter_sorted. rewrite !filter_In, lt_iff, gt_iff. split.
  - intros [[H|[H|H]]|[H1 H2]]; auto.
    destruct (c x v) eqn:E.
    + exfalso. rewrite set_mem_false in H2. apply (H2 v); auto. apply in_or_app. right. now left.
    + left. right. rewrite <- (M1 x H1 E). auto.
    + apply (tp_gt_lt c TP) in E. right. right. right. rewrite <- (M2 x H1 E). auto.
  - intros [[H|[[H1 E] H2]]|[H|[H|[[H1 E] H2]]]]; auto.
    + right. rewrite (M1 x H1 E). auto.
    + right. rewrite (M2 x H1 E). auto.
Qed.

Lemma smerge_nil_l l : smerge c [] l = l.
Proof. reflexivity. Qed.

End Pivot.
