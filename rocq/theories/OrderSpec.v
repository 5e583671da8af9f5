(** Vocabulary for SML ordering functions ['a * 'a -> order].
    [order] is modelled by Coq's [comparison]: LESS = Lt, EQUAL = Eq, GREATER = Gt. *)
From Verif Require Import Base.
From Coq Require Import Sorting.Sorted Sorting.Permutation.

(** [c] is a total preorder, given as a comparison function *)
Record total_preorder {A} (c : A -> A -> comparison) : Prop := {
  tp_sym : forall x y, c y x = CompOpp (c x y);
  tp_trans : forall x y z, c x y <> Gt -> c y z <> Gt -> c x z <> Gt
}.

(** [c] is a (strict, total) order: EQUAL only on equal elements *)
Record total_order {A} (c : A -> A -> comparison) : Prop := {
  to_sym : forall x y, c y x = CompOpp (c x y);
  to_trans : forall x y z, c x y = Lt -> c y z = Lt -> c x z = Lt;
  to_eq : forall x y, c x y = Eq <-> x = y
}.

(** x is before or equivalent to y *)
Definition ord_le {A} (c : A -> A -> comparison) (x y : A) : Prop := c x y <> Gt.
Definition ord_lt {A} (c : A -> A -> comparison) (x y : A) : Prop := c x y = Lt.

(** every element is [ord_le] to all later ones *)
Definition nondecreasing {A} (c : A -> A -> comparison) (l : list A) : Prop :=
  StronglySorted (ord_le c) l.
Definition increasing {A} (c : A -> A -> comparison) (l : list A) : Prop :=
  StronglySorted (ord_lt c) l.

Section TP.
Context {A : Type} (c : A -> A -> comparison) (TP : total_preorder c).

Lemma tp_refl x : c x x = Eq.
Proof. pose proof (tp_sym c TP x x). destruct (c x x); simpl in *; congruence. Qed.
Lemma tp_gt_lt x y : c x y = Gt <-> c y x = Lt.
Proof. rewrite (tp_sym c TP x y). destruct (c x y); simpl; split; congruence. Qed.
Lemma tp_total x y : c x y <> Lt -> ord_le c y x.
Proof. unfold ord_le. rewrite (tp_sym c TP x y). destruct (c x y); simpl; congruence. Qed.
Lemma tp_lt_le x y : c x y = Lt -> ord_le c x y.
Proof. unfold ord_le. congruence. Qed.
Lemma tp_le_trans x y z : ord_le c x y -> ord_le c y z -> ord_le c x z.
Proof. apply (tp_trans c TP). Qed.
Lemma tp_not_gt_lt x y : ~ c x y = Lt -> ord_le c y x.
Proof. apply tp_total. Qed.
Lemma tp_lt_le_trans x y z : c x y = Lt -> ord_le c y z -> c x z = Lt.
Proof.
  intros H1 H2. destruct (c x z) eqn:E; [|reflexivity|].
  - exfalso. assert (ord_le c z x) as H3 by (apply tp_total; congruence).
    assert (ord_le c y x) as H4 by (eapply tp_le_trans; eauto).
    apply H4. apply tp_gt_lt; assumption.
  - exfalso. assert (ord_le c x z) by (eapply tp_le_trans; [apply tp_lt_le|]; eauto). now apply H.
Qed.
Lemma tp_le_lt_trans x y z : ord_le c x y -> c y z = Lt -> c x z = Lt.
Proof.
  intros H1 H2. destruct (c x z) eqn:E; [|reflexivity|].
  - exfalso. assert (ord_le c z x) as H3 by (apply tp_total; congruence).
    assert (ord_le c z y) as H4 by (eapply tp_le_trans; eauto).
    apply H4. apply tp_gt_lt; assumption.
  - exfalso. assert (ord_le c x z) by (eapply tp_le_trans; [|apply tp_lt_le]; eauto). now apply H.
Qed.
Lemma tp_eq_trans x y z : c x y = Eq -> c y z = Eq -> c x z = Eq.
Proof.
  intros H1 H2.
  assert (ord_le c x z) by (eapply tp_le_trans; unfold ord_le; [rewrite H1|rewrite H2]; congruence).
  assert (ord_le c z x).
  { eapply tp_le_trans; unfold ord_le.
    - rewrite (tp_sym c TP y z), H2; simpl; congruence.
    - rewrite (tp_sym c TP x y), H1; simpl; congruence. }
  unfold ord_le in *. rewrite (tp_sym c TP x z) in H0. destruct (c x z); simpl in *; congruence.
Qed.
Lemma tp_eq_sym x y : c x y = Eq -> c y x = Eq.
Proof. intros H. now rewrite (tp_sym c TP x y), H. Qed.
End TP.

Section TO.
Context {A : Type} (c : A -> A -> comparison) (TO : total_order c).
Lemma to_refl x : c x x = Eq.
Proof. now apply (to_eq c TO). Qed.
Lemma to_gt_lt x y : c x y = Gt <-> c y x = Lt.
Proof. rewrite (to_sym c TO x y). destruct (c x y); simpl; split; congruence. Qed.
Lemma to_irrefl x : c x x <> Lt.
Proof. rewrite to_refl. discriminate. Qed.
Lemma to_eq_eq x y : c x y = Eq -> x = y.
Proof. apply (to_eq c TO). Qed.
Lemma to_tp : total_preorder c.
Proof.
  split; [apply (to_sym c TO)|]. intros x y z H1 H2.
  destruct (c x y) eqn:E1; [|destruct (c y z) eqn:E2|]; try congruence.
  - apply to_eq_eq in E1. now subst.
  - apply to_eq_eq in E2. subst. congruence.
  - rewrite (to_trans c TO x y z E1 E2). discriminate.
Qed.
End TO.

Lemma Z_compare_total_order : total_order Z.compare.
Proof.
  split.
  - intros x y. apply Z.compare_antisym.
  - intros x y z. rewrite !Z.compare_lt_iff. lia.
  - apply Z.compare_eq_iff.
Qed.
