(** Proofs about Binaryset. *)
From Coq Require Import Sorting.Sorted Sorting.Permutation.
From Verif Require Import Base OrderSpec FinMap SetSpec Wbtree_Model Wbtree_Proofs Binaryset_Model.

Section Sets.
Context {A : Type} (c : A -> A -> comparison) (TP : total_preorder c).
Notation tree := (tree A).
Notation sorted := (StronglySorted (fun x y => c x y = Lt)).
Notation slookup := (slookup (fun x : A => x) c).
Notation sins := (sins (fun x : A => x) c).
Notation sdel := (sdel (fun x : A => x) c).

Local Notation sorted_mid := (sorted_mid c TP).
Local Notation lt_ := (lt_ c).
Local Notation gt_ := (gt_ c).
Local Notation lt_iff := (lt_iff c).
Local Notation gt_iff := (gt_iff c TP).
Local Notation lt_trans := (lt_trans c TP).
Local Notation lt_eq := (lt_eq c TP).
Local Notation eq_lt := (eq_lt c TP).
Local Notation lt_irrefl := (lt_irrefl c TP).
Local Notation filter_sorted := (filter_sorted c).
Local Notation mem_mid := (mem_mid c TP).
Local Notation smerge_mid := (smerge_mid c TP).
Local Notation smerge_nil_l := (smerge_nil_l c).
Lemma sorted_app_inv l r : sorted (l ++ r) -> sorted l /\ sorted r.
Proof.
  induction l as [|x l IH]; cbn; intros H; [split; [constructor|assumption]|].
  inversion H as [|? ? H1 H2]; subst. destruct (IH H1) as [I1 I2]. split; [|assumption].
  constructor; [assumption|]. apply Forall_app in H2. tauto.
Qed.

Lemma addt_spec x (t : tree) : ok t -> sorted (elements t) ->
  exists t', addt c t x = Ret t' /\ ok t' /\ elements t' = sins x (elements t).
Proof.
  induction t as [|v n l IHl r IHr]; intros O S; [eexists; repeat split|].
  cbn [addt elements] in *. pose proof S as S'. apply sorted_mid in S' as (S1 & S2 & _).
  rewrite (sins_app (fun x : A => x) c TP) by assumption. destruct O as (On & Ol & Or).
  destruct (c x v) eqn:E.
  - eexists. split; [reflexivity|]. split; [|reflexivity]. split; [|auto].
    rewrite On. cbn [elements]. now rewrite !app_length.
  - destruct (IHl Ol S1) as (t' & E1 & O1 & EL1). rewrite E1. cbn [bind].
    destruct (T'_spec v t' r O1 Or) as (t2 & E2 & O2 & EL2). rewrite EL1 in EL2. eauto.
  - destruct (IHr Or S2) as (t' & E1 & O1 & EL1). rewrite E1. cbn [bind].
    destruct (T'_spec v l t' Ol O1) as (t2 & E2 & O2 & EL2). rewrite EL1 in EL2. eauto.
Qed.

Lemma concat3_E v (r : tree) : ok r -> sorted (v :: elements r) ->
  exists t, addt c r v = Ret t /\ ok t /\ elements t = v :: elements r.
Proof.
  intros O S. inversion S as [|? ? S1 F]; subst.
  destruct (addt_spec v r O S1) as (t & E1 & O1 & EL). exists t. rewrite EL. split; [assumption|]. split; [assumption|].
  destruct (elements r) as [|y l]; [reflexivity|]. cbn. inversion F; subst. now rewrite H1.
Qed.
Lemma concat3_spec v (l : tree) : forall r, ok l -> ok r -> sorted (elements l ++ v :: elements r) ->
  exists t, concat3 c l v r = Ret t /\ ok t /\ elements t = elements l ++ v :: elements r.
Proof.
  induction l as [|v1 n1 l1 IHl1 r1 IHr1]; intros r Ol Or S; [now apply concat3_E|].
  induction r as [|v2 n2 l2 IHl2 r2 IHr2].
  - cbn [concat3]. apply sorted_mid in S as (S1 & _ & S2 & _).
    destruct (addt_spec v _ Ol S1) as (t & E1 & O1 & EL). exists t. rewrite EL. split; [assumption|]. split; [assumption|].
    rewrite <- (app_nil_r (elements (T v1 n1 l1 r1))) at 1. rewrite (sins_klt (fun x : A => x) c TP); [reflexivity|].
    unfold klt. now apply Forall_forall.
  - destruct Or as (On & Ol2 & Or2).
    change (concat3 c (T v1 n1 l1 r1) v (T v2 n2 l2 r2)) with
      (if wt n1 <? n2 then do x <- concat3 c (T v1 n1 l1 r1) v l2; T' v2 x r2
       else if wt n2 <? n1 then do x <- concat3 c r1 v (T v2 n2 l2 r2); T' v1 l1 x
       else Ret (N v (T v1 n1 l1 r1) (T v2 n2 l2 r2))).
    destruct (wt n1 <? n2); [|destruct (wt n2 <? n1)].
    + destruct IHl2 as (x & E1 & O1 & EL1).
      { assumption. }
      { replace (elements (T v1 n1 l1 r1) ++ v :: elements (T v2 n2 l2 r2)) with
          ((elements (T v1 n1 l1 r1) ++ v :: elements l2) ++ v2 :: elements r2) in S
          by (rewrite <- app_assoc; reflexivity).
        now apply sorted_app_inv in S. }
      rewrite E1. cbn [bind]. destruct (T'_spec v2 x r2 O1 Or2) as (t & E2 & O2 & EL2). exists t.
      split; [assumption|]. split; [assumption|]. rewrite EL2, EL1. cbn [elements]. repeat (rewrite <- app_assoc; cbn). reflexivity.
    + destruct Ol as (Oln & Ol1 & Or1).
      destruct (IHr1 (T v2 n2 l2 r2)) as (x & E1 & O1 & EL1); auto.
      { now split. }
      { cbn [elements] in S. rewrite <- app_assoc in S. cbn [Datatypes.app] in S.
        apply sorted_mid in S. tauto. }
      rewrite E1. cbn [bind]. destruct (T'_spec v1 l1 x Ol1 O1) as (t & E2 & O2 & EL2). exists t.
      split; [assumption|]. split; [assumption|]. rewrite EL2, EL1. cbn [elements]. repeat (rewrite <- app_assoc; cbn). reflexivity.
    + eexists. split; [reflexivity|]. apply N_spec; [assumption|now split].
Qed.

Lemma split_lt_spec x (t : tree) : ok t -> sorted (elements t) ->
  exists t', split_lt c t x = Ret t' /\ ok t' /\ elements t' = filter (lt_ x) (elements t).
Proof.
  induction t as [|v n l IHl r IHr]; intros O S; [eexists; repeat split|].
  cbn [split_lt elements] in *. pose proof S as S'. apply sorted_mid in S' as (S1 & S2 & Hl & Hr).
  destruct O as (On & Ol & Or). rewrite filter_app, filter_cons. unfold lt_ at 2.
  destruct (c v x) eqn:E.
  - exists l. split; [reflexivity|]. split; [assumption|].
    rewrite filter_all, (proj2 (filter_nil_iff _ _)), app_nil_r; [reflexivity| |].
    + intros y Hy. unfold lt_. destruct (c y x) eqn:E2; auto. exfalso. apply (lt_irrefl v).
      apply (tp_eq_sym c TP) in E. eapply lt_trans; [apply Hr, Hy|]. eapply lt_eq; eauto.
    + intros y Hy. apply lt_iff. eapply lt_eq; [apply Hl, Hy|assumption].
  - destruct (IHr Or S2) as (r' & E1 & O1 & EL1). rewrite E1. cbn [bind].
    rewrite (filter_all (lt_ x) (elements l)) by (intros y Hy; apply lt_iff; eapply lt_trans; eauto).
    rewrite <- EL1. apply concat3_spec; auto. rewrite EL1. apply sorted_mid. repeat split; auto.
    + now apply filter_sorted.
    + intros y Hy. apply filter_In in Hy as [Hy _]. auto.
  - destruct (IHl Ol S1) as (l' & E1 & O1 & EL1). exists l'. split; [assumption|]. split; [assumption|].
    rewrite (proj2 (filter_nil_iff (lt_ x) (elements r))), app_nil_r; [assumption|].
    intros y Hy. unfold lt_. destruct (c y x) eqn:E2; auto. exfalso. apply (tp_gt_lt c TP) in E.
    apply (lt_irrefl v). eapply lt_trans; [apply Hr, Hy|]. eapply lt_trans; eauto.
Qed.
Lemma split_gt_spec x (t : tree) : ok t -> sorted (elements t) ->
  exists t', split_gt c t x = Ret t' /\ ok t' /\ elements t' = filter (gt_ x) (elements t).
Proof.
  induction t as [|v n l IHl r IHr]; intros O S; [eexists; repeat split|].
  cbn [split_gt elements] in *. pose proof S as S'. apply sorted_mid in S' as (S1 & S2 & Hl & Hr).
  destruct O as (On & Ol & Or). rewrite filter_app, filter_cons. unfold gt_ at 2.
  destruct (c v x) eqn:E.
  - exists r. split; [reflexivity|]. split; [assumption|].
    rewrite (filter_all (gt_ x) (elements r)), (proj2 (filter_nil_iff (gt_ x) (elements l))); [reflexivity| |].
    + intros y Hy. destruct (gt_ x y) eqn:E2; auto. exfalso. apply gt_iff in E2. apply (lt_irrefl v).
      eapply lt_trans; [|apply Hl, Hy]. eapply eq_lt; eauto.
    + intros y Hy. apply gt_iff. apply (tp_eq_sym c TP) in E. eapply eq_lt; [exact E|auto].
  - destruct (IHr Or S2) as (r' & E1 & O1 & EL1). exists r'. split; [assumption|]. split; [assumption|].
    rewrite (proj2 (filter_nil_iff (gt_ x) (elements l))); [assumption|].
    intros y Hy. destruct (gt_ x y) eqn:E2; auto. exfalso. apply gt_iff in E2. apply (lt_irrefl v).
    eapply lt_trans; [exact E|]. eapply lt_trans; [exact E2|auto].
  - destruct (IHl Ol S1) as (l' & E1 & O1 & EL1). rewrite E1. cbn [bind]. apply (tp_gt_lt c TP) in E.
    rewrite (filter_all (gt_ x) (elements r)) by (intros y Hy; apply gt_iff; eapply lt_trans; eauto).
    rewrite <- EL1. apply concat3_spec; auto. rewrite EL1. apply sorted_mid. repeat split; auto.
    + now apply filter_sorted.
    + intros y Hy. apply filter_In in Hy as [Hy _]. auto.
Qed.

Lemma concat_spec (t1 : tree) : forall t2, ok t1 -> ok t2 ->
  exists t, concat t1 t2 = Ret t /\ ok t /\ elements t = elements t1 ++ elements t2.
Proof.
  induction t1 as [|v1 n1 l1 IHl1 r1 IHr1]; intros t2 O1 O2; [cbn; eauto|].
  induction t2 as [|v2 n2 l2 IHl2 r2 IHr2].
  - exists (T v1 n1 l1 r1). cbn [elements]. rewrite app_nil_r. split; [reflexivity|auto].
  - destruct O2 as (On & Ol2 & Or2).
    change (concat (T v1 n1 l1 r1) (T v2 n2 l2 r2)) with
      (if wt n1 <? n2 then do x <- concat (T v1 n1 l1 r1) l2; T' v2 x r2
       else if wt n2 <? n1 then do x <- concat r1 (T v2 n2 l2 r2); T' v1 l1 x
       else do m <- min (T v2 n2 l2 r2); do d <- delmin (T v2 n2 l2 r2); T' m (T v1 n1 l1 r1) d).
    destruct (wt n1 <? n2); [|destruct (wt n2 <? n1)].
    + destruct (IHl2 Ol2) as (x & E1 & O3 & EL1).
      rewrite E1. cbn [bind]. destruct (T'_spec v2 x r2 O3 Or2) as (t & E2 & O4 & EL2). exists t.
      split; [assumption|]. split; [assumption|]. rewrite EL2, EL1. cbn [elements]. repeat (rewrite <- app_assoc; cbn). reflexivity.
    + destruct O1 as (Oln & Ol1 & Or1).
      destruct (IHr1 (T v2 n2 l2 r2)) as (x & E1 & O3 & EL1); auto.
      { now split. }
      rewrite E1. cbn [bind]. destruct (T'_spec v1 l1 x Ol1 O3) as (t & E2 & O4 & EL2). exists t.
      split; [assumption|]. split; [assumption|]. rewrite EL2, EL1. cbn [elements]. repeat (rewrite <- app_assoc; cbn). reflexivity.
    + assert (O2 : ok (T v2 n2 l2 r2)) by now split.
      pose proof (min_delmin_spec _ O2) as M.
      destruct (elements (T v2 n2 l2 r2)) as [|x rest] eqn:E; [cbn in E; now destruct (elements l2)|].
      destruct M as (M & t' & D & O & EL). rewrite M, D. cbn [bind]. rewrite <- EL. now apply T'_spec.
Qed.

(** *** hedge union *)
Definition inb (lo hi : option A) (v : A) : bool :=
  match lo with None => true | Some a => gt_ a v end && match hi with None => true | Some b => lt_ b v end.
Definition within (lo hi : option A) (v : A) : Prop :=
  (forall a, lo = Some a -> c a v = Lt) /\ (forall b, hi = Some b -> c v b = Lt).
Lemma inb_iff lo hi v : inb lo hi v = true <-> within lo hi v.
Proof.
  unfold inb, within. rewrite andb_true_iff. destruct lo as [a|], hi as [b|]; rewrite ?gt_iff, ?lt_iff;
    (split; [intros [H1 H2]; split; intros ? [=]; subst; assumption|intros [H1 H2]; split; auto]).
Qed.
Definition rooted (lo hi : option A) (t : tree) : Prop :=
  match t with E => True | T v _ _ _ => within lo hi v end.

Lemma filter_iff_ext p q (l : list A) : (forall x, In x l -> (p x = true <-> q x = true)) -> filter p l = filter q l.
Proof. intros H. apply filter_ext_In. intros x Hx. apply eq_true_iff_eq. auto. Qed.

Lemma trim_spec lo hi (s : tree) : ok s -> sorted (elements s) ->
  ok (trim c lo hi s) /\ sorted (elements (trim c lo hi s)) /\ rooted (Some lo) (Some hi) (trim c lo hi s) /\
  filter (inb (Some lo) (Some hi)) (elements (trim c lo hi s)) = filter (inb (Some lo) (Some hi)) (elements s).
Proof.
  induction s as [|v n l IHl r IHr]; intros O S; [repeat split; auto|].
  assert (Skip : (forall x, In x (v :: elements r) -> ~ within (Some lo) (Some hi) x) \/
                 (forall x, In x (elements l ++ [v]) -> ~ within (Some lo) (Some hi) x) \/ within (Some lo) (Some hi) v).
  { cbn [elements] in S. apply sorted_mid in S as (S1 & S2 & Hl & Hr).
    destruct (c v lo) eqn:E1.
    - right. left. intros x Hx [W _]. specialize (W _ eq_refl). apply in_app_or in Hx as [Hx|[<-|[]]].
      + apply (lt_irrefl v). eapply eq_lt; [exact E1|]. eapply lt_trans; eauto.
      + apply (tp_eq_sym c TP) in E1. congruence.
    - right. left. intros x Hx [W _]. specialize (W _ eq_refl). apply in_app_or in Hx as [Hx|[<-|[]]].
      + apply (lt_irrefl v). eapply lt_trans; [exact E1|]. eapply lt_trans; eauto.
      + apply (lt_irrefl v). eapply lt_trans; eauto.
    - apply (tp_gt_lt c TP) in E1. destruct (c v hi) eqn:E2.
      + left. intros x Hx [_ W]. specialize (W _ eq_refl). destruct Hx as [<-|Hx]; [congruence|].
        apply (lt_irrefl v). eapply lt_trans; [apply Hr, Hx|]. eapply lt_eq; [exact W|]. now apply tp_eq_sym.
      + right. right. split; intros ? [=]; subst; assumption.
      + left. apply (tp_gt_lt c TP) in E2. intros x Hx [_ W]. specialize (W _ eq_refl). destruct Hx as [<-|Hx].
        * apply (lt_irrefl v). eapply lt_trans; eauto.
        * apply (lt_irrefl v). eapply lt_trans; [apply Hr, Hx|]. eapply lt_trans; eauto. }
  cbn [trim]. destruct O as (On & Ol & Or).
  assert (S' := S). cbn [elements] in S'. apply sorted_mid in S' as (S1 & S2 & Hl & Hr).
  assert (NL : forall x, ~ within (Some lo) (Some hi) x -> inb (Some lo) (Some hi) x = false).
  { intros x Hx. destruct (inb (Some lo) (Some hi) x) eqn:Ex; auto. apply inb_iff in Ex. contradiction. }
  destruct (c v lo) eqn:E1.
  1,2: destruct (IHr Or S2) as (I1 & I2 & I3 & I4); repeat split; auto; rewrite I4; cbn [elements];
      rewrite filter_app, filter_cons; rewrite (NL v), (proj2 (filter_nil_iff _ (elements l))); auto.
  - intros x Hx. apply NL. intros [W _]. specialize (W _ eq_refl). apply (lt_irrefl v).
    eapply eq_lt; [exact E1|]. eapply lt_trans; eauto.
  - intros [W _]. specialize (W _ eq_refl). apply (tp_eq_sym c TP) in E1. congruence.
  - intros x Hx. apply NL. intros [W _]. specialize (W _ eq_refl). apply (lt_irrefl v).
    eapply lt_trans; [exact E1|]. eapply lt_trans; eauto.
  - intros [W _]. specialize (W _ eq_refl). apply (lt_irrefl v). eapply lt_trans; eauto.
  - apply (tp_gt_lt c TP) in E1. destruct (c v hi) eqn:E2.
    2: { repeat split; auto; intros ? [=]; subst; assumption. }
    all: destruct (IHl Ol S1) as (I1 & I2 & I3 & I4); repeat split; auto; rewrite I4; cbn [elements];
      rewrite filter_app, filter_cons; rewrite (NL v), (proj2 (filter_nil_iff _ (elements r))), ?app_nil_r; auto.
    + intros x Hx. apply NL. intros [_ W]. specialize (W _ eq_refl).
      apply (lt_irrefl v). eapply lt_trans; [apply Hr, Hx|]. eapply lt_eq; [exact W|]. now apply tp_eq_sym.
    + intros [_ W]. specialize (W _ eq_refl). congruence.
    + apply (tp_gt_lt c TP) in E2. intros x Hx. apply NL. intros [_ W]. specialize (W _ eq_refl).
      apply (lt_irrefl v). eapply lt_trans; [apply Hr, Hx|]. eapply lt_trans; eauto.
    + apply (tp_gt_lt c TP) in E2. intros [_ W]. specialize (W _ eq_refl).
      apply (lt_irrefl v). eapply lt_trans; eauto.
Qed.
Lemma trim_lo_spec lo (s : tree) : ok s -> sorted (elements s) ->
  ok (trim_lo c lo s) /\ sorted (elements (trim_lo c lo s)) /\ rooted (Some lo) None (trim_lo c lo s) /\
  filter (inb (Some lo) None) (elements (trim_lo c lo s)) = filter (inb (Some lo) None) (elements s).
Proof.
  induction s as [|v n l IHl r IHr]; intros O S; [repeat split; auto|].
  cbn [trim_lo]. destruct O as (On & Ol & Or).
  assert (S' := S). cbn [elements] in S'. apply sorted_mid in S' as (S1 & S2 & Hl & Hr).
  assert (NL : forall x, ~ within (Some lo) None x -> inb (Some lo) None x = false).
  { intros x Hx. destruct (inb (Some lo) None x) eqn:Ex; auto. apply inb_iff in Ex. contradiction. }
  destruct (c v lo) eqn:E1.
  1,2: destruct (IHr Or S2) as (I1 & I2 & I3 & I4); repeat split; auto; rewrite I4; cbn [elements];
      rewrite filter_app, filter_cons; rewrite (NL v), (proj2 (filter_nil_iff _ (elements l))); auto.
  - intros x Hx. apply NL. intros [W _]. specialize (W _ eq_refl). apply (lt_irrefl v).
    eapply eq_lt; [exact E1|]. eapply lt_trans; eauto.
  - intros [W _]. specialize (W _ eq_refl). apply (tp_eq_sym c TP) in E1. congruence.
  - intros x Hx. apply NL. intros [W _]. specialize (W _ eq_refl). apply (lt_irrefl v).
    eapply lt_trans; [exact E1|]. eapply lt_trans; eauto.
  - intros [W _]. specialize (W _ eq_refl). apply (lt_irrefl v). eapply lt_trans; eauto.
  - apply (tp_gt_lt c TP) in E1. repeat split; auto; intros ? [=]; subst; assumption.
Qed.
Lemma trim_hi_spec hi (s : tree) : ok s -> sorted (elements s) ->
  ok (trim_hi c hi s) /\ sorted (elements (trim_hi c hi s)) /\ rooted None (Some hi) (trim_hi c hi s) /\
  filter (inb None (Some hi)) (elements (trim_hi c hi s)) = filter (inb None (Some hi)) (elements s).
Proof.
  induction s as [|v n l IHl r IHr]; intros O S; [repeat split; auto|].
  cbn [trim_hi]. destruct O as (On & Ol & Or).
  assert (S' := S). cbn [elements] in S'. apply sorted_mid in S' as (S1 & S2 & Hl & Hr).
  assert (NL : forall x, ~ within None (Some hi) x -> inb None (Some hi) x = false).
  { intros x Hx. destruct (inb None (Some hi) x) eqn:Ex; auto. apply inb_iff in Ex. contradiction. }
  destruct (c v hi) eqn:E2.
  2: { repeat split; auto; intros ? [=]; subst; assumption. }
  all: destruct (IHl Ol S1) as (I1 & I2 & I3 & I4); repeat split; auto; rewrite I4; cbn [elements];
      rewrite filter_app, filter_cons; rewrite (NL v), (proj2 (filter_nil_iff _ (elements r))), ?app_nil_r; auto.
  + intros x Hx. apply NL. intros [_ W]. specialize (W _ eq_refl).
    apply (lt_irrefl v). eapply lt_trans; [apply Hr, Hx|]. eapply lt_eq; [exact W|]. now apply tp_eq_sym.
  + intros [_ W]. specialize (W _ eq_refl). congruence.
  + apply (tp_gt_lt c TP) in E2. intros x Hx. apply NL. intros [_ W]. specialize (W _ eq_refl).
    apply (lt_irrefl v). eapply lt_trans; [apply Hr, Hx|]. eapply lt_trans; eauto.
  + apply (tp_gt_lt c TP) in E2. intros [_ W]. specialize (W _ eq_refl).
    apply (lt_irrefl v). eapply lt_trans; eauto.
Qed.

Lemma filter_filter (p q : A -> bool) l : filter p (filter q l) = filter (fun x => q x && p x) l.
Proof.
  induction l as [|x l IH]; [reflexivity|]. cbn [filter]. destruct (q x); cbn [filter andb]; rewrite IH; reflexivity.
Qed.

Lemma uni_step lo hi v (l1 r1 s2 a b : tree) : ok a -> ok b ->
  sorted (elements l1 ++ v :: elements r1) -> sorted (elements s2) -> within lo hi v ->
  elements a = smerge c (elements l1) (filter (inb lo (Some v)) (elements s2)) ->
  elements b = smerge c (elements r1) (filter (inb (Some v) hi) (elements s2)) ->
  exists t, concat3 c a v b = Ret t /\ ok t /\
    elements t = smerge c (elements l1 ++ v :: elements r1) (filter (inb lo hi) (elements s2)).
Proof.
  intros Oa Ob S S2 [W1 W2] Ea Eb.
  assert (Fa : filter (inb lo (Some v)) (elements s2) = filter (lt_ v) (filter (inb lo hi) (elements s2))).
  { rewrite filter_filter. apply filter_iff_ext. intros x Hx. rewrite andb_true_iff, !inb_iff, lt_iff. unfold within.
    split; [intros [H1 H2]; repeat split; auto; intros b0 ->; eapply lt_trans; eauto|
            intros [[H1 H2] H3]; split; [auto|]; intros ? [=]; subst; auto]. }
  assert (Fb : filter (inb (Some v) hi) (elements s2) = filter (gt_ v) (filter (inb lo hi) (elements s2))).
  { rewrite filter_filter. apply filter_iff_ext. intros x Hx. rewrite andb_true_iff, !inb_iff, gt_iff. unfold within.
    split; [intros [H1 H2]; repeat split; auto; intros b0 ->; eapply lt_trans; [|apply H1]; eauto|
            intros [[H1 H2] H3]; split; [|auto]; intros ? [=]; subst; auto]. }
  rewrite Fa in Ea. rewrite Fb in Eb.
  rewrite (smerge_mid _ _ _ _ S) by now apply filter_sorted. rewrite <- Ea, <- Eb.
  apply concat3_spec; auto. rewrite Ea, Eb.
  rewrite <- (smerge_mid _ _ _ _ S) by now apply filter_sorted. apply smerge_sorted; auto using filter_sorted.
Qed.
Lemma filter_mid lo hi l v r : sorted (l ++ v :: r) -> within lo hi v ->
  filter (inb lo hi) (l ++ v :: r) = filter (inb lo None) l ++ v :: filter (inb None hi) r.
Proof.
  intros S [W1 W2]. apply sorted_mid in S as (Sl & Sr & Hl & Hr). rewrite filter_app, filter_cons.
  rewrite (proj2 (inb_iff lo hi v)) by now split. f_equal; [|f_equal].
  - apply filter_iff_ext. intros x Hx. rewrite !inb_iff. unfold within. split; [intros [H1 H2]; split; [auto|]; discriminate|].
    intros [H1 _]. split; [auto|]. intros b Hb. eapply lt_trans; eauto.
  - apply filter_iff_ext. intros x Hx. rewrite !inb_iff. unfold within. split; [intros [H1 H2]; split; [|auto]; discriminate|].
    intros [_ H1]. split; [|auto]. intros b Hb. eapply lt_trans; [|apply Hr, Hx]; auto.
Qed.
Lemma filter_inb_None l : filter (inb None None) l = l.
Proof. apply filter_all. reflexivity. Qed.
Lemma inb_lo_gt a x : inb (Some a) None x = gt_ a x.
Proof. unfold inb. apply andb_true_r. Qed.
Lemma inb_hi_lt a x : inb None (Some a) x = lt_ a x.
Proof. reflexivity. Qed.

(** what each of the specialised unions has to do *)
Definition unites (lo hi : option A) (u : tree -> outcome tree) (s1 : tree) : Prop :=
  forall s2, ok s2 -> sorted (elements s2) -> rooted lo hi s2 ->
  exists t, u s2 = Ret t /\ ok t /\
    elements t = smerge c (elements s1) (filter (inb lo hi) (elements s2)).

Lemma concat3_filtered lo hi v (l r a b : tree) : ok a -> ok b -> sorted (elements l ++ v :: elements r) ->
  within lo hi v -> elements a = filter (inb lo None) (elements l) -> elements b = filter (inb None hi) (elements r) ->
  exists t, concat3 c a v b = Ret t /\ ok t /\ elements t = filter (inb lo hi) (elements l ++ v :: elements r).
Proof.
  intros Oa Ob S W Ea Eb. rewrite (filter_mid lo hi _ _ _ S W), <- Ea, <- Eb. apply concat3_spec; auto.
  rewrite Ea, Eb, <- (filter_mid lo hi _ _ _ S W). now apply filter_sorted.
Qed.

Lemma uni_bd_spec (s1 : tree) : forall lo hi, ok s1 -> sorted (elements s1) ->
  (forall x, In x (elements s1) -> within (Some lo) (Some hi) x) ->
  unites (Some lo) (Some hi) (fun s2 => uni_bd c s1 s2 lo hi) s1.
Proof.
  induction s1 as [|v n l1 IHl r1 IHr]; intros lo hi O1 S1 W s2 O2 S2 Rt.
  - destruct s2 as [|v m l r]; [exists E; auto|]. cbn [uni_bd elements]. rewrite smerge_nil_l.
    pose proof S2 as S'. cbn [elements] in S'. apply sorted_mid in S' as (Sl & Sr & _). destruct O2 as (_ & Ol & Or).
    destruct (split_gt_spec lo l Ol Sl) as (a & Ea & Oa & La). destruct (split_lt_spec hi r Or Sr) as (b & Eb & Ob & Lb).
    rewrite Ea, Eb. cbn [bind]. apply concat3_filtered; auto.
    rewrite La. apply filter_ext. intros x. symmetry. apply inb_lo_gt.
  - destruct s2 as [|v2 m2 l2 r2] eqn:Es2; [exists (T v n l1 r1); change (elements (E : tree)) with (@nil A); cbn [filter]; rewrite smerge_nil_r; auto|].
    rewrite <- Es2 in *. replace (uni_bd c (T v n l1 r1) s2 lo hi) with
      (do a <- uni_bd c l1 (trim c lo v s2) lo v; do b <- uni_bd c r1 (trim c v hi s2) v hi; concat3 c a v b)
      by (rewrite Es2; reflexivity).
    cbn [elements] in S1, W |- *. pose proof S1 as S'. apply sorted_mid in S' as (Sl & Sr & Hl & Hr).
    destruct O1 as (_ & Ol1 & Or1).
    destruct (trim_spec lo v s2 O2 S2) as (A1 & A2 & A3 & A4). destruct (trim_spec v hi s2 O2 S2) as (B1 & B2 & B3 & B4).
    assert (Wv : within (Some lo) (Some hi) v) by (apply W, in_or_app; right; now left).
    destruct (IHl lo v Ol1 Sl) with (s2 := trim c lo v s2) as (a & Ea & Oa & La); auto.
    { intros x Hx. split; intros ? [=]; subst; [|auto]. apply (W x); [apply in_or_app; now left|reflexivity]. }
    destruct (IHr v hi Or1 Sr) with (s2 := trim c v hi s2) as (b & Eb & Ob & Lb); auto.
    { intros x Hx. split; intros ? [=]; subst; [auto|]. apply (W x); [apply in_or_app; right; now right|reflexivity]. }
    rewrite Ea, Eb. cbn [bind]. apply uni_step; auto; congruence.
Qed.
Lemma uni_hi_spec (s1 : tree) : forall hi, ok s1 -> sorted (elements s1) ->
  (forall x, In x (elements s1) -> c x hi = Lt) ->
  unites None (Some hi) (fun s2 => uni_hi c s1 s2 hi) s1.
Proof.
  induction s1 as [|v n l1 IHl r1 IHr]; intros hi O1 S1 W s2 O2 S2 Rt.
  - destruct s2 as [|v m l r]; [exists E; auto|]. cbn [uni_hi elements]. rewrite smerge_nil_l.
    pose proof S2 as S'. cbn [elements] in S'. apply sorted_mid in S' as (Sl & Sr & _). destruct O2 as (_ & Ol & Or).
    destruct (split_lt_spec hi r Or Sr) as (b & Eb & Ob & Lb).
    rewrite Eb. cbn [bind]. apply concat3_filtered; auto. now rewrite filter_inb_None.
  - destruct s2 as [|v2 m2 l2 r2] eqn:Es2; [exists (T v n l1 r1); change (elements (E : tree)) with (@nil A); cbn [filter]; rewrite smerge_nil_r; auto|].
    rewrite <- Es2 in *. replace (uni_hi c (T v n l1 r1) s2 hi) with
      (do a <- uni_hi c l1 (trim_hi c v s2) v; do b <- uni_bd c r1 (trim c v hi s2) v hi; concat3 c a v b)
      by (rewrite Es2; reflexivity).
    cbn [elements] in S1, W |- *. pose proof S1 as S'. apply sorted_mid in S' as (Sl & Sr & Hl & Hr).
    destruct O1 as (_ & Ol1 & Or1).
    destruct (trim_hi_spec v s2 O2 S2) as (A1 & A2 & A3 & A4). destruct (trim_spec v hi s2 O2 S2) as (B1 & B2 & B3 & B4).
    assert (Wv : c v hi = Lt) by (apply W, in_or_app; right; now left).
    destruct (IHl v Ol1 Sl) with (s2 := trim_hi c v s2) as (a & Ea & Oa & La); auto.
    destruct (uni_bd_spec r1 v hi Or1 Sr) with (s2 := trim c v hi s2) as (b & Eb & Ob & Lb); auto.
    { intros x Hx. split; intros ? [=]; subst; [auto|]. apply W, in_or_app; right; now right. }
    rewrite Ea, Eb. cbn [bind]. apply uni_step; auto; try congruence.
    split; intros ? [=]; subst; assumption.
Qed.
Lemma uni_lo_spec (s1 : tree) : forall lo, ok s1 -> sorted (elements s1) ->
  (forall x, In x (elements s1) -> c lo x = Lt) ->
  unites (Some lo) None (fun s2 => uni_lo c s1 s2 lo) s1.
Proof.
  induction s1 as [|v n l1 IHl r1 IHr]; intros lo O1 S1 W s2 O2 S2 Rt.
  - destruct s2 as [|v m l r]; [exists E; auto|]. cbn [uni_lo elements]. rewrite smerge_nil_l.
    pose proof S2 as S'. cbn [elements] in S'. apply sorted_mid in S' as (Sl & Sr & _). destruct O2 as (_ & Ol & Or).
    destruct (split_gt_spec lo l Ol Sl) as (a & Ea & Oa & La).
    rewrite Ea. cbn [bind]. apply concat3_filtered; auto; [|now rewrite filter_inb_None].
    rewrite La. apply filter_ext. intros x. symmetry. apply inb_lo_gt.
  - destruct s2 as [|v2 m2 l2 r2] eqn:Es2; [exists (T v n l1 r1); change (elements (E : tree)) with (@nil A); cbn [filter]; rewrite smerge_nil_r; auto|].
    rewrite <- Es2 in *. replace (uni_lo c (T v n l1 r1) s2 lo) with
      (do a <- uni_bd c l1 (trim c lo v s2) lo v; do b <- uni_lo c r1 (trim_lo c v s2) v; concat3 c a v b)
      by (rewrite Es2; reflexivity).
    cbn [elements] in S1, W |- *. pose proof S1 as S'. apply sorted_mid in S' as (Sl & Sr & Hl & Hr).
    destruct O1 as (_ & Ol1 & Or1).
    destruct (trim_spec lo v s2 O2 S2) as (A1 & A2 & A3 & A4). destruct (trim_lo_spec v s2 O2 S2) as (B1 & B2 & B3 & B4).
    assert (Wv : c lo v = Lt) by (apply W, in_or_app; right; now left).
    destruct (uni_bd_spec l1 lo v Ol1 Sl) with (s2 := trim c lo v s2) as (a & Ea & Oa & La); auto.
    { intros x Hx. split; intros ? [=]; subst; [|auto]. apply W, in_or_app; now left. }
    destruct (IHr v Or1 Sr) with (s2 := trim_lo c v s2) as (b & Eb & Ob & Lb); auto.
    rewrite Ea, Eb. cbn [bind]. apply uni_step; auto; try congruence.
    split; intros ? [=]; subst; assumption.
Qed.
Lemma hedge_union_spec (s1 s2 : tree) : ok s1 -> ok s2 -> sorted (elements s1) -> sorted (elements s2) ->
  exists t, hedge_union c s1 s2 = Ret t /\ ok t /\ elements t = smerge c (elements s1) (elements s2).
Proof.
  intros O1 O2 S1 S2. destruct s2 as [|v2 m2 l2 r2] eqn:Es2.
  { exists s1. cbn [elements]. rewrite smerge_nil_r. destruct s1; auto. }
  destruct s1 as [|v n l1 r1].
  { rewrite <- Es2 in *. exists s2. rewrite smerge_nil_l. rewrite Es2 at 1. cbn [hedge_union]. rewrite <- Es2. auto. }
  rewrite <- Es2 in *. replace (hedge_union c (T v n l1 r1) s2) with
    (do a <- uni_hi c l1 (trim_hi c v s2) v; do b <- uni_lo c r1 (trim_lo c v s2) v; concat3 c a v b)
    by (rewrite Es2; reflexivity).
  cbn [elements] in S1 |- *. pose proof S1 as S'. apply sorted_mid in S' as (Sl & Sr & Hl & Hr).
  destruct O1 as (_ & Ol1 & Or1).
  destruct (trim_hi_spec v s2 O2 S2) as (A1 & A2 & A3 & A4). destruct (trim_lo_spec v s2 O2 S2) as (B1 & B2 & B3 & B4).
  destruct (uni_hi_spec l1 v Ol1 Sl Hl (trim_hi c v s2)) as (a & Ea & Oa & La); auto.
  destruct (uni_lo_spec r1 v Or1 Sr Hr (trim_lo c v s2)) as (b & Eb & Ob & Lb); auto.
  rewrite Ea, Eb. cbn [bind]. rewrite <- (filter_inb_None (elements s2)). apply uni_step; auto; try congruence.
  split; discriminate.
Qed.

(** *** membership, subset, equality *)
Lemma peekt_spec x (t : tree) : sorted (elements t) -> peekt c t x = slookup x (elements t).
Proof.
  induction t as [|v n l IHl r IHr]; intros S; [reflexivity|].
  cbn [peekt elements] in *. pose proof S as S'. apply sorted_mid in S' as (S1 & S2 & _).
  rewrite (slookup_app (fun x : A => x) c TP) by assumption. destruct (c x v); auto.
Qed.
Lemma isIn_spec t' (t : tree) : isIn c t' t = forallb (membert c t') (elements t).
Proof.
  assert (H : forall v n l r, isIn c t' (T v n l r) = membert c t' v && (isIn c t' l && isIn c t' r)).
  { intros v n l r. destruct l, r; cbn [isIn]; rewrite ?andb_true_r; reflexivity. }
  induction t as [|v n l IHl r IHr]; [reflexivity|]. rewrite H, IHl, IHr. cbn [elements]. rewrite forallb_app. cbn [forallb].
  destruct (membert c t' v), (forallb (membert c t') (elements l)); reflexivity.
Qed.

Definition inv (d : set A) (s : list A) : Prop := set_lists c (elements d) s /\ ok d.

Lemma inv_perm d s s' : inv d s -> Permutation s s' -> inv d s'.
Proof. intros [[S P] O] P'. split; [split; [assumption|]; etransitivity; eauto|assumption]. Qed.
Lemma inv_empty : inv empty [].
Proof. split; [split; constructor|exact I]. Qed.
Lemma inv_singleton x : inv (singleton x) [x].
Proof. split; [split; repeat constructor|repeat split]. Qed.
Lemma inv_add d s x : inv d s -> exists d', add c d x = Ret d' /\ inv d' (set_replace c x s).
Proof.
  intros [L O]. destruct (addt_spec x d O (proj1 L)) as (t & E & O' & EL). exists t. split; [assumption|].
  split; [|assumption]. rewrite EL. now apply set_lists_replace.
Qed.
Lemma inv_addList xs : forall d s, inv d s ->
  exists d', addList c d xs = Ret d' /\ inv d' (fold_left (fun s x => set_replace c x s) xs s).
Proof.
  unfold addList. induction xs as [|x xs IH]; intros d s H; [cbn; eauto|]. cbn [fold_left bind].
  destruct (inv_add d s x H) as (d' & E & H'). unfold add in E. rewrite E. now apply IH.
Qed.
Lemma inv_numItems d s : inv d s -> numItems d = Z.of_nat (length s).
Proof. intros [L O]. unfold numItems. rewrite ok_size by assumption. now rewrite (set_lists_length _ _ _ L). Qed.
Lemma inv_isEmpty d s : inv d s -> (isEmpty d = true <-> s = []).
Proof.
  intros [[S P] _]. destruct d as [|v n l r]; cbn in *.
  - apply Permutation_nil in P. subst. tauto.
  - split; [discriminate|]. intros ->. apply Permutation_sym, Permutation_nil in P. now destruct (elements l).
Qed.
Lemma inv_peek d s x : inv d s -> peek c d x = am_find (fun x => x) c x s.
Proof.
  intros [L O]. unfold peek. rewrite peekt_spec by apply L. now apply (lists_find (fun x : A => x) c TP).
Qed.
Lemma inv_member d s x : inv d s -> member c d x = set_mem c x s.
Proof. intros H. unfold member. rewrite (inv_peek d s x H), set_mem_find. now destruct (am_find _ c x s). Qed.
Lemma inv_isIn d1 s1 d2 s2 : inv d1 s1 -> inv d2 s2 -> isIn c d2 d1 = set_subset c s1 s2.
Proof.
  intros H1 H2. rewrite isIn_spec, <- (set_subset_perm c (elements d1) s1 s2 s2) by (apply H1 || reflexivity).
  unfold set_subset. apply forallb_ext_In. intros x _. change (membert c d2 x) with (member c d2 x).
  now apply inv_member.
Qed.
Lemma inv_distinct d s : inv d s -> distinct_keys (fun x => x) c s.
Proof. intros [L _]. eapply set_lists_distinct; eauto. Qed.
Lemma subset_nil_r s : set_subset c s [] = match s with [] => true | _ => false end.
Proof. destruct s; reflexivity. Qed.
Lemma inv_cnt v n l r s : inv (T v n l r) s -> n = Z.of_nat (length s) /\ s <> [].
Proof.
  intros [[S P] O]. destruct O as (-> & _). rewrite (Permutation_length P). split; [reflexivity|].
  intros ->. apply Permutation_sym, Permutation_nil in P. cbn in P. now destruct (elements l).
Qed.
Lemma inv_E_nil s : inv E s -> s = [].
Proof. intros [[_ P] _]. now apply Permutation_nil in P. Qed.
Lemma inv_isSubset d1 s1 d2 s2 : inv d1 s1 -> inv d2 s2 -> isSubset c d1 d2 = set_subset c s1 s2.
Proof.
  intros H1 H2. unfold isSubset. destruct d1 as [|v1 n1 l1 r1]; [now rewrite (inv_E_nil s1 H1)|].
  destruct d2 as [|v2 n2 l2 r2].
  - rewrite (inv_E_nil s2 H2). rewrite subset_nil_r. destruct (inv_cnt _ _ _ _ _ H1) as [_ N]. now destruct s1.
  - rewrite (inv_isIn _ s1 _ s2 H1 H2). destruct (inv_cnt _ _ _ _ _ H1) as [-> _]. destruct (inv_cnt _ _ _ _ _ H2) as [-> _].
    destruct (set_subset c s1 s2) eqn:E; [|apply andb_false_r]. rewrite andb_true_r.
    apply (subset_length c TP) in E; eauto using inv_distinct. lia.
Qed.
Lemma inv_equal d1 s1 d2 s2 : inv d1 s1 -> inv d2 s2 -> equal c d1 d2 = set_equal c s1 s2.
Proof.
  intros H1 H2. unfold equal, set_equal. destruct d1 as [|v1 n1 l1 r1], d2 as [|v2 n2 l2 r2].
  - now rewrite (inv_E_nil s1 H1), (inv_E_nil s2 H2).
  - rewrite (inv_E_nil s1 H1). rewrite subset_nil_r. destruct (inv_cnt _ _ _ _ _ H2) as [_ N]. now destruct s2.
  - rewrite (inv_E_nil s2 H2). rewrite subset_nil_r. destruct (inv_cnt _ _ _ _ _ H1) as [_ N]. now destruct s1.
  - rewrite (inv_isIn _ s1 _ s2 H1 H2). destruct (inv_cnt _ _ _ _ _ H1) as [-> _]. destruct (inv_cnt _ _ _ _ _ H2) as [-> _].
    pose proof (inv_distinct _ _ H1) as D1. pose proof (inv_distinct _ _ H2) as D2.
    destruct (set_subset c s1 s2) eqn:E; [|apply andb_false_r]. rewrite andb_true_r. cbn [andb].
    destruct (set_subset c s2 s1) eqn:E2.
    + apply (subset_length c TP) in E, E2; auto. lia.
    + apply Z.eqb_neq. intros L. rewrite (subset_equal_length c TP s1 s2 D1 D2 E) in E2; [discriminate|lia].
Qed.
Lemma delete_spec x (t : tree) : ok t -> sorted (elements t) ->
  match slookup x (elements t) with
  | Some _ => exists t', delete c t x = Ret t' /\ ok t' /\ elements t' = sdel x (elements t)
  | None => delete c t x = Raise NotFound
  end.
Proof.
  induction t as [|v n l IHl r IHr]; intros O S; [reflexivity|].
  cbn [delete elements] in *. pose proof S as S'. apply sorted_mid in S' as (S1 & S2 & _).
  rewrite (slookup_app (fun x : A => x) c TP), (sdel_app (fun x : A => x) c TP) by assumption.
  destruct O as (On & Ol & Or). destruct (c x v) eqn:E.
  - now apply delete'_spec.
  - specialize (IHl Ol S1). destruct (slookup x (elements l)); [|now rewrite IHl].
    destruct IHl as (t' & E1 & O1 & EL1). rewrite E1. cbn [bind].
    destruct (T'_spec v t' r O1 Or) as (t2 & E2 & O2 & EL2). rewrite EL1 in *. eauto.
  - specialize (IHr Or S2). destruct (slookup x (elements r)); [|now rewrite IHr].
    destruct IHr as (t' & E1 & O1 & EL1). rewrite E1. cbn [bind].
    destruct (T'_spec v l t' Ol O1) as (t2 & E2 & O2 & EL2). rewrite EL1 in *. eauto.
Qed.
Lemma inv_delete d s x : inv d s ->
  if set_mem c x s then exists d', delete c d x = Ret d' /\ inv d' (set_delete c x s)
  else delete c d x = Raise NotFound.
Proof.
  intros [L O]. pose proof (delete_spec x d O (proj1 L)) as H. rewrite (set_mem_slookup c TP x _ _ L).
  destruct (slookup x (elements d)); [|assumption].
  destruct H as (t & E & O' & EL). exists t. split; [assumption|]. split; [|assumption].
  rewrite EL. now apply set_lists_delete.
Qed.
Lemma inv_union d1 s1 d2 s2 : inv d1 s1 -> inv d2 s2 ->
  exists d, union c d1 d2 = Ret d /\ inv d (set_union c s1 s2).
Proof.
  intros [L1 O1] [L2 O2]. destruct (hedge_union_spec d1 d2 O1 O2 (proj1 L1) (proj1 L2)) as (t & E & O & EL).
  exists t. split; [assumption|]. split; [|assumption]. rewrite EL. now apply set_lists_union.
Qed.

Lemma intersection_spec (t2 : tree) : forall t, ok t -> ok t2 -> sorted (elements t) -> sorted (elements t2) ->
  exists t', intersection c t t2 = Ret t' /\ ok t' /\ elements t' = set_inter c (elements t2) (elements t).
Proof.
  induction t2 as [|v n l IHl r IHr]; intros t O1 O2 S1 S2.
  - exists E. split; [now destruct t|]. split; [exact I|]. reflexivity.
  - destruct t as [|tv tn tl tr] eqn:Et.
    { exists E. split; [reflexivity|]. split; [exact I|]. symmetry. apply set_inter_nil_r. }
    rewrite <- Et in *. replace (intersection c t (T v n l r)) with
      (do l2 <- split_lt c t v; do r2 <- split_gt c t v;
       match peekt c t v with
       | None => do a <- intersection c l2 l; do b <- intersection c r2 r; concat a b
       | _ => do a <- intersection c l2 l; do b <- intersection c r2 r; concat3 c a v b
       end) by (rewrite Et; reflexivity).
    pose proof S2 as S'. cbn [elements] in S'. apply sorted_mid in S' as (Sl & Sr & Hl & Hr). destruct O2 as (_ & Ol & Or).
    destruct (split_lt_spec v t O1 S1) as (l2 & E1 & Ol2 & L2). destruct (split_gt_spec v t O1 S1) as (r2 & E2 & Or2 & R2).
    rewrite E1, E2. cbn [bind].
    destruct (IHl l2) as (a & Ea & Oa & La); auto. { rewrite L2. now apply filter_sorted. }
    destruct (IHr r2) as (b & Eb & Ob & Lb); auto. { rewrite R2. now apply filter_sorted. }
    assert (Ia : elements a = set_inter c (elements l) (elements t)).
    { rewrite La, L2, !set_inter_eq. apply filter_ext_In. intros x Hx.
      apply eq_true_iff_eq. rewrite !set_mem_true. split; intros (y & Hy & E); exists y; split; auto.
      - apply filter_In in Hy. tauto.
      - apply filter_In. split; [assumption|]. apply lt_iff. apply (tp_eq_sym c TP) in E. eapply eq_lt; [exact E|auto]. }
    assert (Ib : elements b = set_inter c (elements r) (elements t)).
    { rewrite Lb, R2, !set_inter_eq. apply filter_ext_In. intros x Hx.
      apply eq_true_iff_eq. rewrite !set_mem_true. split; intros (y & Hy & E); exists y; split; auto.
      - apply filter_In in Hy. tauto.
      - apply filter_In. split; [assumption|]. apply gt_iff. eapply lt_eq; [|exact E]. auto. }
    rewrite Ea, Eb. cbn [bind elements]. rewrite set_inter_eq, filter_app, filter_cons, <- !set_inter_eq.
    rewrite (set_mem_slookup c TP v (elements t) (elements t)) by now split.
    rewrite peekt_spec by assumption. rewrite <- Ia, <- Ib.
    destruct (slookup v (elements t)).
    + apply concat3_spec; auto. rewrite Ia, Ib. apply sorted_mid. rewrite !set_inter_eq.
      repeat split; auto using filter_sorted; intros x Hx; apply filter_In in Hx as [Hx _]; auto.
    + now apply concat_spec.
Qed.
Lemma inv_intersection d1 s1 d2 s2 : inv d1 s1 -> inv d2 s2 ->
  exists d, intersection c d1 d2 = Ret d /\ inv d (set_inter c s2 s1).
Proof.
  intros [L1 O1] [L2 O2]. destruct (intersection_spec d2 d1 O1 O2 (proj1 L1) (proj1 L2)) as (t & E & O & EL).
  exists t. split; [assumption|]. split; [|assumption]. rewrite EL. now apply set_lists_inter.
Qed.
Lemma difference_spec (t2 : tree) : forall t, ok t -> ok t2 -> sorted (elements t) -> sorted (elements t2) ->
  exists t', difference c t t2 = Ret t' /\ ok t' /\ elements t' = set_diff c (elements t) (elements t2).
Proof.
  induction t2 as [|v n l IHl r IHr]; intros t O1 O2 S1 S2.
  - exists t. split; [now destruct t|]. split; [assumption|]. symmetry. apply set_diff_nil_r.
  - destruct t as [|tv tn tl tr] eqn:Et.
    { exists E. split; [reflexivity|]. split; [exact I|]. reflexivity. }
    rewrite <- Et in *. replace (difference c t (T v n l r)) with
      (do l2 <- split_lt c t v; do r2 <- split_gt c t v;
       do a <- difference c l2 l; do b <- difference c r2 r; concat a b) by (rewrite Et; reflexivity).
    pose proof S2 as S'. cbn [elements] in S'. apply sorted_mid in S' as (Sl & Sr & Hl & Hr). destruct O2 as (_ & Ol & Or).
    destruct (split_lt_spec v t O1 S1) as (l2 & E1 & Ol2 & L2). destruct (split_gt_spec v t O1 S1) as (r2 & E2 & Or2 & R2).
    rewrite E1, E2. cbn [bind].
    destruct (IHl l2) as (a & Ea & Oa & La); auto. { rewrite L2. now apply filter_sorted. }
    destruct (IHr r2) as (b & Eb & Ob & Lb); auto. { rewrite R2. now apply filter_sorted. }
    rewrite Ea, Eb. cbn [bind]. destruct (concat_spec a b Oa Ob) as (t' & E' & O' & EL'). exists t'.
    split; [assumption|]. split; [assumption|]. rewrite EL', La, Lb, L2, R2, !set_diff_eq, !filter_filter.
    cbn [elements] in S2 |- *.
    assert (Sd : sorted (filter (fun x => lt_ v x && negb (set_mem c x (elements l))) (elements t) ++
                 filter (fun x => gt_ v x && negb (set_mem c x (elements r))) (elements t))).
    { assert (G : forall l1 l2, sorted l1 -> sorted l2 -> (forall x y, In x l1 -> In y l2 -> c x y = Lt) -> sorted (l1 ++ l2)).
      { induction l1 as [|x l1 IH]; intros l3 H1 H2 H3; [assumption|]. inversion H1 as [|? ? H4 H5]; subst. cbn.
        constructor; [apply IH; auto; intros; apply H3; auto; now right|]. apply Forall_app. split; [assumption|].
        apply Forall_forall. intros y Hy. apply H3; [now left|assumption]. }
      apply G; auto using filter_sorted. intros x y Hx Hy. apply filter_In in Hx as [_ Hx], Hy as [_ Hy].
      apply andb_true_iff in Hx as [Hx _], Hy as [Hy _]. apply lt_iff in Hx. apply gt_iff in Hy. eapply lt_trans; eauto. }
    apply (sorted_ext c TP); auto using filter_sorted.
    intros x. rewrite in_app_iff, !filter_In, !andb_true_iff, (mem_mid x _ _ _ S2), lt_iff, gt_iff.
    rewrite <- (tp_gt_lt c TP x v). destruct (c x v) eqn:E; cbn [negb]; intuition congruence.
Qed.
Lemma inv_difference d1 s1 d2 s2 : inv d1 s1 -> inv d2 s2 ->
  exists d, difference c d1 d2 = Ret d /\ inv d (set_diff c s1 s2).
Proof.
  intros [L1 O1] [L2 O2]. destruct (difference_spec d2 d1 O1 O2 (proj1 L1) (proj1 L2)) as (t & E & O & EL).
  exists t. split; [assumption|]. split; [|assumption]. rewrite EL. now apply set_lists_diff.
Qed.
Lemma find_spec p (t : tree) :
  match find p t with
  | Some x => In x (elements t) /\ p x = true
  | None => forall x, In x (elements t) -> p x = false
  end.
Proof.
  induction t as [|v n l IHl r IHr]; [intros x []|]. cbn [find elements]. destruct (p v) eqn:Pv.
  - split; [|assumption]. apply in_or_app. right. now left.
  - destruct (find p l) as [x|].
    + destruct IHl. split; [|assumption]. apply in_or_app. now left.
    + destruct (find p r) as [x|].
      * destruct IHr. split; [|assumption]. apply in_or_app. right. now right.
      * intros x Hx. apply in_app_or in Hx as [Hx|[<-|Hx]]; auto.
Qed.
End Sets.
