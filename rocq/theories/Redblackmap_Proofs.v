(** Proofs about the Redblackmap model. *)
From Coq Require Import Sorting.Sorted Sorting.Permutation.
From Verif Require Import Base OrderSpec FinMap Redblackmap_Model.

(** ** Structure *)
Section Structure.
Context {K V : Type}.
Notation tree := (tree K V).

Fixpoint elements (t : tree) : list (K * V) :=
  match t with
  | LEAF => []
  | RED k x l r | BLACK k x l r => elements l ++ (k, x) :: elements r
  end.

Definition is_red (t : tree) : bool := match t with RED _ _ _ _ => true | _ => false end.

(** red-black invariant with black height *)
Inductive rb : nat -> tree -> Prop :=
| rb_leaf : rb 0 LEAF
| rb_red n k x l r : rb n l -> rb n r -> is_red l = false -> is_red r = false -> rb n (RED k x l r)
| rb_black n k x l r : rb n l -> rb n r -> rb (S n) (BLACK k x l r).

(** as [rb] except that a red root may have red children *)
Definition nearly (n : nat) (t : tree) : Prop :=
  rb n t \/ exists k x l r, t = RED k x l r /\ rb n l /\ rb n r.

Hint Constructors rb : core.

Lemma rb_nearly n t : rb n t -> nearly n t.
Proof. now left. Qed.
Lemma nearly_red n k x l r : rb n l -> rb n r -> nearly n (RED k x l r).
Proof. right. eauto 8. Qed.
Hint Resolve rb_nearly nearly_red : core.

Lemma nearly_inv n k x l r : nearly n (RED k x l r) -> rb n l /\ rb n r.
Proof. intros [H|(k' & x' & l' & r' & H & H1 & H2)]; [inversion H; auto|now inversion H; subst]. Qed.
Lemma nearly_nonred n t : nearly n t -> is_red t = false -> rb n t.
Proof. intros [H|(k' & x' & l' & r' & -> & _)]; [auto|discriminate]. Qed.

Ltac inv H := inversion H; subst; clear H.

Lemma rb_red_inv n k x l r : rb n (RED k x l r) -> rb n l /\ rb n r /\ is_red l = false /\ is_red r = false.
Proof. intros H. inversion H; auto. Qed.
Lemma rb_black_inv n k x l r : rb n (BLACK k x l r) -> exists m, n = S m /\ rb m l /\ rb m r.
Proof. intros H. inversion H; eauto. Qed.
Lemma rb_S_leaf n : rb (S n) LEAF -> False.
Proof. intros H. inversion H. Qed.

Lemma lbalance_elements k x l r : elements (lbalance k x l r) = elements l ++ (k, x) :: elements r.
Proof.
  unfold lbalance. destruct l as [|ky yd l1 l2|ky yd l1 l2]; try reflexivity.
  destruct l1, l2; cbn; repeat (rewrite <- ?app_assoc; cbn); reflexivity.
Qed.
Lemma rbalance_elements k x l r : elements (rbalance k x l r) = elements l ++ (k, x) :: elements r.
Proof.
  unfold rbalance. destruct r as [|ky yd l1 l2|ky yd l1 l2]; try reflexivity.
  destruct l1, l2; cbn; repeat (rewrite <- ?app_assoc; cbn); reflexivity.
Qed.

Lemma lbalance_rb n k x l r : nearly n l -> rb n r -> rb (S n) (lbalance k x l r).
Proof.
  intros Hl Hr. unfold lbalance.
  destruct l as [|ky yd l1 l2|ky yd l1 l2]; try (apply rb_black; auto; apply nearly_nonred; auto).
  destruct l1 as [|k1 x1 l11 l12|k1 x1 l11 l12].
  2: { apply nearly_inv in Hl as [H1 H2]. inv H1. auto. }
  all: destruct l2 as [|k2 x2 l21 l22|k2 x2 l21 l22];
    apply nearly_inv in Hl as [H1 H2]; inv H1; inv H2; auto.
Qed.
Lemma rbalance_rb n k x l r : rb n l -> nearly n r -> rb (S n) (rbalance k x l r).
Proof.
  intros Hl Hr. unfold rbalance.
  destruct r as [|ky yd l1 l2|ky yd l1 l2]; try (apply rb_black; auto; apply nearly_nonred; auto).
  destruct l1 as [|k1 x1 l11 l12|k1 x1 l11 l12];
  destruct l2 as [|k2 x2 l21 l22|k2 x2 l21 l22];
    apply nearly_inv in Hr as [H1 H2]; inv H1; inv H2; auto.
Qed.

Lemma blacken_elements (t : tree) : elements (blacken t) = elements t.
Proof. now destruct t. Qed.
Lemma blacken_rb n t : nearly n t -> exists m, rb m (blacken t) /\ is_red (blacken t) = false.
Proof.
  intros H. destruct t; cbn; [exists n; split; auto; now apply nearly_nonred| |exists n; split; auto; now apply nearly_nonred].
  apply nearly_inv in H as [H1 H2]. exists (S n). auto.
Qed.

(** *** deletion helpers *)
Lemma balleft_spec n k x a b : nearly n a -> rb (S n) b ->
  exists t, balleft k x a b = Ret t /\ elements t = elements a ++ (k, x) :: elements b /\
    nearly (S n) t /\ (is_red b = false -> rb (S n) t).
Proof.
  intros Ha Hb. destruct a as [|ka xa a1 a2|ka xa a1 a2].
  2: { apply nearly_inv in Ha as [H1 H2]. eexists. split; [reflexivity|]. cbn. auto. }
  - apply nearly_nonred in Ha; [|reflexivity]. destruct b as [|kb xb b1 b2|kb xb b1 b2].
    + now apply rb_S_leaf in Hb.
    + apply rb_red_inv in Hb as (B1 & B2 & C1 & C2).
      destruct b1 as [|k1 x1 b11 b12|k1 x1 b11 b12]; [now apply rb_S_leaf in B1|discriminate|].
      destruct b2 as [|k2 x2 b21 b22|k2 x2 b21 b22]; [now apply rb_S_leaf in B2|discriminate|].
      apply rb_black_inv in B1 as (m1 & [= <-] & B11 & B12). apply rb_black_inv in B2 as (m2 & [= <-] & B21 & B22).
      eexists. split; [reflexivity|]. split; [|split; [|discriminate]].
      * cbn [elements]. rewrite rbalance_elements. cbn. repeat (rewrite <- ?app_assoc; cbn). reflexivity.
      * apply nearly_red; auto. apply rbalance_rb; auto.
    + apply rb_black_inv in Hb as (m1 & [= <-] & B1 & B2). eexists. split; [reflexivity|]. split; [now rewrite rbalance_elements|].
      assert (rb (S n) (rbalance k x LEAF (RED kb xb b1 b2))) by (apply rbalance_rb; auto). auto.
  - apply nearly_nonred in Ha; [|reflexivity]. destruct b as [|kb xb b1 b2|kb xb b1 b2].
    + now apply rb_S_leaf in Hb.
    + apply rb_red_inv in Hb as (B1 & B2 & C1 & C2).
      destruct b1 as [|k1 x1 b11 b12|k1 x1 b11 b12]; [now apply rb_S_leaf in B1|discriminate|].
      destruct b2 as [|k2 x2 b21 b22|k2 x2 b21 b22]; [now apply rb_S_leaf in B2|discriminate|].
      apply rb_black_inv in B1 as (m1 & [= <-] & B11 & B12). apply rb_black_inv in B2 as (m2 & [= <-] & B21 & B22).
      eexists. split; [reflexivity|]. split; [|split; [|discriminate]].
      * cbn [elements]. rewrite rbalance_elements. cbn. repeat (rewrite <- ?app_assoc; cbn). reflexivity.
      * apply nearly_red; auto. apply rbalance_rb; auto.
    + apply rb_black_inv in Hb as (m1 & [= <-] & B1 & B2). eexists. split; [reflexivity|]. split; [now rewrite rbalance_elements|].
      assert (rb (S n) (rbalance k x (BLACK ka xa a1 a2) (RED kb xb b1 b2))) by (apply rbalance_rb; auto). auto.
Qed.

Lemma balright_spec n k x a b : rb (S n) a -> nearly n b ->
  exists t, balright k x a b = Ret t /\ elements t = elements a ++ (k, x) :: elements b /\
    nearly (S n) t /\ (is_red a = false -> rb (S n) t).
Proof.
  intros Ha Hb. destruct b as [|kb xb b1 b2|kb xb b1 b2].
  2: { apply nearly_inv in Hb as [H1 H2]. exists (RED k x a (BLACK kb xb b1 b2)).
       split; [destruct a as [|? ? ? [| |]|]; reflexivity|]. cbn. auto. }
  - apply nearly_nonred in Hb; [|reflexivity]. destruct a as [|ka xa a1 a2|ka xa a1 a2].
    + now apply rb_S_leaf in Ha.
    + apply rb_red_inv in Ha as (B1 & B2 & C1 & C2).
      destruct a2 as [|k2 x2 a21 a22|k2 x2 a21 a22]; [now apply rb_S_leaf in B2|discriminate|].
      destruct a1 as [|k1 x1 a11 a12|k1 x1 a11 a12]; [now apply rb_S_leaf in B1|discriminate|].
      apply rb_black_inv in B1 as (m1 & [= <-] & B11 & B12). apply rb_black_inv in B2 as (m2 & [= <-] & B21 & B22).
      eexists. split; [reflexivity|]. split; [|split; [|discriminate]].
      * cbn [elements]. rewrite lbalance_elements. cbn. repeat (rewrite <- ?app_assoc; cbn). reflexivity.
      * apply nearly_red; auto. apply lbalance_rb; auto.
    + apply rb_black_inv in Ha as (m1 & [= <-] & B1 & B2). eexists. split; [reflexivity|]. split; [now rewrite lbalance_elements|].
      assert (rb (S n) (lbalance k x (RED ka xa a1 a2) LEAF)) by (apply lbalance_rb; auto). auto.
  - apply nearly_nonred in Hb; [|reflexivity]. destruct a as [|ka xa a1 a2|ka xa a1 a2].
    + now apply rb_S_leaf in Ha.
    + apply rb_red_inv in Ha as (B1 & B2 & C1 & C2).
      destruct a2 as [|k2 x2 a21 a22|k2 x2 a21 a22]; [now apply rb_S_leaf in B2|discriminate|].
      destruct a1 as [|k1 x1 a11 a12|k1 x1 a11 a12]; [now apply rb_S_leaf in B1|discriminate|].
      apply rb_black_inv in B1 as (m1 & [= <-] & B11 & B12). apply rb_black_inv in B2 as (m2 & [= <-] & B21 & B22).
      eexists. split; [reflexivity|]. split; [|split; [|discriminate]].
      * cbn [elements]. rewrite lbalance_elements. cbn. repeat (rewrite <- ?app_assoc; cbn). reflexivity.
      * apply nearly_red; auto. apply lbalance_rb; auto.
    + apply rb_black_inv in Ha as (m1 & [= <-] & B1 & B2). eexists. split; [reflexivity|]. split; [now rewrite lbalance_elements|].
      assert (rb (S n) (lbalance k x (RED ka xa a1 a2) (BLACK kb xb b1 b2))) by (apply lbalance_rb; auto). auto.
Qed.

Lemma append_spec l : forall r n, rb n l -> rb n r ->
  exists t, append l r = Ret t /\ elements t = elements l ++ elements r /\
    nearly n t /\ (is_red l = false -> is_red r = false -> rb n t).
Proof.
  induction l as [|kx xd a IHa b IHb|kx xd a IHa b IHb].
  - intros r n _ Hr. exists r. cbn. auto.
  - intros r n Hl Hr. destruct r as [|ky yd c d|ky yd c d].
    + cbn. eexists. split; [reflexivity|]. cbn. rewrite app_nil_r. auto.
    + apply rb_red_inv in Hl as (L1 & L2 & L3 & L4). apply rb_red_inv in Hr as (R1 & R2 & R3 & R4).
      destruct (IHb c n) as (bc & E & EL & Hn & Hr); auto.
      specialize (Hr L4 R3). cbn. rewrite E. cbn [bind]. destruct bc as [|kz zd b' c'|kz zd b' c'].
      * eexists. split; [reflexivity|]. split; [|split; [|discriminate]].
        { cbn in *. repeat (rewrite <- ?app_assoc; cbn). do 2 f_equal. rewrite app_assoc, <- EL. reflexivity. }
        { apply nearly_red; auto. }
      * apply rb_red_inv in Hr as (Q1 & Q2 & Q3 & Q4). eexists. split; [reflexivity|]. split; [|split; [|discriminate]].
        { cbn in *. repeat (rewrite <- ?app_assoc; cbn). do 2 f_equal. rewrite app_assoc, <- EL.
          repeat (rewrite <- ?app_assoc; cbn). reflexivity. }
        { apply nearly_red; auto. }
      * eexists. split; [reflexivity|]. split; [|split; [|discriminate]].
        { cbn in *. repeat (rewrite <- ?app_assoc; cbn). do 2 f_equal. rewrite app_assoc, <- EL.
          repeat (rewrite <- ?app_assoc; cbn). reflexivity. }
        { apply nearly_red; auto. }
    + apply rb_red_inv in Hl as (L1 & L2 & L3 & L4).
      destruct (IHb (BLACK ky yd c d) n) as (bc & E & EL & Hn & Hr'); auto.
      specialize (Hr' L4 eq_refl). cbn. rewrite E. cbn [bind].
      eexists. split; [reflexivity|]. split; [|split; [|discriminate]].
      * cbn in *. rewrite EL. now rewrite <- app_assoc.
      * apply nearly_red; auto.
  - intros r. induction r as [|ky yd c IHc d IHd|ky yd c IHc d IHd]; intros n Hl Hr.
    + cbn. eexists. split; [reflexivity|]. cbn. rewrite app_nil_r. auto.
    + apply rb_red_inv in Hr as (R1 & R2 & R3 & R4).
      destruct (IHc n) as (ac & E & EL & Hn & Hr); auto.
      specialize (Hr eq_refl R3). cbn in E |- *. rewrite E. cbn [bind].
      eexists. split; [reflexivity|]. split; [|split; [|discriminate]].
      * cbn in *. rewrite EL. now rewrite <- !app_assoc.
      * apply nearly_red; auto.
    + clear IHc IHd. apply rb_black_inv in Hl as (n0 & -> & L1 & L2).
      apply rb_black_inv in Hr as (m1 & [= <-] & R1 & R2). destruct (IHb c n0) as (bc & E & EL & Hn & Hr); auto.
      cbn. rewrite E. cbn [bind]. destruct bc as [|kz zd b' c'|kz zd b' c'].
      * apply nearly_nonred in Hn; [|reflexivity].
        destruct (balleft_spec n0 kx xd a (BLACK ky yd LEAF d)) as (t & Et & ELt & Hnt & Hrt); auto.
        rewrite Et. eexists. split; [reflexivity|]. split; [|auto].
        rewrite ELt. cbn in *. repeat (rewrite <- ?app_assoc; cbn). do 2 f_equal. rewrite app_assoc, <- EL. reflexivity.
      * apply nearly_inv in Hn as [H1 H6]. eexists. split; [reflexivity|]. split; [|auto].
        cbn in *. repeat (rewrite <- ?app_assoc; cbn). do 2 f_equal. rewrite app_assoc, <- EL.
        repeat (rewrite <- ?app_assoc; cbn). reflexivity.
      * apply nearly_nonred in Hn; [|reflexivity].
        destruct (balleft_spec n0 kx xd a (BLACK ky yd (BLACK kz zd b' c') d)) as (t & Et & ELt & Hnt & Hrt); auto.
        rewrite Et. eexists. split; [reflexivity|]. split; [|auto].
        rewrite ELt. cbn in *. repeat (rewrite <- ?app_assoc; cbn). do 2 f_equal. rewrite app_assoc, <- EL.
        repeat (rewrite <- ?app_assoc; cbn). reflexivity.
Qed.

(** *** heights *)
Fixpoint height (t : tree) : nat :=
  match t with LEAF => O | RED _ _ l r | BLACK _ _ l r => S (Nat.max (height l) (height r)) end.

Lemma rb_height n t : rb n t -> (height t <= 2 * n + (if is_red t then 1 else 0))%nat.
Proof.
  induction 1 as [|n k x l r Hl IHl Hr IHr E1 E2|n k x l r Hl IHl Hr IHr]; cbn [height is_red]; [lia| |].
  - rewrite E1 in IHl. rewrite E2 in IHr. lia.
  - destruct (is_red l), (is_red r); lia.
Qed.
Lemma rb_size n t : rb n t -> (2 ^ n <= length (elements t) + 1)%nat.
Proof.
  induction 1 as [|n k x l r Hl IHl Hr IHr E1 E2|n k x l r Hl IHl Hr IHr]; cbn [elements];
    rewrite ?app_length; cbn [length]; [cbn; lia|lia|].
  rewrite Nat.pow_succ_r'. lia.
Qed.
Lemma rb_balanced n t : rb n t -> is_red t = false ->
  (2 ^ height t <= (length (elements t) + 1) ^ 2)%nat.
Proof.
  intros H Hr. pose proof (rb_height n t H) as Hh. rewrite Hr in Hh. pose proof (rb_size n t H) as Hs.
  transitivity (2 ^ (2 * n))%nat; [apply Nat.pow_le_mono_r; lia|].
  rewrite Nat.mul_comm, Nat.pow_mul_r. now apply Nat.pow_le_mono_l.
Qed.

(** *** traversal with a stack of trees *)
Definition flatl (s : list tree) : list (K * V) := flat_map elements s.
Definition flatr (s : list tree) : list (K * V) := flat_map (fun t => rev (elements t)) s.

Fixpoint wl (t : tree) : nat :=
  match t with
  | LEAF => 1
  | RED _ _ l r | BLACK _ _ l r => (match l with LEAF => 1 | _ => wl l + 3 end) + wl r
  end.
Fixpoint wr (t : tree) : nat :=
  match t with
  | LEAF => 1
  | RED _ _ l r | BLACK _ _ l r => (match r with LEAF => 1 | _ => wr r + 3 end) + wr l
  end.
Fixpoint wls (s : list tree) : nat := match s with [] => O | t :: s => (wl t + wls s)%nat end.
Fixpoint wrs (s : list tree) : nat := match s with [] => O | t :: s => (wr t + wrs s)%nat end.

Lemma wl_pos t : (1 <= wl t)%nat.
Proof. induction t as [|k x l IHl r IHr|k x l IHl r IHr]; cbn; [lia| |]; destruct l; lia. Qed.
Lemma wr_pos t : (1 <= wr t)%nat.
Proof. induction t as [|k x l IHl r IHr|k x l IHl r IHr]; cbn; [lia| |]; destruct r; lia. Qed.
Lemma wl_size t : (wl t <= 4 * size t + 1)%nat.
Proof. induction t as [|k x l IHl r IHr|k x l IHl r IHr]; cbn [wl size]; [lia| |]; destruct l; lia. Qed.
Lemma wr_size t : (wr t <= 4 * size t + 1)%nat.
Proof. induction t as [|k x l IHl r IHr|k x l IHl r IHr]; cbn [wr size]; [lia| |]; destruct r; lia. Qed.
Lemma size_elements (t : tree) : size t = length (elements t).
Proof. induction t; cbn; rewrite ?app_length; cbn; lia. Qed.

Lemma flatl_push t s : flatl (push t s) = elements t ++ flatl s.
Proof. now destruct t. Qed.
Lemma flatr_push t s : flatr (push t s) = rev (elements t) ++ flatr s.
Proof. now destruct t. Qed.
Lemma wls_push t s : (wls (push t s) <= wl t + wls s)%nat.
Proof. destruct t; cbn [push wls]; lia. Qed.
Lemma wrs_push t s : (wrs (push t s) <= wr t + wrs s)%nat.
Proof. destruct t; cbn [push wrs]; lia. Qed.

Lemma getMin_spec R (some : K -> V -> list tree -> outcome R) none : forall fuel stack, (wls stack < fuel)%nat ->
  match flatl stack with
  | [] => getMin fuel stack some none = none
  | (k, x) :: rest => exists stack', flatl stack' = rest /\ (wls stack' <= wls stack)%nat /\
      getMin fuel stack some none = some k x stack'
  end.
Proof.
  induction fuel as [|fuel IH]; intros stack Hw; [lia|].
  destruct stack as [|t rest]; [reflexivity|].
  assert (D : t = LEAF \/ exists k x a b, (elements t = elements a ++ (k, x) :: elements b) /\
     ((a = LEAF /\ wl t = 1 + wl b /\ getMin (S fuel) (t :: rest) some none = some k x (push b rest)) \/
      (wl t = wl a + 3 + wl b /\
       getMin (S fuel) (t :: rest) some none = getMin fuel (pushNode a k x b rest) some none))%nat).
  { destruct t as [|k x a b|k x a b]; [now left| |]; right; exists k, x, a, b; (split; [reflexivity|]);
      (destruct a; [left|right|right]); repeat split; cbn; lia. }
  destruct D as [->|(k & x & a & b & EL & [(E1 & E2 & E3)|(E2 & E3)])].
  - specialize (IH rest). cbn [wls wl] in *. specialize (IH ltac:(lia)).
    change (flatl (LEAF :: rest)) with (flatl rest).
    change (getMin (S fuel) (LEAF :: rest) some none) with (getMin fuel rest some none).
    destruct (flatl rest) as [|[k x] q]; [assumption|]. destruct IH as (s' & H1 & H2 & H3).
    exists s'. repeat split; auto.
  - rewrite E3. subst a. unfold flatl. cbn [flat_map]. fold (flatl rest). rewrite EL. cbn [elements app].
    
    exists (push b rest). repeat split; [rewrite flatl_push; rewrite ?app_nil_r; reflexivity|].
    pose proof (wls_push b rest). cbn [wls]. lia.
  - rewrite E3. specialize (IH (pushNode a k x b rest)).
    assert (W : (wls (pushNode a k x b rest) < wls (t :: rest))%nat).
    { pose proof (wls_push b rest). unfold pushNode. cbn [wls wl]. lia. }
    specialize (IH ltac:(lia)).
    replace (flatl (pushNode a k x b rest)) with (flatl (t :: rest)) in IH.
    2: { unfold pushNode, flatl. cbn [flat_map elements app rev]. rewrite EL. fold (flatl (push b rest)). rewrite flatl_push.
          repeat (rewrite <- ?app_assoc; cbn). reflexivity. }
    destruct (flatl (t :: rest)) as [|[k' x'] q]; [assumption|]. destruct IH as (s' & H1 & H2 & H3).
    exists s'. repeat split; auto. lia.
Qed.

Lemma getMax_spec R (some : K -> V -> list tree -> outcome R) none : forall fuel stack, (wrs stack < fuel)%nat ->
  match flatr stack with
  | [] => getMax fuel stack some none = none
  | (k, x) :: rest => exists stack', flatr stack' = rest /\ (wrs stack' <= wrs stack)%nat /\
      getMax fuel stack some none = some k x stack'
  end.
Proof.
  induction fuel as [|fuel IH]; intros stack Hw; [lia|].
  destruct stack as [|t rest]; [reflexivity|].
  assert (D : t = LEAF \/ exists k x a b, (elements t = elements a ++ (k, x) :: elements b) /\
     ((b = LEAF /\ wr t = 1 + wr a /\ getMax (S fuel) (t :: rest) some none = some k x (push a rest)) \/
      (wr t = wr b + 3 + wr a /\
       getMax (S fuel) (t :: rest) some none = getMax fuel (pushNode b k x a rest) some none))%nat).
  { destruct t as [|k x a b|k x a b]; [now left| |]; right; exists k, x, a, b; (split; [reflexivity|]);
      (destruct b; [left|right|right]); repeat split; cbn; lia. }
  destruct D as [->|(k & x & a & b & EL & [(E1 & E2 & E3)|(E2 & E3)])].
  - specialize (IH rest). cbn [wrs wr] in *. specialize (IH ltac:(lia)).
    change (flatr (LEAF :: rest)) with (flatr rest).
    change (getMax (S fuel) (LEAF :: rest) some none) with (getMax fuel rest some none).
    destruct (flatr rest) as [|[k x] q]; [assumption|]. destruct IH as (s' & H1 & H2 & H3).
    exists s'. repeat split; auto.
  - rewrite E3. subst b. unfold flatr. cbn [flat_map]. fold (flatr rest). rewrite EL. cbn [elements app].
    rewrite rev_app_distr. cbn [rev app].
    exists (push a rest). repeat split; [rewrite flatr_push; reflexivity|].
    pose proof (wrs_push a rest). cbn [wrs]. lia.
  - rewrite E3. specialize (IH (pushNode b k x a rest)).
    assert (W : (wrs (pushNode b k x a rest) < wrs (t :: rest))%nat).
    { pose proof (wrs_push a rest). unfold pushNode. cbn [wrs wr]. lia. }
    specialize (IH ltac:(lia)).
    replace (flatr (pushNode b k x a rest)) with (flatr (t :: rest)) in IH.
    2: { unfold pushNode, flatr. cbn [flat_map elements app rev]. rewrite EL. fold (flatr (push a rest)). rewrite flatr_push.
         rewrite rev_app_distr. cbn [rev]. repeat (rewrite <- ?app_assoc; cbn). reflexivity. }
    destruct (flatr (t :: rest)) as [|[k' x'] q]; [assumption|]. destruct IH as (s' & H1 & H2 & H3).
    exists s'. repeat split; auto. lia.
Qed.

Lemma fold_loop_min B (f : K -> V -> B -> B) g : forall fuel stack acc,
  (wls stack < g)%nat -> (length (flatl stack) < fuel)%nat ->
  fold_loop fuel g (@getMin K V) f stack acc = Ret (fold_left (fun acc p => f (fst p) (snd p) acc) (flatl stack) acc).
Proof.
  induction fuel as [|fuel IH]; intros stack acc Hw Hl; [lia|]. cbn.
  pose proof (getMin_spec B (fun k x stack => fold_loop fuel g (@getMin K V) f stack (f k x acc)) (Ret acc) g stack Hw) as H.
  destruct (flatl stack) as [|[k x] rest]; [assumption|].
  destruct H as (s' & H1 & H2 & H3). rewrite H3. rewrite IH; [now rewrite H1|lia|]. rewrite H1. cbn in Hl. lia.
Qed.
Lemma fold_loop_max B (f : K -> V -> B -> B) g : forall fuel stack acc,
  (wrs stack < g)%nat -> (length (flatr stack) < fuel)%nat ->
  fold_loop fuel g (@getMax K V) f stack acc = Ret (fold_left (fun acc p => f (fst p) (snd p) acc) (flatr stack) acc).
Proof.
  induction fuel as [|fuel IH]; intros stack acc Hw Hl; [lia|]. cbn.
  pose proof (getMax_spec B (fun k x stack => fold_loop fuel g (@getMax K V) f stack (f k x acc)) (Ret acc) g stack Hw) as H.
  destruct (flatr stack) as [|[k x] rest]; [assumption|].
  destruct H as (s' & H1 & H2 & H3). rewrite H3. rewrite IH; [now rewrite H1|lia|]. rewrite H1. cbn in Hl. lia.
Qed.
Lemma appAll_fold B fuel g get (f : K -> V -> B -> B) : forall stack s,
  (forall n R stack some some' none, (forall k x st, some k x st = some' k x st) ->
     get n R stack some none = get n R stack some' none) ->
  appAll_loop fuel g get f stack s = fold_loop fuel g get f stack s.
Proof.
  induction fuel as [|fuel IH]; intros stack s Hext; [reflexivity|]. cbn. apply Hext. intros. now apply IH.
Qed.
Lemma getMin_ext n R stack some some' (none : outcome R) :
  (forall k x st, some k x st = some' k x st) -> @getMin K V n R stack some none = getMin n stack some' none.
Proof.
  intros E. revert stack. induction n as [|n IH]; intros stack; [reflexivity|]. cbn.
  destruct stack as [|[|k x [|? ? ? ?|? ? ? ?] b|k x [|? ? ? ?|? ? ? ?] b] rest]; auto.
Qed.
Lemma getMax_ext n R stack some some' (none : outcome R) :
  (forall k x st, some k x st = some' k x st) -> @getMax K V n R stack some none = getMax n stack some' none.
Proof.
  intros E. revert stack. induction n as [|n IH]; intros stack; [reflexivity|]. cbn.
  destruct stack as [|[|k x a [|? ? ? ?|? ? ? ?]|k x a [|? ? ? ?|? ? ? ?]] rest]; auto.
Qed.

Lemma foldl_spec B (f : K -> V -> B -> B) e (d : dict K V) :
  foldl f e d = Ret (fold_left (fun acc p => f (fst p) (snd p) acc) (elements (fst d)) e).
Proof.
  unfold foldl, fold. rewrite fold_loop_min.
  - cbn. now rewrite app_nil_r.
  - unfold fuel_of. cbn [wls]. pose proof (wl_size (fst d)). lia.
  - cbn. rewrite app_nil_r, <- size_elements. unfold fuel_of. lia.
Qed.
Lemma foldr_spec B (f : K -> V -> B -> B) e (d : dict K V) :
  foldr f e d = Ret (fold_right (fun p acc => f (fst p) (snd p) acc) e (elements (fst d))).
Proof.
  unfold foldr, fold. rewrite fold_loop_max.
  - cbn. rewrite app_nil_r. now rewrite <- fold_left_rev_right, rev_involutive.
  - unfold fuel_of. cbn [wrs]. pose proof (wr_size (fst d)). lia.
  - cbn. rewrite app_nil_r, rev_length, <- size_elements. unfold fuel_of. lia.
Qed.
Lemma listItems_spec (d : dict K V) : listItems d = Ret (elements (fst d)).
Proof.
  unfold listItems. rewrite foldr_spec. f_equal. induction (elements (fst d)) as [|[k x] l IH]; cbn; congruence.
Qed.
Lemma app_spec S (f : K -> V -> S -> S) (d : dict K V) s :
  app f d s = Ret (fold_left (fun s p => f (fst p) (snd p) s) (elements (fst d)) s).
Proof.
  unfold app. rewrite appAll_fold by (intros; now apply getMin_ext). apply foldl_spec.
Qed.
Lemma revapp_spec S (f : K -> V -> S -> S) (d : dict K V) s :
  revapp f d s = Ret (fold_left (fun s p => f (fst p) (snd p) s) (rev (elements (fst d))) s).
Proof.
  unfold revapp. rewrite appAll_fold by (intros; now apply getMax_ext).
  pose proof (foldr_spec S f s d) as H. unfold foldr, fold in H. rewrite H.
  now rewrite <- fold_left_rev_right, rev_involutive.
Qed.
End Structure.

(** ** map and transform *)
Lemma map_elements {K V W} (f : K -> V -> W) t :
  elements (map_loop f t) = List.map (fun p => (fst p, f (fst p) (snd p))) (elements t).
Proof. induction t as [|k x l IHl r IHr|k x l IHl r IHr]; cbn; [reflexivity| |]; now rewrite map_app, IHl, IHr. Qed.
Lemma map_is_red {K V W} (f : K -> V -> W) t : is_red (map_loop f t) = is_red t.
Proof. now destruct t. Qed.
Lemma map_rb {K V W} (f : K -> V -> W) n t : rb n t -> rb n (map_loop f t).
Proof. induction 1; cbn; constructor; rewrite ?map_is_red; auto. Qed.
Lemma transform_map {K V W} (f : V -> W) (t : tree K V) : transform_loop f t = map_loop (fun _ => f) t.
Proof. induction t as [|k x l IHl r IHr|k x l IHl r IHr]; cbn; congruence. Qed.

(** ** Search tree operations *)
Section Search.
Context {K V : Type} (compare : K -> K -> comparison) (TP : total_preorder compare).
Notation tree := (tree K V).
Notation sorted := (StronglySorted (fun e1 e2 : K * V => compare (fst e1) (fst e2) = Lt)).
Notation slookup := (slookup (@fst K V) compare).
Notation sins := (sins (@fst K V) compare).
Notation sdel := (sdel (@fst K V) compare).
Hint Constructors rb : core.
Hint Resolve rb_nearly nearly_red : core.

Lemma bst_inv t : sorted (elements t) ->
  match t with LEAF => True | RED _ _ l r | BLACK _ _ l r => sorted (elements l) /\ sorted (elements r) end.
Proof. destruct t; cbn; auto; intros H; apply sorted_app in H as (H1 & H2 & _); auto. Qed.

Lemma find_loop_spec key (t : tree) : sorted (elements t) ->
  find_loop compare key t = match slookup key (elements t) with Some (_, x) => Ret x | None => Raise NotFound end.
Proof.
  induction t as [|k x l IHl r IHr|k x l IHl r IHr]; intros H; [reflexivity| |];
    cbn [find_loop elements] in *; pose proof H as H'; apply sorted_app in H' as (H1 & H2 & _); auto;
    rewrite (slookup_app fst compare TP) by assumption; cbn [fst]; destruct (compare key k); auto.
Qed.

Lemma ins_spec key data t : sorted (elements t) ->
  elements (fst (ins compare key data t)) = sins (key, data) (elements t) /\
  snd (ins compare key data t) = match slookup key (elements t) with Some _ => false | None => true end.
Proof.
  induction t as [|k x l IHl r IHr|k x l IHl r IHr]; intros H; [split; reflexivity| |];
    cbn [ins elements] in *; pose proof H as H'; apply sorted_app in H' as (H1 & H2 & _); auto;
    rewrite (slookup_app fst compare TP), (sins_app fst compare TP) by assumption; cbn [fst];
    destruct (compare key k) eqn:E.
  - split; reflexivity.
  - destruct (IHl H1) as [E1 E2]. destruct (ins compare key data l); cbn in *. now rewrite E1.
  - destruct (IHr H2) as [E1 E2]. destruct (ins compare key data r); cbn in *. now rewrite E1.
  - split; reflexivity.
  - destruct (IHl H1) as [E1 E2]. destruct (ins compare key data l); cbn in *. now rewrite lbalance_elements, E1.
  - destruct (IHr H2) as [E1 E2]. destruct (ins compare key data r); cbn in *. now rewrite rbalance_elements, E1.
Qed.

Lemma ins_rb key (data : V) t : forall n, rb n t -> nearly n (fst (ins compare key data t)) /\
  (is_red t = false -> rb n (fst (ins compare key data t))).
Proof.
  induction t as [|k x l IHl r IHr|k x l IHl r IHr]; intros n H; cbn [ins].
  - inversion H; subst. cbn. split; [auto|]. intros _. (* a leaf becomes a red node *) constructor; auto.
  - apply rb_red_inv in H as (L1 & L2 & L3 & L4). destruct (compare key k).
    + cbn. split; [auto|discriminate].
    + destruct (IHl n) as [_ I]; auto. specialize (I L3). destruct (ins compare key data l). cbn in *.
      split; [auto|discriminate].
    + destruct (IHr n) as [_ I]; auto. specialize (I L4). destruct (ins compare key data r). cbn in *.
      split; [auto|discriminate].
  - apply rb_black_inv in H as (n0 & -> & L1 & L2). destruct (compare key k).
    + cbn. auto.
    + destruct (IHl n0) as [I _]; auto. destruct (ins compare key data l). cbn in *.
      pose proof (lbalance_rb n0 k x t r I L2). auto.
    + destruct (IHr n0) as [I _]; auto. destruct (ins compare key data r). cbn in *.
      pose proof (rbalance_rb n0 k x l t L1 I). auto.
Qed.

Lemma del_notfound key (t : tree) : sorted (elements t) -> slookup key (elements t) = None ->
  del compare key t = Raise NotFound.
Proof.
  induction t as [|k x l IHl r IHr|k x l IHl r IHr]; intros H HN; [reflexivity| |];
    cbn [del elements] in *; pose proof H as H'; apply sorted_app in H' as (H1 & H2 & _); auto;
    rewrite (slookup_app fst compare TP) in HN by assumption; cbn [fst] in HN; destruct (compare key k);
    try discriminate.
  - now rewrite IHl.
  - now rewrite IHr.
  - now rewrite IHl.
  - now rewrite IHr.
Qed.

Lemma del_spec key (t : tree) : forall n k' v, rb n t -> sorted (elements t) -> slookup key (elements t) = Some (k', v) ->
  exists t', del compare key t = Ret (v, t') /\ elements t' = sdel key (elements t) /\
    (if is_black t then nearly (pred n) t' else rb n t').
Proof.
  induction t as [|k x l IHl r IHr|k x l IHl r IHr]; intros n k' v HR H HF; [discriminate| |];
    cbn [del elements is_black] in *; pose proof H as H'; apply sorted_app in H' as (H1 & H2 & _); auto;
    rewrite (slookup_app fst compare TP) in HF by assumption; rewrite (sdel_app fst compare TP) by assumption;
    cbn [fst] in *;
    [apply rb_red_inv in HR as (L1 & L2 & L3 & L4)|apply rb_black_inv in HR as (n0 & -> & L1 & L2)];
    destruct (compare key k).
  - destruct (append_spec l r n) as (t & E & EL & _ & Hr); auto. rewrite E. cbn. inversion HF; subst. eauto.
  - destruct (IHl n k' v) as (t & E & EL & Hr); auto. rewrite E. cbn [bind].
    destruct l as [|? ? ? ?|kl xl ll lr]; [discriminate HF|discriminate|]. cbn [is_black] in *.
    assert (exists m, n = S m) as [m ->] by (inversion L1; subst; eauto). cbn [pred] in Hr.
    destruct (balleft_spec m k x t r) as (t2 & E2 & EL2 & _ & Hr2); auto. rewrite E2. cbn [bind].
    eexists. split; [reflexivity|]. rewrite EL2, EL. auto.
  - destruct (IHr n k' v) as (t & E & EL & Hr); auto. rewrite E. cbn [bind].
    destruct r as [|? ? ? ?|kl xl ll lr]; [discriminate HF|discriminate|]. cbn [is_black] in *.
    assert (exists m, n = S m) as [m ->] by (inversion L2; subst; eauto). cbn [pred] in Hr.
    destruct (balright_spec m k x l t) as (t2 & E2 & EL2 & _ & Hr2); auto. rewrite E2. cbn [bind].
    eexists. split; [reflexivity|]. rewrite EL2, EL. auto.
  - destruct (append_spec l r n0) as (t & E & EL & Hr & _); auto. rewrite E. cbn. inversion HF; subst. eauto.
  - destruct (IHl n0 k' v) as (t & E & EL & Hr); auto. rewrite E. cbn [bind pred].
    destruct l as [|kl xl ll lr|kl xl ll lr]; [discriminate HF| |]; cbn [is_black] in *.
    + cbn [bind]. eexists. split; [reflexivity|]. cbn [elements]. rewrite EL. auto.
    + assert (exists m, n0 = S m) as [m ->] by (inversion L1; subst; eauto). cbn [pred] in Hr.
      destruct (balleft_spec m k x t r) as (t2 & E2 & EL2 & Hr2 & _); auto. rewrite E2. cbn [bind].
      eexists. split; [reflexivity|]. rewrite EL2, EL. auto.
  - destruct (IHr n0 k' v) as (t & E & EL & Hr); auto. rewrite E. cbn [bind pred].
    destruct r as [|kl xl ll lr|kl xl ll lr]; [discriminate HF| |]; cbn [is_black] in *.
    + cbn [bind]. eexists. split; [reflexivity|]. cbn [elements]. rewrite EL. auto.
    + assert (exists m, n0 = S m) as [m ->] by (inversion L2; subst; eauto). cbn [pred] in Hr.
      destruct (balright_spec m k x l t) as (t2 & E2 & EL2 & Hr2 & _); auto. rewrite E2. cbn [bind].
      eexists. split; [reflexivity|]. rewrite EL2, EL. auto.
Qed.

(** *** the dictionary invariant: [d] represents the abstract map [m] *)
Definition inv (d : dict K V) (m : list (K * V)) : Prop :=
  lists fst compare (elements (fst d)) m /\
  (exists n, rb n (fst d)) /\ is_red (fst d) = false /\
  snd d = Z.of_nat (length m).

Lemma inv_empty : inv mkDict [].
Proof. split; [split; constructor|]. split; [exists O; constructor|]. split; reflexivity. Qed.

Lemma inv_insert d m key data : inv d m -> inv (insert compare d key data) (am_insert fst compare (key, data) m).
Proof.
  intros (L & (n & HR) & Hred & Hn). unfold insert.
  destruct (ins_spec key data (fst d)) as [E1 E2]; [apply L|].
  destruct (ins_rb key data (fst d) n HR) as [HN _].
  destruct (ins compare key data (fst d)) as [t b]. cbn [fst snd] in *.
  destruct (blacken_rb n t HN) as (n' & Hr' & Hred').
  pose proof (lists_insert fst compare TP (key, data) _ _ L) as L'. rewrite <- E1 in L'.
  split; [|split; [eauto|split; [assumption|]]]; cbn [fst snd].
  - now rewrite blacken_elements.
  - rewrite <- (lists_length _ _ _ _ L'), E1. rewrite Hn, E2. rewrite <- (lists_length _ _ _ _ L).
    destruct (slookup key (elements (fst d))) as [e|] eqn:F.
    + rewrite (sins_length_old fst compare (key, data) _ e F). reflexivity.
    + rewrite (sins_length_new fst compare (key, data) _ F) by apply L. lia.
Qed.

Lemma inv_find d m key : inv d m ->
  find compare d key = match am_find fst compare key m with Some (_, x) => Ret x | None => Raise NotFound end.
Proof.
  intros (L & _). unfold find. rewrite find_loop_spec by apply L. now rewrite (lists_find fst compare TP key _ _ L).
Qed.

Lemma inv_remove d m key : inv d m ->
  match am_find fst compare key m with
  | Some (_, x) => exists d', remove compare d key = Ret (d', x) /\ inv d' (am_remove fst compare key m)
  | None => remove compare d key = Raise NotFound
  end.
Proof.
  intros (L & (n & HR) & Hred & Hn). unfold remove.
  rewrite <- (lists_find fst compare TP key _ _ L).
  destruct (slookup key (elements (fst d))) as [[k' x]|] eqn:F.
  - destruct (del_spec key (fst d) n k' x) as (t & E & EL & Hr); auto. { apply L. }
    rewrite E. cbn [bind]. eexists. split; [reflexivity|].
    assert (exists m, nearly m t) as [m' Hn'] by (destruct (is_black (fst d)); eauto).
    destruct (blacken_rb m' t Hn') as (n' & Hr' & Hred').
    pose proof (lists_remove fst compare TP key _ _ L) as L'. rewrite <- EL in L'.
    split; [|split; [eauto|split; [assumption|]]]; cbn [fst snd].
    + now rewrite blacken_elements.
    + rewrite <- (lists_length _ _ _ _ L'), EL, Hn, <- (lists_length _ _ _ _ L).
      rewrite (sdel_length fst compare key (elements (fst d)) (k', x) F). lia.
  - rewrite del_notfound; auto. apply L.
Qed.
End Search.

Lemma lists_map {K V W} (compare : K -> K -> comparison) (f : K -> V -> W) l m :
  lists fst compare l m ->
  lists fst compare (List.map (fun p => (fst p, f (fst p) (snd p))) l) (List.map (fun p => (fst p, f (fst p) (snd p))) m).
Proof.
  intros [S P]. split; [|now apply Permutation_map]. clear P.
  induction S as [|a l S IH F]; cbn; constructor; auto.
  apply Forall_map. eapply Forall_impl; [|exact F]. auto.
Qed.
Lemma inv_map {K V W} (compare : K -> K -> comparison) (f : K -> V -> W) (d : dict K V) m :
  inv compare d m -> inv compare (map f d) (List.map (fun p => (fst p, f (fst p) (snd p))) m).
Proof.
  intros (L & (n & HR) & Hred & Hn). unfold map. split; [|split; [|split]]; cbn [fst snd].
  - rewrite map_elements. now apply lists_map.
  - exists n. now apply map_rb.
  - now rewrite map_is_red.
  - now rewrite map_length.
Qed.
Lemma inv_transform {K V W} (compare : K -> K -> comparison) (f : V -> W) (d : dict K V) m :
  inv compare d m -> inv compare (transform f d) (List.map (fun p => (fst p, f (snd p))) m).
Proof.
  intros H. unfold transform. rewrite transform_map. exact (inv_map compare (fun _ => f) d m H).
Qed.
