(** Proofs about the Rbset model. *)
From Coq Require Import Sorting.Sorted Sorting.Permutation.
From Verif Require Import Base OrderSpec FinMap SetSpec Rbset_Model.

(** ** Structure *)
Section Structure.
Context {A : Type}.
Notation tree := (tree A).

Fixpoint elements (t : tree) : list A :=
  match t with
  | LEAF => []
  | RED k l r | BLACK k l r => elements l ++ k :: elements r
  end.

Definition is_red (t : tree) : bool := match t with RED _ _ _ => true | _ => false end.

(** red-black invariant with black height *)
Inductive rb : nat -> tree -> Prop :=
| rb_leaf : rb 0 LEAF
| rb_red n k l r : rb n l -> rb n r -> is_red l = false -> is_red r = false -> rb n (RED k l r)
| rb_black n k l r : rb n l -> rb n r -> rb (S n) (BLACK k l r).

(** as [rb] except that a red root may have red children *)
Definition nearly (n : nat) (t : tree) : Prop :=
  rb n t \/ exists k l r, t = RED k l r /\ rb n l /\ rb n r.

Hint Constructors rb : core.

Lemma rb_nearly n t : rb n t -> nearly n t.
Proof. now left. Qed.
Lemma nearly_red n k l r : rb n l -> rb n r -> nearly n (RED k l r).
Proof. right. eauto 8. Qed.
Hint Resolve rb_nearly nearly_red : core.

Lemma nearly_inv n k l r : nearly n (RED k l r) -> rb n l /\ rb n r.
Proof. intros [H|(k' & l' & r' & H & H1 & H2)]; [inversion H; auto|now inversion H; subst]. Qed.
Lemma nearly_nonred n t : nearly n t -> is_red t = false -> rb n t.
Proof. intros [H|(k' & l' & r' & -> & _)]; [auto|discriminate]. Qed.

Ltac inv H := inversion H; subst; clear H.

Lemma rb_red_inv n k l r : rb n (RED k l r) -> rb n l /\ rb n r /\ is_red l = false /\ is_red r = false.
Proof. intros H. inversion H; auto. Qed.
Lemma rb_black_inv n k l r : rb n (BLACK k l r) -> exists m, n = S m /\ rb m l /\ rb m r.
Proof. intros H. inversion H; eauto. Qed.
Lemma rb_S_leaf n : rb (S n) LEAF -> False.
Proof. intros H. inversion H. Qed.

Lemma lbalance_elements k l r : elements (lbalance k l r) = elements l ++ k :: elements r.
Proof.
  unfold lbalance. destruct l as [|ky l1 l2|ky l1 l2]; try reflexivity.
  destruct l1, l2; cbn; repeat (rewrite <- ?app_assoc; cbn); reflexivity.
Qed.
Lemma rbalance_elements k l r : elements (rbalance k l r) = elements l ++ k :: elements r.
Proof.
  unfold rbalance. destruct r as [|ky l1 l2|ky l1 l2]; try reflexivity.
  destruct l1, l2; cbn; repeat (rewrite <- ?app_assoc; cbn); reflexivity.
Qed.

Lemma lbalance_rb n k l r : nearly n l -> rb n r -> rb (S n) (lbalance k l r).
Proof.
  intros Hl Hr. unfold lbalance.
  destruct l as [|ky l1 l2|ky l1 l2]; try (apply rb_black; auto; apply nearly_nonred; auto).
  destruct l1 as [|k1 l11 l12|k1 l11 l12].
  2: { apply nearly_inv in Hl as [H1 H2]. inv H1. auto. }
  all: destruct l2 as [|k2 l21 l22|k2 l21 l22];
    apply nearly_inv in Hl as [H1 H2]; inv H1; inv H2; auto.
Qed.
Lemma rbalance_rb n k l r : rb n l -> nearly n r -> rb (S n) (rbalance k l r).
Proof.
  intros Hl Hr. unfold rbalance.
  destruct r as [|ky l1 l2|ky l1 l2]; try (apply rb_black; auto; apply nearly_nonred; auto).
  destruct l1 as [|k1 l11 l12|k1 l11 l12];
  destruct l2 as [|k2 l21 l22|k2 l21 l22];
    apply nearly_inv in Hr as [H1 H2]; inv H1; inv H2; auto.
Qed.

Lemma blacken_elements (t : tree) : elements (blacken t) = elements t.
Proof. now destruct t. Qed.
Lemma blacken_rb n t : nearly n t -> exists m, rb m (blacken t) /\ is_red (blacken t) = false.
Proof.
  intros H. destruct t; cbn; [exists n; split; auto; now apply nearly_nonred| |exists n; split; auto; now apply nearly_nonred].
  apply nearly_inv in H as [H1 H2]. exists (S n). auto.
Qed.

(** *** deletion helpers *)
Lemma balleft_spec n k a b : nearly n a -> rb (S n) b ->
  exists t, balleft k a b = Ret t /\ elements t = elements a ++ k :: elements b /\
    nearly (S n) t /\ (is_red b = false -> rb (S n) t).
Proof.
  intros Ha Hb. destruct a as [|ka a1 a2|ka a1 a2].
  2: { apply nearly_inv in Ha as [H1 H2]. eexists. split; [reflexivity|]. cbn. auto. }
  - apply nearly_nonred in Ha; [|reflexivity]. destruct b as [|kb b1 b2|kb b1 b2].
    + now apply rb_S_leaf in Hb.
    + apply rb_red_inv in Hb as (B1 & B2 & C1 & C2).
      destruct b1 as [|k1 b11 b12|k1 b11 b12]; [now apply rb_S_leaf in B1|discriminate|].
      destruct b2 as [|k2 b21 b22|k2 b21 b22]; [now apply rb_S_leaf in B2|discriminate|].
      apply rb_black_inv in B1 as (m1 & [= <-] & B11 & B12). apply rb_black_inv in B2 as (m2 & [= <-] & B21 & B22).
      eexists. split; [reflexivity|]. split; [|split; [|discriminate]].
      * cbn [elements]. rewrite rbalance_elements. cbn. repeat (rewrite <- ?app_assoc; cbn). reflexivity.
      * apply nearly_red; auto. apply rbalance_rb; auto.
    + apply rb_black_inv in Hb as (m1 & [= <-] & B1 & B2). eexists. split; [reflexivity|]. split; [now rewrite rbalance_elements|].
      assert (rb (S n) (rbalance k LEAF (RED kb b1 b2))) by (apply rbalance_rb; auto). auto.
  - apply nearly_nonred in Ha; [|reflexivity]. destruct b as [|kb b1 b2|kb b1 b2].
    + now apply rb_S_leaf in Hb.
    + apply rb_red_inv in Hb as (B1 & B2 & C1 & C2).
      destruct b1 as [|k1 b11 b12|k1 b11 b12]; [now apply rb_S_leaf in B1|discriminate|].
      destruct b2 as [|k2 b21 b22|k2 b21 b22]; [now apply rb_S_leaf in B2|discriminate|].
      apply rb_black_inv in B1 as (m1 & [= <-] & B11 & B12). apply rb_black_inv in B2 as (m2 & [= <-] & B21 & B22).
      eexists. split; [reflexivity|]. split; [|split; [|discriminate]].
      * cbn [elements]. rewrite rbalance_elements. cbn. repeat (rewrite <- ?app_assoc; cbn). reflexivity.
      * apply nearly_red; auto. apply rbalance_rb; auto.
    + apply rb_black_inv in Hb as (m1 & [= <-] & B1 & B2). eexists. split; [reflexivity|]. split; [now rewrite rbalance_elements|].
      assert (rb (S n) (rbalance k (BLACK ka a1 a2) (RED kb b1 b2))) by (apply rbalance_rb; auto). auto.
Qed.

Lemma balright_spec n k a b : rb (S n) a -> nearly n b ->
  exists t, balright k a b = Ret t /\ elements t = elements a ++ k :: elements b /\
    nearly (S n) t /\ (is_red a = false -> rb (S n) t).
Proof.
  intros Ha Hb. destruct b as [|kb b1 b2|kb b1 b2].
  2: { apply nearly_inv in Hb as [H1 H2]. exists (RED k a (BLACK kb b1 b2)).
       split; [destruct a as [|? ? [| |]|]; reflexivity|]. cbn. auto. }
  - apply nearly_nonred in Hb; [|reflexivity]. destruct a as [|ka a1 a2|ka a1 a2].
    + now apply rb_S_leaf in Ha.
    + apply rb_red_inv in Ha as (B1 & B2 & C1 & C2).
      destruct a2 as [|k2 a21 a22|k2 a21 a22]; [now apply rb_S_leaf in B2|discriminate|].
      destruct a1 as [|k1 a11 a12|k1 a11 a12]; [now apply rb_S_leaf in B1|discriminate|].
      apply rb_black_inv in B1 as (m1 & [= <-] & B11 & B12). apply rb_black_inv in B2 as (m2 & [= <-] & B21 & B22).
      eexists. split; [reflexivity|]. split; [|split; [|discriminate]].
      * cbn [elements]. rewrite lbalance_elements. cbn. repeat (rewrite <- ?app_assoc; cbn). reflexivity.
      * apply nearly_red; auto. apply lbalance_rb; auto.
    + apply rb_black_inv in Ha as (m1 & [= <-] & B1 & B2). eexists. split; [reflexivity|]. split; [now rewrite lbalance_elements|].
      assert (rb (S n) (lbalance k (RED ka a1 a2) LEAF)) by (apply lbalance_rb; auto). auto.
  - apply nearly_nonred in Hb; [|reflexivity]. destruct a as [|ka a1 a2|ka a1 a2].
    + now apply rb_S_leaf in Ha.
    + apply rb_red_inv in Ha as (B1 & B2 & C1 & C2).
      destruct a2 as [|k2 a21 a22|k2 a21 a22]; [now apply rb_S_leaf in B2|discriminate|].
      destruct a1 as [|k1 a11 a12|k1 a11 a12]; [now apply rb_S_leaf in B1|discriminate|].
      apply rb_black_inv in B1 as (m1 & [= <-] & B11 & B12). apply rb_black_inv in B2 as (m2 & [= <-] & B21 & B22).
      eexists. split; [reflexivity|]. split; [|split; [|discriminate]].
      * cbn [elements]. rewrite lbalance_elements. cbn. repeat (rewrite <- ?app_assoc; cbn). reflexivity.
      * apply nearly_red; auto. apply lbalance_rb; auto.
    + apply rb_black_inv in Ha as (m1 & [= <-] & B1 & B2). eexists. split; [reflexivity|]. split; [now rewrite lbalance_elements|].
      assert (rb (S n) (lbalance k (RED ka a1 a2) (BLACK kb b1 b2))) by (apply lbalance_rb; auto). auto.
Qed.

Lemma append_spec l : forall r n, rb n l -> rb n r ->
  exists t, append l r = Ret t /\ elements t = elements l ++ elements r /\
    nearly n t /\ (is_red l = false -> is_red r = false -> rb n t).
Proof.
  induction l as [|kx a IHa b IHb|kx a IHa b IHb].
  - intros r n _ Hr. exists r. cbn. auto.
  - intros r n Hl Hr. destruct r as [|ky c d|ky c d].
    + cbn. eexists. split; [reflexivity|]. cbn. rewrite app_nil_r. auto.
    + apply rb_red_inv in Hl as (L1 & L2 & L3 & L4). apply rb_red_inv in Hr as (R1 & R2 & R3 & R4).
      destruct (IHb c n) as (bc & E & EL & Hn & Hr); auto.
      specialize (Hr L4 R3). cbn. rewrite E. cbn [bind]. destruct bc as [|kz b' c'|kz b' c'].
      * eexists. split; [reflexivity|]. split; [|split; [|discriminate]].
        { cbn in *. repeat (rewrite <- ?app_assoc; cbn). do 2 f_equal. rewrite app_assoc, <- EL. reflexivity. }
        { apply nearly_red; auto. }
      * apply rb_red_inv in Hr as (Q1 & Q2 & Q3 & Q4). eexists. split; [reflexivity|]. split; [|split; [|discriminate]].
        { cbn in *. repeat (rewrite <- ?app_assoc; cbn). do 2 f_equal. rewrite app_assoc, <- EL.
          repeat (rewrite <- ?app_assoc; cbn). reflexivity. }
        { apply nearly_red; auto. }
      * eexists. split; [reflexivity|]. split; [|split; [|discriminate]].
        { cbn in *. repeat (rewrite <- ?app_assoc; cbn). do 2 f_equal. rewrite app_assoc, <- EL.
          repeat (rewrite <- ?app_assoc; cbn). reflexivity. }
        { apply nearly_red; auto. }
    + apply rb_red_inv in Hl as (L1 & L2 & L3 & L4).
      destruct (IHb (BLACK ky c d) n) as (bc & E & EL & Hn & Hr'); auto.
      specialize (Hr' L4 eq_refl). cbn. rewrite E. cbn [bind].
      eexists. split; [reflexivity|]. split; [|split; [|discriminate]].
      * cbn in *. rewrite EL. now rewrite <- app_assoc.
      * apply nearly_red; auto.
  - intros r. induction r as [|ky c IHc d IHd|ky c IHc d IHd]; intros n Hl Hr.
    + cbn. eexists. split; [reflexivity|]. cbn. rewrite app_nil_r. auto.
    + apply rb_red_inv in Hr as (R1 & R2 & R3 & R4).
      destruct (IHc n) as (ac & E & EL & Hn & Hr); auto.
      specialize (Hr eq_refl R3). cbn in E |- *. rewrite E. cbn [bind].
      eexists. split; [reflexivity|]. split; [|split; [|discriminate]].
      * cbn in *. rewrite EL. now rewrite <- !app_assoc.
      * apply nearly_red; auto.
    + clear IHc IHd. apply rb_black_inv in Hl as (n0 & -> & L1 & L2).
      apply rb_black_inv in Hr as (m1 & [= <-] & R1 & R2). destruct (IHb c n0) as (bc & E & EL & Hn & Hr); auto.
      cbn. rewrite E. cbn [bind]. destruct bc as [|kz b' c'|kz b' c'].
      * apply nearly_nonred in Hn; [|reflexivity].
        destruct (balleft_spec n0 kx a (BLACK ky LEAF d)) as (t & Et & ELt & Hnt & Hrt); auto.
        rewrite Et. eexists. split; [reflexivity|]. split; [|auto].
        rewrite ELt. cbn in *. repeat (rewrite <- ?app_assoc; cbn). do 2 f_equal. rewrite app_assoc, <- EL. reflexivity.
      * apply nearly_inv in Hn as [H1 H6]. eexists. split; [reflexivity|]. split; [|auto].
        cbn in *. repeat (rewrite <- ?app_assoc; cbn). do 2 f_equal. rewrite app_assoc, <- EL.
        repeat (rewrite <- ?app_assoc; cbn). reflexivity.
      * apply nearly_nonred in Hn; [|reflexivity].
        destruct (balleft_spec n0 kx a (BLACK ky (BLACK kz b' c') d)) as (t & Et & ELt & Hnt & Hrt); auto.
        rewrite Et. eexists. split; [reflexivity|]. split; [|auto].
        rewrite ELt. cbn in *. repeat (rewrite <- ?app_assoc; cbn). do 2 f_equal. rewrite app_assoc, <- EL.
        repeat (rewrite <- ?app_assoc; cbn). reflexivity.
Qed.

(** *** heights *)
Fixpoint height (t : tree) : nat :=
  match t with LEAF => O | RED _ l r | BLACK _ l r => S (Nat.max (height l) (height r)) end.

Lemma rb_height n t : rb n t -> (height t <= 2 * n + (if is_red t then 1 else 0))%nat.
Proof.
  induction 1 as [|n k l r Hl IHl Hr IHr E1 E2|n k l r Hl IHl Hr IHr]; cbn [height is_red]; [lia| |].
  - rewrite E1 in IHl. rewrite E2 in IHr. lia.
  - destruct (is_red l), (is_red r); lia.
Qed.
Lemma rb_size n t : rb n t -> (2 ^ n <= length (elements t) + 1)%nat.
Proof.
  induction 1 as [|n k l r Hl IHl Hr IHr E1 E2|n k l r Hl IHl Hr IHr]; cbn [elements];
    rewrite ?app_length; cbn [length]; [cbn; lia|lia|].
  rewrite Nat.pow_succ_r'. lia.
Qed.
Lemma rb_balanced n t : rb n t -> is_red t = false ->
  (2 ^ height t <= (length (elements t) + 1) ^ 2)%nat.
Proof.
  intros H Hr. pose proof (rb_height n t H) as Hh. rewrite Hr in Hh. pose proof (rb_size n t H) as Hs.
  transitivity (2 ^ (2 * n))%nat; [apply Nat.pow_le_mono_r; lia|].
  rewrite Nat.mul_comm, Nat.pow_mul_r. now apply Nat.pow_le_mono_l.
Qed.

(** *** traversal with a stack of trees *)
Definition flatl (s : list tree) : list A := flat_map elements s.
Definition flatr (s : list tree) : list A := flat_map (fun t => rev (elements t)) s.

Lemma size_elements (t : tree) : size t = length (elements t).
Proof. induction t; cbn; rewrite ?app_length; cbn; lia. Qed.
Lemma ssize_flatl s : ssize s = length (flatl s).
Proof. induction s as [|t s IH]; cbn; [reflexivity|]. rewrite app_length, size_elements. unfold flatl in IH. lia. Qed.
Lemma flatl_push t s : flatl (push t s) = elements t ++ flatl s.
Proof. now destruct t. Qed.
Lemma flatr_push t s : flatr (push t s) = rev (elements t) ++ flatr s.
Proof. now destruct t. Qed.

Lemma getMin_descend fuel t : forall rest, t <> LEAF ->
  exists x s', elements t ++ flatl rest = x :: flatl s' /\
    forall R (some : A -> list tree -> outcome R) none, getMin_f (S fuel) (t :: rest) some none = some x s'.
Proof.
  induction t as [|k l IHl r IHr|k l IHl r IHr]; intros rest H; [congruence| |].
  - destruct l as [|kl ll lr|kl ll lr].
    + exists k, (push r rest). split; [|reflexivity]. cbn. now rewrite flatl_push.
    + destruct (IHl (pushNode k r rest)) as (x & s' & E1 & E2); [discriminate|].
      exists x, s'. split; [|intros; apply E2]. rewrite <- E1. unfold pushNode.
      change (flatl (BLACK k LEAF LEAF :: push r rest)) with (k :: flatl (push r rest)). rewrite flatl_push.
      cbn. now rewrite <- !app_assoc.
    + destruct (IHl (pushNode k r rest)) as (x & s' & E1 & E2); [discriminate|].
      exists x, s'. split; [|intros; apply E2]. rewrite <- E1. unfold pushNode.
      change (flatl (BLACK k LEAF LEAF :: push r rest)) with (k :: flatl (push r rest)). rewrite flatl_push.
      cbn. now rewrite <- !app_assoc.
  - destruct l as [|kl ll lr|kl ll lr].
    + exists k, (push r rest). split; [|reflexivity]. cbn. now rewrite flatl_push.
    + destruct (IHl (pushNode k r rest)) as (x & s' & E1 & E2); [discriminate|].
      exists x, s'. split; [|intros; apply E2]. rewrite <- E1. unfold pushNode.
      change (flatl (BLACK k LEAF LEAF :: push r rest)) with (k :: flatl (push r rest)). rewrite flatl_push.
      cbn. now rewrite <- !app_assoc.
    + destruct (IHl (pushNode k r rest)) as (x & s' & E1 & E2); [discriminate|].
      exists x, s'. split; [|intros; apply E2]. rewrite <- E1. unfold pushNode.
      change (flatl (BLACK k LEAF LEAF :: push r rest)) with (k :: flatl (push r rest)). rewrite flatl_push.
      cbn. now rewrite <- !app_assoc.
Qed.

Lemma getMax_descend fuel t : forall rest, t <> LEAF ->
  exists x s', rev (elements t) ++ flatr rest = x :: flatr s' /\
    forall R (some : A -> list tree -> outcome R) none, getMax_f (S fuel) (t :: rest) some none = some x s'.
Proof.
  assert (P : forall k l r rest, (exists x s', rev (elements r) ++ flatr (pushNode k l rest) = x :: flatr s' /\
     forall R (some : A -> list tree -> outcome R) none, getMax_f (S fuel) (r :: pushNode k l rest) some none = some x s') ->
     exists x s', rev (elements l ++ k :: elements r) ++ flatr rest = x :: flatr s' /\
     forall R (some : A -> list tree -> outcome R) none, getMax_f (S fuel) (r :: pushNode k l rest) some none = some x s').
  { intros k l r rest (x & s' & E1 & E2). exists x, s'. split; [|intros; apply E2]. rewrite <- E1. unfold pushNode.
    change (flatr (BLACK k LEAF LEAF :: push l rest)) with (k :: flatr (push l rest)). rewrite flatr_push.
    rewrite rev_app_distr. cbn. now rewrite <- !app_assoc. }
  induction t as [|k l IHl r IHr|k l IHl r IHr]; intros rest H; [congruence| |].
  - destruct r as [|kl ll lr|kl ll lr].
    + exists k, (push l rest). split; [|reflexivity]. cbn. rewrite flatr_push, rev_app_distr. reflexivity.
    + apply (P k l (RED kl ll lr) rest). apply IHr. discriminate.
    + apply (P k l (BLACK kl ll lr) rest). apply IHr. discriminate.
  - destruct r as [|kl ll lr|kl ll lr].
    + exists k, (push l rest). split; [|reflexivity]. cbn. rewrite flatr_push, rev_app_distr. reflexivity.
    + apply (P k l (RED kl ll lr) rest). apply IHr. discriminate.
    + apply (P k l (BLACK kl ll lr) rest). apply IHr. discriminate.
Qed.

Lemma getMin_f_spec : forall stack fuel, (length stack < fuel)%nat ->
  match flatl stack with
  | [] => forall R (some : A -> list tree -> outcome R) none, getMin_f fuel stack some none = none
  | x :: rest => exists s', flatl s' = rest /\
      forall R (some : A -> list tree -> outcome R) none, getMin_f fuel stack some none = some x s'
  end.
Proof.
  induction stack as [|t stack IH]; intros fuel Hf; (destruct fuel as [|fuel]; [cbn in Hf; lia|]); [cbn; intros; reflexivity|].
  assert (D : t = LEAF \/ t <> LEAF) by (destruct t; [now left|right; discriminate|right; discriminate]).
  destruct D as [->|D].
  - specialize (IH fuel ltac:(cbn in Hf; lia)). change (flatl (LEAF :: stack)) with (flatl stack).
    destruct (flatl stack); assumption.
  - destruct (getMin_descend fuel t stack D) as (x & s' & E1 & E2).
    change (flatl (t :: stack)) with (elements t ++ flatl stack). rewrite E1. eauto.
Qed.
Lemma getMax_f_spec : forall stack fuel, (length stack < fuel)%nat ->
  match flatr stack with
  | [] => forall R (some : A -> list tree -> outcome R) none, getMax_f fuel stack some none = none
  | x :: rest => exists s', flatr s' = rest /\
      forall R (some : A -> list tree -> outcome R) none, getMax_f fuel stack some none = some x s'
  end.
Proof.
  induction stack as [|t stack IH]; intros fuel Hf; (destruct fuel as [|fuel]; [cbn in Hf; lia|]); [cbn; intros; reflexivity|].
  assert (D : t = LEAF \/ t <> LEAF) by (destruct t; [now left|right; discriminate|right; discriminate]).
  destruct D as [->|D].
  - specialize (IH fuel ltac:(cbn in Hf; lia)). change (flatr (LEAF :: stack)) with (flatr stack).
    destruct (flatr stack); assumption.
  - destruct (getMax_descend fuel t stack D) as (x & s' & E1 & E2).
    change (flatr (t :: stack)) with (rev (elements t) ++ flatr stack). rewrite E1. eauto.
Qed.

(** summary of getMin / getMax / get *)
Lemma getMin_nil stack : flatl stack = [] ->
  forall R (some : A -> list tree -> outcome R) none, getMin stack some none = none.
Proof. intros E. pose proof (getMin_f_spec stack (S (length stack)) ltac:(lia)) as H. rewrite E in H. exact H. Qed.
Lemma getMin_cons stack x rest : flatl stack = x :: rest -> exists s', flatl s' = rest /\
  forall R (some : A -> list tree -> outcome R) none, getMin stack some none = some x s'.
Proof. intros E. pose proof (getMin_f_spec stack (S (length stack)) ltac:(lia)) as H. rewrite E in H. exact H. Qed.
Lemma getMax_nil stack : flatr stack = [] ->
  forall R (some : A -> list tree -> outcome R) none, getMax stack some none = none.
Proof. intros E. pose proof (getMax_f_spec stack (S (length stack)) ltac:(lia)) as H. rewrite E in H. exact H. Qed.
Lemma getMax_cons stack x rest : flatr stack = x :: rest -> exists s', flatr s' = rest /\
  forall R (some : A -> list tree -> outcome R) none, getMax stack some none = some x s'.
Proof. intros E. pose proof (getMax_f_spec stack (S (length stack)) ltac:(lia)) as H. rewrite E in H. exact H. Qed.
Lemma get_nil stack : flatl stack = [] -> get stack = Ret None.
Proof. intros E. unfold get. now rewrite getMin_nil. Qed.
Lemma get_cons stack x rest : flatl stack = x :: rest -> exists s', flatl s' = rest /\ get stack = Ret (Some (x, s')).
Proof. intros E. destruct (getMin_cons stack x rest E) as (s' & H1 & H2). exists s'. split; [assumption|]. apply H2. Qed.

Lemma fold_loop_min B (f : A -> B -> B) : forall fuel stack acc, (length (flatl stack) < fuel)%nat ->
  fold_loop fuel (@getMin A) f stack acc = Ret (fold_left (fun acc x => f x acc) (flatl stack) acc).
Proof.
  induction fuel as [|fuel IH]; intros stack acc Hl; [lia|]. cbn [fold_loop].
  destruct (flatl stack) as [|x rest] eqn:E; [now rewrite getMin_nil|].
  destruct (getMin_cons stack x rest E) as (s' & H1 & H2). rewrite H2, IH; rewrite H1; [reflexivity|cbn in Hl; lia].
Qed.
Lemma fold_loop_max B (f : A -> B -> B) : forall fuel stack acc, (length (flatr stack) < fuel)%nat ->
  fold_loop fuel (@getMax A) f stack acc = Ret (fold_left (fun acc x => f x acc) (flatr stack) acc).
Proof.
  induction fuel as [|fuel IH]; intros stack acc Hl; [lia|]. cbn [fold_loop].
  destruct (flatr stack) as [|x rest] eqn:E; [now rewrite getMax_nil|].
  destruct (getMax_cons stack x rest E) as (s' & H1 & H2). rewrite H2, IH; rewrite H1; [reflexivity|cbn in Hl; lia].
Qed.
Lemma foldl_spec B (f : A -> B -> B) e (d : set A) :
  foldl f e d = Ret (fold_left (fun acc x => f x acc) (elements (fst d)) e).
Proof.
  unfold foldl, fold. rewrite fold_loop_min; rewrite flatl_push; cbn; rewrite app_nil_r; [reflexivity|].
  rewrite size_elements. lia.
Qed.
Lemma foldr_spec B (f : A -> B -> B) e (d : set A) :
  foldr f e d = Ret (fold_right (fun x acc => f x acc) e (elements (fst d))).
Proof.
  unfold foldr, fold. rewrite fold_loop_max; rewrite flatr_push; cbn; rewrite app_nil_r.
  - now rewrite <- fold_left_rev_right, rev_involutive.
  - rewrite size_elements, rev_length. lia.
Qed.
Lemma listItems_spec (d : set A) : listItems d = Ret (elements (fst d)).
Proof.
  unfold listItems. rewrite foldr_spec. f_equal. induction (elements (fst d)) as [|x l IH]; cbn; congruence.
Qed.
Lemma app_loop_min S (f : A -> S -> S) : forall fuel stack s, (length (flatl stack) < fuel)%nat ->
  appAll_loop fuel (@getMin A) f stack s = Ret (fold_left (fun acc x => f x acc) (flatl stack) s).
Proof.
  induction fuel as [|fuel IH]; intros stack acc Hl; [lia|]. cbn [appAll_loop].
  destruct (flatl stack) as [|x rest] eqn:E; [now rewrite getMin_nil|].
  destruct (getMin_cons stack x rest E) as (s' & H1 & H2). rewrite H2, IH; rewrite H1; [reflexivity|cbn in Hl; lia].
Qed.
Lemma app_loop_max S (f : A -> S -> S) : forall fuel stack s, (length (flatr stack) < fuel)%nat ->
  appAll_loop fuel (@getMax A) f stack s = Ret (fold_left (fun acc x => f x acc) (flatr stack) s).
Proof.
  induction fuel as [|fuel IH]; intros stack acc Hl; [lia|]. cbn [appAll_loop].
  destruct (flatr stack) as [|x rest] eqn:E; [now rewrite getMax_nil|].
  destruct (getMax_cons stack x rest E) as (s' & H1 & H2). rewrite H2, IH; rewrite H1; [reflexivity|cbn in Hl; lia].
Qed.
Lemma app_spec S (f : A -> S -> S) (d : set A) s :
  app f d s = Ret (fold_left (fun s x => f x s) (elements (fst d)) s).
Proof.
  unfold app. rewrite app_loop_min; cbn; rewrite app_nil_r; [reflexivity|]. rewrite size_elements. lia.
Qed.
Lemma revapp_spec S (f : A -> S -> S) (d : set A) s :
  revapp f d s = Ret (fold_left (fun s x => f x s) (rev (elements (fst d))) s).
Proof.
  unfold revapp. rewrite app_loop_max; cbn; rewrite app_nil_r; [reflexivity|]. rewrite size_elements, rev_length. lia.
Qed.
Lemma find_loop_spec p : forall fuel stack, (length (flatl stack) < fuel)%nat ->
  find_loop fuel p stack = Ret (List.find p (flatl stack)).
Proof.
  induction fuel as [|fuel IH]; intros stack Hl; [lia|]. cbn [find_loop].
  destruct (flatl stack) as [|x rest] eqn:E; [now rewrite getMin_nil|].
  destruct (getMin_cons stack x rest E) as (s' & H1 & H2). rewrite H2. cbn. destruct (p x); [reflexivity|].
  rewrite IH; rewrite H1; [reflexivity|cbn in Hl; lia].
Qed.
Lemma find_spec p (d : set A) : find p d = Ret (List.find p (elements (fst d))).
Proof.
  unfold find. rewrite find_loop_spec; rewrite flatl_push; cbn; rewrite app_nil_r; [reflexivity|].
  rewrite size_elements. lia.
Qed.

Lemma min_spec (d : set A) : min d = hd_error (elements (fst d)).
Proof.
  unfold min. generalize (fst d). intros t.
  induction t as [|k l IHl r IHr|k l IHl r IHr]; [reflexivity| |];
    (destruct l as [|kl ll lr|kl ll lr]; [reflexivity| |]);
    cbn [min_h elements] in *; rewrite IHl; repeat rewrite <- app_assoc; cbn [Datatypes.app];
    destruct (elements ll); reflexivity.
Qed.
Lemma hd_error_app_r (l r : list A) k : hd_error (l ++ k :: r) <> None.
Proof. destruct l; discriminate. Qed.
Lemma last_app_cons (l r : list A) k d : last (l ++ k :: r) d = last (k :: r) d.
Proof. induction l as [|a l IH]; [reflexivity|]. cbn [Datatypes.app last]. rewrite IH. destruct l; reflexivity. Qed.
Definition last_error (l : list A) : option A := hd_error (rev l).
Lemma max_spec (d : set A) : max d = last_error (elements (fst d)).
Proof.
  unfold max, last_error. generalize (fst d). intros t.
  induction t as [|k l IHl r IHr|k l IHl r IHr]; [reflexivity| |];
    (destruct r as [|kl ll lr|kl ll lr]; [cbn; now rewrite rev_app_distr| |]);
    cbn [max_h elements] in *; rewrite IHr; rewrite !rev_app_distr; cbn [rev];
    repeat rewrite <- app_assoc; cbn [Datatypes.app];
    rewrite ?rev_app_distr; cbn [rev]; repeat rewrite <- app_assoc; destruct (rev (elements lr)); reflexivity.
Qed.
Lemma depth_height (t : tree) : depth_h t = Z.of_nat (height t).
Proof. induction t as [|k l IHl r IHr|k l IHl r IHr]; cbn [depth_h height]; lia. Qed.

(** *** building trees from sorted lists *)
Fixpoint contents (d : digits A) : list A :=
  match d with
  | ZERO => []
  | ONE x a ds => contents ds ++ elements a ++ [x]
  | TWO y b x a ds => contents ds ++ elements a ++ x :: elements b ++ [y]
  end.
Definition full (n : nat) (t : tree) : Prop :=
  rb n t /\ is_red t = false /\ length (elements t) = (2 ^ n - 1)%nat.
Fixpoint dinv (n : nat) (d : digits A) : Prop :=
  match d with
  | ZERO => True
  | ONE x a ds => full n a /\ dinv (S n) ds
  | TWO y b x a ds => full n b /\ full n a /\ dinv (S n) ds
  end.

Lemma pow2_pos n : (1 <= 2 ^ n)%nat.
Proof. induction n; cbn; lia. Qed.
Lemma full_black n x a b : full n a -> full n b -> full (S n) (BLACK x a b).
Proof.
  intros (R1 & C1 & L1) (R2 & C2 & L2). repeat split; [now constructor|].
  cbn [elements]. rewrite app_length. cbn [length]. rewrite Nat.pow_succ_r'.
  pose proof (pow2_pos n). lia.
Qed.
Lemma incr_spec d : forall n x a, full n a -> dinv n d ->
  dinv n (incr x a d) /\ contents (incr x a d) = contents d ++ elements a ++ [x].
Proof.
  induction d as [|y b ds IH|y b x' a' ds IH]; intros n x a Ha Hd.
  - split; [split; auto|]. reflexivity.
  - destruct Hd as [Hb Hd]. split; [split; auto|]. cbn. repeat (rewrite <- ?app_assoc; cbn). reflexivity.
  - destruct Hd as (Hb & Ha' & Hd). destruct (IH (S n) y (BLACK x' a' b)) as [I1 I2]; auto using full_black.
    split; [split; auto|]. cbn. rewrite I2. cbn. repeat (rewrite <- ?app_assoc; cbn). reflexivity.
Qed.
Lemma full_leaf : full 0 LEAF.
Proof. repeat split; constructor. Qed.
Lemma insertMax_spec x d : dinv 0 d -> dinv 0 (insertMax x d) /\ contents (insertMax x d) = contents d ++ [x].
Proof. intros H. apply (incr_spec d 0 x LEAF full_leaf H). Qed.

Lemma build_spec d : forall n b, dinv n d -> rb n b -> is_red b = false ->
  elements (build d b) = contents d ++ elements b /\
  (exists m, rb m (build d b)) /\ is_red (build d b) = false.
Proof.
  induction d as [|x a ds IH|y b' x a ds IH]; intros n b Hd Hb Hc.
  - cbn. eauto.
  - destruct Hd as [(R & C & _) Hd]. destruct (IH (S n) (BLACK x a b)) as (I1 & I2); auto.
    split; [|assumption]. cbn [build contents]. rewrite I1. cbn. repeat (rewrite <- ?app_assoc; cbn). reflexivity.
  - destruct Hd as ((R & C & _) & (R' & C' & _) & Hd).
    destruct (IH (S n) (BLACK x a (RED y b' b))) as (I1 & I2); auto.
    split; [|assumption]. cbn [build contents]. rewrite I1. cbn. repeat (rewrite <- ?app_assoc; cbn). reflexivity.
Qed.
Lemma toInt_loop_spec d : forall n acc, dinv n d ->
  toInt_loop d (2 ^ Z.of_nat n) acc = acc + Z.of_nat (length (contents d)).
Proof.
  induction d as [|x a ds IH|y b' x a ds IH]; intros n acc Hd; cbn [toInt_loop contents].
  - cbn. lia.
  - destruct Hd as [(_ & _ & L) Hd].
    replace (2 * 2 ^ Z.of_nat n) with (2 ^ Z.of_nat (S n)) by (rewrite Nat2Z.inj_succ, Z.pow_succ_r; lia).
    rewrite IH by assumption. rewrite !app_length, L. cbn [length]. pose proof (pow2_pos n).
    replace (2 ^ Z.of_nat n) with (Z.of_nat (2 ^ n)%nat) by (now rewrite Nat2Z.inj_pow). lia.
  - destruct Hd as ((_ & _ & L) & (_ & _ & L') & Hd).
    replace (2 * 2 ^ Z.of_nat n) with (2 ^ Z.of_nat (S n)) by (rewrite Nat2Z.inj_succ, Z.pow_succ_r; lia).
    rewrite IH by assumption. rewrite !app_length. cbn [length]. rewrite app_length, L, L'. cbn [length]. pose proof (pow2_pos n).
    replace (2 ^ Z.of_nat (S n)) with (Z.of_nat (2 ^ (S n))%nat) by (now rewrite Nat2Z.inj_pow).
    rewrite Nat.pow_succ_r'. lia.
Qed.
Lemma finish_spec d : dinv 0 d -> elements (fst (finish d)) = contents d /\
  (exists m, rb m (fst (finish d))) /\ is_red (fst (finish d)) = false /\
  snd (finish d) = Z.of_nat (length (contents d)).
Proof.
  intros H. unfold finish, buildAll, toInt. cbn [fst snd].
  destruct (build_spec d 0 LEAF) as (I1 & I2 & I3); auto. rewrite I1, app_nil_r.
  repeat split; auto. change 1 with (2 ^ Z.of_nat 0). now rewrite toInt_loop_spec.
Qed.
Lemma insertAll_spec ls : forall d, dinv 0 d ->
  dinv 0 (fold_left (fun d x => insertMax x d) ls d) /\
  contents (fold_left (fun d x => insertMax x d) ls d) = contents d ++ ls.
Proof.
  induction ls as [|x ls IH]; intros d Hd; cbn; [now rewrite app_nil_r|].
  destruct (insertMax_spec x d Hd) as [I1 I2]. destruct (IH _ I1) as [J1 J2]. split; [assumption|].
  rewrite J2, I2. now rewrite <- app_assoc.
Qed.
Lemma insRest_f_spec : forall fuel stack d, dinv 0 d -> (length (flatl stack) < fuel)%nat ->
  exists d', insRest_f fuel stack d = Ret d' /\ dinv 0 d' /\ contents d' = contents d ++ flatl stack.
Proof.
  induction fuel as [|fuel IH]; intros stack d Hd Hl; [lia|]. cbn [insRest_f].
  destruct (flatl stack) as [|x rest] eqn:E.
  - rewrite getMin_nil by assumption. rewrite app_nil_r. eauto.
  - destruct (getMin_cons stack x rest E) as (s' & H1 & H2). rewrite H2.
    destruct (insertMax_spec x d Hd) as [I1 I2].
    destruct (IH s' (insertMax x d) I1) as (d' & J1 & J2 & J3); [rewrite H1; cbn in Hl; lia|].
    exists d'. repeat split; auto. rewrite J3, I2, H1. now rewrite <- app_assoc.
Qed.
Lemma insRest_spec stack d : dinv 0 d ->
  exists d', insRest stack d = Ret d' /\ dinv 0 d' /\ contents d' = contents d ++ flatl stack.
Proof. intros H. apply insRest_f_spec; auto. rewrite ssize_flatl. lia. Qed.
End Structure.

Section Search.
Context {A : Type} (compare : A -> A -> comparison) (TP : total_preorder compare).
Notation tree := (tree A).
Notation sorted := (StronglySorted (fun x y => compare x y = Lt)).
Notation slookup := (slookup (fun x : A => x) compare).
Notation sins := (sins (fun x : A => x) compare).
Notation sdel := (sdel (fun x : A => x) compare).
Hint Constructors rb : core.
Hint Resolve rb_nearly nearly_red : core.

Lemma mem_spec key (t : tree) : sorted (elements t) ->
  mem compare key t = match slookup key (elements t) with Some _ => true | None => false end.
Proof.
  induction t as [|k l IHl r IHr|k l IHl r IHr]; intros H; [reflexivity| |];
    cbn [mem elements] in *; pose proof H as H'; apply (sorted_app (fun x : A => x)) in H' as (H1 & H2 & _); auto;
    rewrite (slookup_app (fun x : A => x) compare TP) by assumption; destruct (compare key k); auto.
Qed.

Lemma ins_spec key (t : tree) : sorted (elements t) ->
  match ins compare key t with
  | Some t' => slookup key (elements t) = None /\ elements t' = sins key (elements t)
  | None => exists y, slookup key (elements t) = Some y
  end.
Proof.
  induction t as [|k l IHl r IHr|k l IHl r IHr]; intros H; [split; reflexivity| |];
    cbn [ins elements] in *; pose proof H as H'; apply (sorted_app (fun x : A => x)) in H' as (H1 & H2 & _); auto;
    rewrite (slookup_app (fun x : A => x) compare TP), (sins_app (fun x : A => x) compare TP) by assumption;
    destruct (compare key k) eqn:E.
  - eauto.
  - specialize (IHl H1). destruct (ins compare key l); [|assumption]. destruct IHl as [I1 I2]. split; [assumption|]. cbn. now rewrite I2.
  - specialize (IHr H2). destruct (ins compare key r); [|assumption]. destruct IHr as [I1 I2]. split; [assumption|]. cbn. now rewrite I2.
  - eauto.
  - specialize (IHl H1). destruct (ins compare key l); [|assumption]. destruct IHl as [I1 I2]. split; [assumption|]. now rewrite lbalance_elements, I2.
  - specialize (IHr H2). destruct (ins compare key r); [|assumption]. destruct IHr as [I1 I2]. split; [assumption|]. now rewrite rbalance_elements, I2.
Qed.

Lemma ins_rb key (t : tree) : forall n t', rb n t -> ins compare key t = Some t' -> nearly n t' /\
  (is_red t = false -> rb n t').
Proof.
  induction t as [|k l IHl r IHr|k l IHl r IHr]; intros n t' H HI; cbn [ins] in HI.
  - inversion H; subst. injection HI as <-. split; [auto|]. intros _. constructor; auto.
  - apply rb_red_inv in H as (L1 & L2 & L3 & L4). destruct (compare key k).
    + discriminate.
    + destruct (ins compare key l) as [l'|]; [|discriminate]. injection HI as <-.
      destruct (IHl n l') as [_ I]; auto. split; [auto|discriminate].
    + destruct (ins compare key r) as [r'|]; [|discriminate]. injection HI as <-.
      destruct (IHr n r') as [_ I]; auto. split; [auto|discriminate].
  - apply rb_black_inv in H as (n0 & -> & L1 & L2). destruct (compare key k).
    + discriminate.
    + destruct (ins compare key l) as [l'|]; [|discriminate]. injection HI as <-.
      destruct (IHl n0 l') as [I _]; auto. pose proof (lbalance_rb n0 k l' r I L2). auto.
    + destruct (ins compare key r) as [r'|]; [|discriminate]. injection HI as <-.
      destruct (IHr n0 r') as [I _]; auto. pose proof (rbalance_rb n0 k l r' L1 I). auto.
Qed.

Lemma del_notfound key (t : tree) : sorted (elements t) -> slookup key (elements t) = None ->
  del compare key t = Raise NotFound.
Proof.
  induction t as [|k l IHl r IHr|k l IHl r IHr]; intros H HN; [reflexivity| |];
    cbn [del elements] in *; pose proof H as H'; apply (sorted_app (fun x : A => x)) in H' as (H1 & H2 & _); auto;
    rewrite (slookup_app (fun x : A => x) compare TP) in HN by assumption; destruct (compare key k);
    try discriminate.
  - now rewrite IHl.
  - now rewrite IHr.
  - now rewrite IHl.
  - now rewrite IHr.
Qed.

Lemma del_spec key (t : tree) : forall n v, rb n t -> sorted (elements t) -> slookup key (elements t) = Some v ->
  exists t', del compare key t = Ret t' /\ elements t' = sdel key (elements t) /\
    (if is_black t then nearly (pred n) t' else rb n t').
Proof.
  induction t as [|k l IHl r IHr|k l IHl r IHr]; intros n v HR H HF; [discriminate| |];
    cbn [del elements is_black] in *; pose proof H as H'; apply (sorted_app (fun x : A => x)) in H' as (H1 & H2 & _); auto;
    rewrite (slookup_app (fun x : A => x) compare TP) in HF by assumption; rewrite (sdel_app (fun x : A => x) compare TP) by assumption;
    [apply rb_red_inv in HR as (L1 & L2 & L3 & L4)|apply rb_black_inv in HR as (n0 & -> & L1 & L2)];
    destruct (compare key k).
  - destruct (append_spec l r n) as (t & E & EL & _ & Hr); auto. rewrite E. eauto.
  - destruct (IHl n v) as (t & E & EL & Hr); auto. rewrite E. cbn [bind].
    destruct l as [|? ? ?|kl ll lr]; [discriminate HF|discriminate|]. cbn [is_black] in *.
    assert (exists m, n = S m) as [m ->] by (inversion L1; subst; eauto). cbn [pred] in Hr.
    destruct (balleft_spec m k t r) as (t2 & E2 & EL2 & _ & Hr2); auto. rewrite E2.
    eexists. split; [reflexivity|]. rewrite EL2, EL. auto.
  - destruct (IHr n v) as (t & E & EL & Hr); auto. rewrite E. cbn [bind].
    destruct r as [|? ? ?|kl ll lr]; [discriminate HF|discriminate|]. cbn [is_black] in *.
    assert (exists m, n = S m) as [m ->] by (inversion L2; subst; eauto). cbn [pred] in Hr.
    destruct (balright_spec m k l t) as (t2 & E2 & EL2 & _ & Hr2); auto. rewrite E2.
    eexists. split; [reflexivity|]. rewrite EL2, EL. auto.
  - destruct (append_spec l r n0) as (t & E & EL & Hr & _); auto. rewrite E. eauto.
  - destruct (IHl n0 v) as (t & E & EL & Hr); auto. rewrite E. cbn [bind pred].
    destruct l as [|kl ll lr|kl ll lr]; [discriminate HF| |]; cbn [is_black] in *.
    + eexists. split; [reflexivity|]. cbn [elements]. rewrite EL. auto.
    + assert (exists m, n0 = S m) as [m ->] by (inversion L1; subst; eauto). cbn [pred] in Hr.
      destruct (balleft_spec m k t r) as (t2 & E2 & EL2 & Hr2 & _); auto. rewrite E2.
      eexists. split; [reflexivity|]. rewrite EL2, EL. auto.
  - destruct (IHr n0 v) as (t & E & EL & Hr); auto. rewrite E. cbn [bind pred].
    destruct r as [|kl ll lr|kl ll lr]; [discriminate HF| |]; cbn [is_black] in *.
    + eexists. split; [reflexivity|]. cbn [elements]. rewrite EL. auto.
    + assert (exists m, n0 = S m) as [m ->] by (inversion L2; subst; eauto). cbn [pred] in Hr.
      destruct (balright_spec m k l t) as (t2 & E2 & EL2 & Hr2 & _); auto. rewrite E2.
      eexists. split; [reflexivity|]. rewrite EL2, EL. auto.
Qed.

(** *** the set invariant: [d] represents the abstract set [s] *)
Definition inv (d : set A) (s : list A) : Prop :=
  set_lists compare (elements (fst d)) s /\
  (exists n, rb n (fst d)) /\ is_red (fst d) = false /\
  snd d = Z.of_nat (length s).

Lemma inv_sorted d s : inv d s -> sorted (elements (fst d)).
Proof. intros ((S & _) & _). exact S. Qed.
Lemma inv_empty : inv empty [].
Proof. split; [split; constructor|]. split; [exists O; constructor|]. split; reflexivity. Qed.
Lemma inv_singleton x : inv (singleton x) [x].
Proof.
  split; [split; repeat constructor|]. split; [exists 1%nat; repeat constructor|]. split; reflexivity.
Qed.
Lemma inv_finish d s : dinv 0 d -> set_lists compare (contents d) s -> inv (finish d) s.
Proof.
  intros H L. destruct (finish_spec d H) as (E1 & E2 & E3 & E4). split; [now rewrite E1|].
  split; [assumption|]. split; [assumption|]. rewrite E4. f_equal. eapply set_lists_length; eauto.
Qed.
Lemma inv_add d s x : inv d s -> inv (add compare d x) (set_add compare x s).
Proof.
  intros (L & (n & HR) & Hred & Hn). unfold add.
  pose proof (ins_spec x (fst d) (proj1 L)) as HI. pose proof (ins_rb x (fst d) n) as HB.
  destruct (ins compare x (fst d)) as [t|].
  - destruct HI as [HN EL]. destruct (HB t HR eq_refl) as [Hne _]. destruct (blacken_rb n t Hne) as (m & Hm & Hr).
    split; [|split; [eauto|split; [assumption|]]]; cbn [fst snd].
    + rewrite blacken_elements, EL. now apply set_lists_add.
    + unfold set_add. rewrite (set_mem_slookup compare TP x _ _ L), HN. cbn [length]. lia.
  - destruct HI as [y Hy]. assert (M : set_add compare x s = s).
    { unfold set_add. now rewrite (set_mem_slookup compare TP x _ _ L), Hy. }
    rewrite M. split; [assumption|]. eauto.
Qed.
Lemma inv_addList xs : forall d s, inv d s -> inv (addList compare d xs) (fold_left (fun s x => set_add compare x s) xs s).
Proof.
  unfold addList. induction xs as [|x xs IH]; intros d s H; [assumption|]. cbn. apply IH. now apply inv_add.
Qed.
Lemma inv_member d s x : inv d s -> member compare d x = set_mem compare x s.
Proof.
  intros (L & _). unfold member. rewrite mem_spec by apply L. now rewrite (set_mem_slookup compare TP x _ _ L).
Qed.
Lemma inv_delete d s x : inv d s ->
  if set_mem compare x s then exists d', delete compare d x = Ret d' /\ inv d' (set_delete compare x s)
  else delete compare d x = Raise NotFound.
Proof.
  intros (L & (n & HR) & Hred & Hn). unfold delete. rewrite (set_mem_slookup compare TP x _ _ L).
  destruct (slookup x (elements (fst d))) as [v|] eqn:F.
  - destruct (del_spec x (fst d) n v) as (t & E & EL & Hr); auto. { apply L. }
    rewrite E. cbn [bind]. eexists. split; [reflexivity|].
    assert (exists m, nearly m t) as [m' Hn'] by (destruct (is_black (fst d)); eauto).
    destruct (blacken_rb m' t Hn') as (n' & Hr' & Hred').
    pose proof (set_lists_delete compare TP x _ _ L) as L'. rewrite <- EL in L'.
    split; [|split; [eauto|split; [assumption|]]]; cbn [fst snd].
    + now rewrite blacken_elements.
    + rewrite <- (set_lists_length _ _ _ L'), EL, Hn, <- (set_lists_length _ _ _ L).
      rewrite (sdel_length (fun x : A => x) compare x (elements (fst d)) v F). lia.
  - rewrite del_notfound; auto. apply L.
Qed.
Lemma inv_isEmpty d s : inv d s -> isEmpty d = match s with [] => true | _ => false end.
Proof.
  intros ([S P] & _). unfold isEmpty. destruct (fst d) as [|k l r|k l r]; cbn in P.
  - apply Permutation_nil in P. now subst.
  - destruct s; [|reflexivity]. apply Permutation_sym, Permutation_nil in P. now destruct (elements l).
  - destruct s; [|reflexivity]. apply Permutation_sym, Permutation_nil in P. now destruct (elements l).
Qed.

(** *** binary operations *)
Lemma union_loop_spec : forall fuel x y s1 s2 d, dinv 0 d ->
  (length (flatl s1) + length (flatl s2) < fuel)%nat ->
  exists d', union_loop compare fuel x y s1 s2 d = Ret d' /\ dinv 0 d' /\
    contents d' = contents d ++ smerge compare (x :: flatl s1) (y :: flatl s2).
Proof.
  induction fuel as [|fuel IH]; intros x y s1 s2 d Hd Hf; [lia|]. cbn [union_loop]. rewrite smerge_cons.
  destruct (insertMax_spec x d Hd) as [Ix1 Ix2]. destruct (insertMax_spec y d Hd) as [Iy1 Iy2].
  destruct (compare x y) eqn:E.
  - destruct (flatl s1) as [|x1 r1] eqn:E1.
    + rewrite (get_nil s1 E1). cbn [bind]. destruct (flatl s2) as [|y2 r2] eqn:E2.
      * rewrite (get_nil s2 E2). cbn [bind]. eexists. repeat split; eauto.
      * destruct (get_cons s2 y2 r2 E2) as (s2' & F2 & G2). rewrite G2. cbn [bind].
        destruct (insRest_spec s2 _ Ix1) as (d' & J1 & J2 & J3). exists d'. repeat split; auto.
        rewrite J3, Ix2, E2. now rewrite <- app_assoc.
    + destruct (get_cons s1 x1 r1 E1) as (s1' & F1 & G1). rewrite G1. cbn [bind].
      destruct (flatl s2) as [|y2 r2] eqn:E2.
      * rewrite (get_nil s2 E2). cbn [bind].
        destruct (insRest_spec s1 _ Ix1) as (d' & J1 & J2 & J3). exists d'. repeat split; auto.
        rewrite J3, Ix2, E1. rewrite smerge_nil_r. now rewrite <- app_assoc.
      * destruct (get_cons s2 y2 r2 E2) as (s2' & F2 & G2). rewrite G2. cbn [bind].
        destruct (IH x1 y2 s1' s2' _ Ix1) as (d' & J1 & J2 & J3); [rewrite F1, F2; cbn in Hf; lia|].
        exists d'. repeat split; auto. rewrite J3, Ix2, F1, F2. now rewrite <- app_assoc.
  - destruct (flatl s1) as [|x1 r1] eqn:E1.
    + rewrite (get_nil s1 E1). cbn [bind].
      destruct (insertMax_spec y _ Ix1) as [Ixy1 Ixy2].
      destruct (insRest_spec s2 _ Ixy1) as (d' & J1 & J2 & J3). exists d'. repeat split; auto.
      rewrite J3, Ixy2, Ix2. cbn. now rewrite <- !app_assoc.
    + destruct (get_cons s1 x1 r1 E1) as (s1' & F1 & G1). rewrite G1. cbn [bind].
      destruct (IH x1 y s1' s2 _ Ix1) as (d' & J1 & J2 & J3); [rewrite F1; cbn in Hf; lia|].
      exists d'. repeat split; auto. rewrite J3, Ix2, F1. now rewrite <- app_assoc.
  - destruct (flatl s2) as [|y2 r2] eqn:E2.
    + rewrite (get_nil s2 E2). cbn [bind].
      destruct (insertMax_spec x _ Iy1) as [Ixy1 Ixy2].
      destruct (insRest_spec s1 _ Ixy1) as (d' & J1 & J2 & J3). exists d'. repeat split; auto.
      rewrite J3, Ixy2, Iy2. rewrite smerge_nil_r. now rewrite <- !app_assoc.
    + destruct (get_cons s2 y2 r2 E2) as (s2' & F2 & G2). rewrite G2. cbn [bind].
      destruct (IH x y2 s1 s2' _ Iy1) as (d' & J1 & J2 & J3); [rewrite F2; cbn in Hf; lia|].
      exists d'. repeat split; auto. rewrite J3, Iy2, F2. now rewrite <- app_assoc.
Qed.

Lemma flatl_one (t : tree) : flatl [t] = elements t.
Proof. cbn. apply app_nil_r. Qed.
Lemma elements_nil_inv d s : inv d s -> elements (fst d) = [] -> s = [].
Proof. intros ([_ P] & _) E. rewrite E in P. now apply Permutation_nil in P. Qed.

Lemma inv_union d1 s1 d2 s2 : inv d1 s1 -> inv d2 s2 ->
  exists d, union compare d1 d2 = Ret d /\ inv d (set_union compare s1 s2).
Proof.
  intros I1 I2. unfold union. pose proof (flatl_one (fst d1)) as E1. pose proof (flatl_one (fst d2)) as E2.
  destruct (elements (fst d1)) as [|x l1] eqn:EL1.
  - rewrite (get_nil _ E1). cbn [bind]. assert (s1 = []) as -> by (eapply elements_nil_inv; eauto).
    destruct (elements (fst d2)) as [|y l2] eqn:EL2.
    + rewrite (get_nil _ E2). cbn [bind]. assert (s2 = []) as -> by (eapply elements_nil_inv; eauto).
      exists d1. split; [reflexivity|assumption].
    + destruct (get_cons _ y l2 E2) as (st2 & F2 & G2). rewrite G2. cbn [bind].
      exists d2. split; [reflexivity|]. unfold set_union. cbn. rewrite filter_all; auto.
  - destruct (get_cons _ x l1 E1) as (st1 & F1 & G1). rewrite G1. cbn [bind].
    destruct (elements (fst d2)) as [|y l2] eqn:EL2.
    + rewrite (get_nil _ E2). cbn [bind]. assert (s2 = []) as -> by (eapply elements_nil_inv; eauto).
      exists d1. split; [reflexivity|]. unfold set_union. cbn. now rewrite app_nil_r.
    + destruct (get_cons _ y l2 E2) as (st2 & F2 & G2). rewrite G2. cbn [bind].
      destruct (union_loop_spec (loop_fuel d1 d2) x y st1 st2 ZERO I) as (d & J1 & J2 & J3).
      { unfold loop_fuel. rewrite !size_elements, EL1, EL2, F1, F2. cbn. lia. }
      rewrite J1. cbn [bind]. eexists. split; [reflexivity|]. apply inv_finish; [assumption|].
      rewrite J3, F1, F2. cbn [contents Datatypes.app]. rewrite <- EL1, <- EL2.
      apply set_lists_union; [assumption|apply I1|apply I2].
Qed.

Lemma inter_loop_spec : forall fuel x y s1 s2 d, dinv 0 d ->
  sorted (x :: flatl s1) -> sorted (y :: flatl s2) ->
  (length (flatl s1) + length (flatl s2) < fuel)%nat ->
  exists d', inter_loop compare fuel x y s1 s2 d = Ret d' /\ dinv 0 d' /\
    contents d' = contents d ++ set_inter compare (x :: flatl s1) (y :: flatl s2).
Proof.
  induction fuel as [|fuel IH]; intros x y s1 s2 d Hd S1 S2 Hf; [lia|]. cbn [inter_loop].
  rewrite (inter_cons compare TP) by assumption.
  destruct (insertMax_spec x d Hd) as [Ix1 Ix2].
  inversion S1 as [|? ? S1' _]; inversion S2 as [|? ? S2' _]; subst.
  destruct (compare x y) eqn:E.
  - destruct (flatl s1) as [|x1 r1] eqn:E1.
    + rewrite (get_nil s1 E1). cbn [bind]. destruct (flatl s2) as [|y2 r2] eqn:E2.
      * rewrite (get_nil s2 E2). cbn [bind]. eexists. repeat split; eauto.
      * destruct (get_cons s2 y2 r2 E2) as (s2' & F2 & G2). rewrite G2. cbn [bind]. eexists. repeat split; eauto.
    + destruct (get_cons s1 x1 r1 E1) as (s1' & F1 & G1). rewrite G1. cbn [bind].
      destruct (flatl s2) as [|y2 r2] eqn:E2.
      * rewrite (get_nil s2 E2). cbn [bind]. rewrite set_inter_nil_r. eexists. repeat split; eauto.
      * destruct (get_cons s2 y2 r2 E2) as (s2' & F2 & G2). rewrite G2. cbn [bind].
        destruct (IH x1 y2 s1' s2' _ Ix1) as (d' & J1 & J2 & J3); rewrite ?F1, ?F2; auto; [cbn in Hf; lia|].
        exists d'. repeat split; auto. rewrite J3, Ix2, F1, F2. now rewrite <- app_assoc.
  - destruct (flatl s1) as [|x1 r1] eqn:E1.
    + rewrite (get_nil s1 E1). cbn [bind]. exists d. cbn. rewrite app_nil_r. repeat split; auto.
    + destruct (get_cons s1 x1 r1 E1) as (s1' & F1 & G1). rewrite G1. cbn [bind].
      destruct (IH x1 y s1' s2 _ Hd) as (d' & J1 & J2 & J3); rewrite ?F1; auto; [cbn in Hf; lia|].
      exists d'. repeat split; auto. now rewrite J3, F1.
  - destruct (flatl s2) as [|y2 r2] eqn:E2.
    + rewrite (get_nil s2 E2). cbn [bind]. exists d. rewrite set_inter_nil_r, app_nil_r. repeat split; auto.
    + destruct (get_cons s2 y2 r2 E2) as (s2' & F2 & G2). rewrite G2. cbn [bind].
      destruct (IH x y2 s1 s2' _ Hd) as (d' & J1 & J2 & J3); rewrite ?F2; auto; [cbn in Hf; lia|].
      exists d'. repeat split; auto. now rewrite J3, F2.
Qed.
Lemma inv_intersection d1 s1 d2 s2 : inv d1 s1 -> inv d2 s2 ->
  exists d, intersection compare d1 d2 = Ret d /\ inv d (set_inter compare s1 s2).
Proof.
  intros I1 I2. unfold intersection. pose proof (flatl_one (fst d1)) as E1. pose proof (flatl_one (fst d2)) as E2.
  destruct (elements (fst d1)) as [|x l1] eqn:EL1.
  - rewrite (get_nil _ E1). cbn [bind]. assert (s1 = []) as -> by (eapply elements_nil_inv; eauto).
    exists empty. split; [|apply inv_empty].
    destruct (elements (fst d2)) as [|y l2] eqn:EL2.
    + now rewrite (get_nil _ E2).
    + destruct (get_cons _ y l2 E2) as (st2 & F2 & G2). now rewrite G2.
  - destruct (get_cons _ x l1 E1) as (st1 & F1 & G1). rewrite G1. cbn [bind].
    destruct (elements (fst d2)) as [|y l2] eqn:EL2.
    + rewrite (get_nil _ E2). cbn [bind]. assert (s2 = []) as -> by (eapply elements_nil_inv; eauto).
      exists empty. split; [reflexivity|]. rewrite set_inter_nil_r. apply inv_empty.
    + destruct (get_cons _ y l2 E2) as (st2 & F2 & G2). rewrite G2. cbn [bind].
      destruct (inter_loop_spec (loop_fuel d1 d2) x y st1 st2 ZERO I) as (d & J1 & J2 & J3).
      { rewrite F1, <- EL1. eapply inv_sorted; eauto. }
      { rewrite F2, <- EL2. eapply inv_sorted; eauto. }
      { unfold loop_fuel. rewrite !size_elements, EL1, EL2, F1, F2. cbn. lia. }
      rewrite J1. cbn [bind]. eexists. split; [reflexivity|]. apply inv_finish; [assumption|].
      rewrite J3, F1, F2. cbn [contents Datatypes.app]. rewrite <- EL1, <- EL2.
      apply set_lists_inter; [apply I1|apply I2].
Qed.

Lemma diff_loop_spec : forall fuel x y s1 s2 d, dinv 0 d ->
  sorted (x :: flatl s1) -> sorted (y :: flatl s2) ->
  (length (flatl s1) + length (flatl s2) < fuel)%nat ->
  exists d', diff_loop compare fuel x y s1 s2 d = Ret d' /\ dinv 0 d' /\
    contents d' = contents d ++ set_diff compare (x :: flatl s1) (y :: flatl s2).
Proof.
  induction fuel as [|fuel IH]; intros x y s1 s2 d Hd S1 S2 Hf; [lia|]. cbn [diff_loop].
  rewrite (diff_cons compare TP) by assumption.
  destruct (insertMax_spec x d Hd) as [Ix1 Ix2].
  inversion S1 as [|? ? S1' _]; inversion S2 as [|? ? S2' _]; subst.
  destruct (compare x y) eqn:E.
  - destruct (flatl s1) as [|x1 r1] eqn:E1.
    + rewrite (get_nil s1 E1). cbn [bind]. exists d. cbn [set_diff filter]. rewrite app_nil_r. split; [|auto].
      destruct (flatl s2) as [|y2 r2] eqn:E2.
      * now rewrite (get_nil s2 E2).
      * destruct (get_cons s2 y2 r2 E2) as (s2' & F2 & G2). now rewrite G2.
    + destruct (get_cons s1 x1 r1 E1) as (s1' & F1 & G1). rewrite G1. cbn [bind].
      destruct (flatl s2) as [|y2 r2] eqn:E2.
      * rewrite (get_nil s2 E2). cbn [bind]. rewrite set_diff_nil_r.
        destruct (insRest_spec s1 _ Hd) as (d' & J1 & J2 & J3). exists d'. repeat split; auto. now rewrite J3, E1.
      * destruct (get_cons s2 y2 r2 E2) as (s2' & F2 & G2). rewrite G2. cbn [bind].
        destruct (IH x1 y2 s1' s2' _ Hd) as (d' & J1 & J2 & J3); rewrite ?F1, ?F2; auto; [cbn in Hf; lia|].
        exists d'. repeat split; auto. now rewrite J3, F1, F2.
  - destruct (flatl s1) as [|x1 r1] eqn:E1.
    + rewrite (get_nil s1 E1). cbn [bind]. eexists. repeat split; eauto.
    + destruct (get_cons s1 x1 r1 E1) as (s1' & F1 & G1). rewrite G1. cbn [bind].
      destruct (IH x1 y s1' s2 _ Ix1) as (d' & J1 & J2 & J3); rewrite ?F1; auto; [cbn in Hf; lia|].
      exists d'. repeat split; auto. rewrite J3, Ix2, F1. now rewrite <- app_assoc.
  - destruct (flatl s2) as [|y2 r2] eqn:E2.
    + rewrite (get_nil s2 E2). cbn [bind]. rewrite set_diff_nil_r.
      destruct (insRest_spec s1 _ Ix1) as (d' & J1 & J2 & J3). exists d'. repeat split; auto.
      rewrite J3, Ix2. now rewrite <- app_assoc.
    + destruct (get_cons s2 y2 r2 E2) as (s2' & F2 & G2). rewrite G2. cbn [bind].
      destruct (IH x y2 s1 s2' _ Hd) as (d' & J1 & J2 & J3); rewrite ?F2; auto; [cbn in Hf; lia|].
      exists d'. repeat split; auto. now rewrite J3, F2.
Qed.
Lemma inv_difference d1 s1 d2 s2 : inv d1 s1 -> inv d2 s2 ->
  exists d, difference compare d1 d2 = Ret d /\ inv d (set_diff compare s1 s2).
Proof.
  intros I1 I2. unfold difference. pose proof (flatl_one (fst d1)) as E1. pose proof (flatl_one (fst d2)) as E2.
  destruct (elements (fst d1)) as [|x l1] eqn:EL1.
  - rewrite (get_nil _ E1). cbn [bind]. assert (s1 = []) as -> by (eapply elements_nil_inv; eauto).
    destruct (elements (fst d2)) as [|y l2] eqn:EL2.
    + rewrite (get_nil _ E2). cbn [bind]. exists d1. split; [reflexivity|]. exact I1.
    + destruct (get_cons _ y l2 E2) as (st2 & F2 & G2). rewrite G2. cbn [bind].
      exists empty. split; [reflexivity|]. apply inv_empty.
  - destruct (get_cons _ x l1 E1) as (st1 & F1 & G1). rewrite G1. cbn [bind].
    destruct (elements (fst d2)) as [|y l2] eqn:EL2.
    + rewrite (get_nil _ E2). cbn [bind]. assert (s2 = []) as -> by (eapply elements_nil_inv; eauto).
      exists d1. split; [reflexivity|]. now rewrite set_diff_nil_r.
    + destruct (get_cons _ y l2 E2) as (st2 & F2 & G2). rewrite G2. cbn [bind].
      destruct (diff_loop_spec (loop_fuel d1 d2) x y st1 st2 ZERO I) as (d & J1 & J2 & J3).
      { rewrite F1, <- EL1. eapply inv_sorted; eauto. }
      { rewrite F2, <- EL2. eapply inv_sorted; eauto. }
      { unfold loop_fuel. rewrite !size_elements, EL1, EL2, F1, F2. cbn. lia. }
      rewrite J1. cbn [bind]. eexists. split; [reflexivity|]. apply inv_finish; [assumption|].
      rewrite J3, F1, F2. cbn [contents Datatypes.app]. rewrite <- EL1, <- EL2.
      apply set_lists_diff; [apply I1|apply I2].
Qed.

Lemma equal_loop_spec : forall fuel x y s1 s2,
  sorted (x :: flatl s1) -> sorted (y :: flatl s2) ->
  (length (flatl s1) + length (flatl s2) < fuel)%nat ->
  equal_loop compare fuel x y s1 s2 = Ret (set_equal compare (x :: flatl s1) (y :: flatl s2)).
Proof.
  induction fuel as [|fuel IH]; intros x y s1 s2 S1 S2 Hf; [lia|]. cbn [equal_loop].
  rewrite (equal_cons compare TP) by assumption.
  inversion S1 as [|? ? S1' _]; inversion S2 as [|? ? S2' _]; subst.
  destruct (compare x y) eqn:E; try reflexivity.
  destruct (flatl s1) as [|x1 r1] eqn:E1.
  - rewrite (get_nil s1 E1). cbn [bind]. destruct (flatl s2) as [|y2 r2] eqn:E2.
    + now rewrite (get_nil s2 E2).
    + destruct (get_cons s2 y2 r2 E2) as (s2' & F2 & G2). now rewrite G2.
  - destruct (get_cons s1 x1 r1 E1) as (s1' & F1 & G1). rewrite G1. cbn [bind].
    destruct (flatl s2) as [|y2 r2] eqn:E2.
    + now rewrite (get_nil s2 E2).
    + destruct (get_cons s2 y2 r2 E2) as (s2' & F2 & G2). rewrite G2. cbn [bind].
      rewrite IH; rewrite ?F1, ?F2; auto. cbn in Hf; lia.
Qed.
Lemma inv_equal d1 s1 d2 s2 : inv d1 s1 -> inv d2 s2 -> equal compare d1 d2 = Ret (set_equal compare s1 s2).
Proof.
  intros I1 I2. unfold equal. rewrite <- (set_equal_perm compare (elements (fst d1)) s1 (elements (fst d2)) s2) by (apply I1 || apply I2).
  pose proof (flatl_one (fst d1)) as E1. pose proof (flatl_one (fst d2)) as E2.
  pose proof (inv_sorted _ _ I1) as S1. pose proof (inv_sorted _ _ I2) as S2.
  destruct (elements (fst d1)) as [|x l1] eqn:EL1.
  - rewrite (get_nil _ E1). cbn [bind]. destruct (elements (fst d2)) as [|y l2] eqn:EL2.
    + now rewrite (get_nil _ E2).
    + destruct (get_cons _ y l2 E2) as (st2 & F2 & G2). now rewrite G2.
  - destruct (get_cons _ x l1 E1) as (st1 & F1 & G1). rewrite G1. cbn [bind].
    destruct (elements (fst d2)) as [|y l2] eqn:EL2.
    + now rewrite (get_nil _ E2).
    + destruct (get_cons _ y l2 E2) as (st2 & F2 & G2). rewrite G2. cbn [bind].
      rewrite equal_loop_spec; rewrite ?F1, ?F2; auto.
      unfold loop_fuel. rewrite !size_elements, EL1, EL2. cbn. lia.
Qed.
Lemma isSubset_loop_spec : forall fuel x y s1 s2,
  sorted (x :: flatl s1) -> sorted (y :: flatl s2) ->
  (length (flatl s1) + length (flatl s2) < fuel)%nat ->
  isSubset_loop compare fuel x y s1 s2 = Ret (set_subset compare (x :: flatl s1) (y :: flatl s2)).
Proof.
  induction fuel as [|fuel IH]; intros x y s1 s2 S1 S2 Hf; [lia|]. cbn [isSubset_loop].
  rewrite (subset_cons compare TP) by assumption.
  inversion S1 as [|? ? S1' _]; inversion S2 as [|? ? S2' _]; subst.
  destruct (compare x y) eqn:E; try reflexivity.
  - destruct (flatl s1) as [|x1 r1] eqn:E1.
    + rewrite (get_nil s1 E1). cbn [bind]. destruct (flatl s2) as [|y2 r2] eqn:E2.
      * now rewrite (get_nil s2 E2).
      * destruct (get_cons s2 y2 r2 E2) as (s2' & F2 & G2). now rewrite G2.
    + destruct (get_cons s1 x1 r1 E1) as (s1' & F1 & G1). rewrite G1. cbn [bind].
      destruct (flatl s2) as [|y2 r2] eqn:E2.
      * now rewrite (get_nil s2 E2).
      * destruct (get_cons s2 y2 r2 E2) as (s2' & F2 & G2). rewrite G2. cbn [bind].
        rewrite IH; rewrite ?F1, ?F2; auto. cbn in Hf; lia.
  - destruct (flatl s2) as [|y2 r2] eqn:E2.
    + now rewrite (get_nil s2 E2).
    + destruct (get_cons s2 y2 r2 E2) as (s2' & F2 & G2). rewrite G2. cbn [bind].
      rewrite IH; rewrite ?F2; auto. cbn in Hf; lia.
Qed.
Lemma inv_isSubset d1 s1 d2 s2 : inv d1 s1 -> inv d2 s2 -> isSubset compare d1 d2 = Ret (set_subset compare s1 s2).
Proof.
  intros I1 I2. unfold isSubset. rewrite <- (set_subset_perm compare (elements (fst d1)) s1 (elements (fst d2)) s2) by (apply I1 || apply I2).
  pose proof (flatl_one (fst d1)) as E1. pose proof (flatl_one (fst d2)) as E2.
  pose proof (inv_sorted _ _ I1) as S1. pose proof (inv_sorted _ _ I2) as S2.
  destruct (elements (fst d1)) as [|x l1] eqn:EL1.
  - rewrite (get_nil _ E1). cbn [bind]. destruct (elements (fst d2)) as [|y l2] eqn:EL2.
    + now rewrite (get_nil _ E2).
    + destruct (get_cons _ y l2 E2) as (st2 & F2 & G2). now rewrite G2.
  - destruct (get_cons _ x l1 E1) as (st1 & F1 & G1). rewrite G1. cbn [bind].
    destruct (elements (fst d2)) as [|y l2] eqn:EL2.
    + now rewrite (get_nil _ E2).
    + destruct (get_cons _ y l2 E2) as (st2 & F2 & G2). rewrite G2. cbn [bind].
      rewrite isSubset_loop_spec; rewrite ?F1, ?F2; auto.
      unfold loop_fuel. rewrite !size_elements, EL1, EL2. cbn. lia.
Qed.
Lemma compare_loop_spec : forall fuel x y s1 s2,
  (length (flatl s1) + length (flatl s2) < fuel)%nat ->
  compare_loop compare fuel x y s1 s2 = Ret (lex compare (x :: flatl s1) (y :: flatl s2)).
Proof.
  induction fuel as [|fuel IH]; intros x y s1 s2 Hf; [lia|]. cbn [compare_loop lex].
  destruct (compare x y) eqn:E; try reflexivity.
  destruct (flatl s1) as [|x1 r1] eqn:E1.
  - rewrite (get_nil s1 E1). cbn [bind]. destruct (flatl s2) as [|y2 r2] eqn:E2.
    + now rewrite (get_nil s2 E2).
    + destruct (get_cons s2 y2 r2 E2) as (s2' & F2 & G2). now rewrite G2.
  - destruct (get_cons s1 x1 r1 E1) as (s1' & F1 & G1). rewrite G1. cbn [bind].
    destruct (flatl s2) as [|y2 r2] eqn:E2.
    + now rewrite (get_nil s2 E2).
    + destruct (get_cons s2 y2 r2 E2) as (s2' & F2 & G2). rewrite G2. cbn [bind].
      rewrite IH; rewrite ?F1, ?F2; auto. cbn in Hf; lia.
Qed.
Lemma compare_sets_spec d1 d2 : compare_sets compare d1 d2 = Ret (lex compare (elements (fst d1)) (elements (fst d2))).
Proof.
  unfold compare_sets.
  pose proof (flatl_one (fst d1)) as E1. pose proof (flatl_one (fst d2)) as E2.
  destruct (elements (fst d1)) as [|x l1] eqn:EL1.
  - rewrite (get_nil _ E1). cbn [bind]. destruct (elements (fst d2)) as [|y l2] eqn:EL2.
    + now rewrite (get_nil _ E2).
    + destruct (get_cons _ y l2 E2) as (st2 & F2 & G2). now rewrite G2.
  - destruct (get_cons _ x l1 E1) as (st1 & F1 & G1). rewrite G1. cbn [bind].
    destruct (elements (fst d2)) as [|y l2] eqn:EL2.
    + now rewrite (get_nil _ E2).
    + destruct (get_cons _ y l2 E2) as (st2 & F2 & G2). rewrite G2. cbn [bind].
      rewrite compare_loop_spec; rewrite ?F1, ?F2; auto.
      unfold loop_fuel. rewrite !size_elements, EL1, EL2. cbn. lia.
Qed.

(** *** interval sublists *)
Definition ge_from (from k : A) : bool := match compare from k with Gt => false | _ => true end.
Definition lt_to (to k : A) : bool := match compare k to with Lt => true | _ => false end.
Definition in_intv (i : intv A) (k : A) : bool :=
  match i with
  | All => true
  | From f => ge_from f k
  | To t => lt_to t k
  | FromTo f t => ge_from f k && lt_to t k
  end.

Lemma collectall_spec (t : tree) : forall res : list A, collectall t res = elements t ++ res.
Proof.
  induction t as [|k l IHl r IHr|k l IHl r IHr]; intros res; cbn; [reflexivity| |];
    rewrite IHl, IHr; repeat (rewrite <- ?app_assoc; cbn); reflexivity.
Qed.
Lemma filter_none (p : A -> bool) l : (forall x, In x l -> p x = false) -> filter p l = [].
Proof.
  induction l as [|a l IH]; intros H; cbn; [reflexivity|]. rewrite (H a) by now left. apply IH. intros x Hx. apply H. now right.
Qed.
Lemma ge_from_mono from k x : ge_from from k = true -> compare k x = Lt -> ge_from from x = true.
Proof.
  unfold ge_from. intros H1 H2. rewrite (tp_le_lt_trans compare TP from k x); [reflexivity| |assumption].
  unfold ord_le. destruct (compare from k); congruence.
Qed.
Lemma ge_from_mono' from k x : compare from k = Gt -> compare x k = Lt -> ge_from from x = false.
Proof.
  unfold ge_from. intros H1 H2. apply (tp_gt_lt compare TP) in H1.
  assert (compare x from = Lt) by (eapply (tp_lt_le_trans compare TP); [exact H2|now apply tp_lt_le]).
  apply (tp_gt_lt compare TP) in H. now rewrite H.
Qed.
Lemma lt_to_mono to k x : compare k to = Lt -> compare x k = Lt -> lt_to to x = true.
Proof.
  unfold lt_to. intros H1 H2. rewrite (tp_lt_le_trans compare TP x k to); [reflexivity|assumption|].
  now apply tp_lt_le.
Qed.
Lemma lt_to_mono' to k x : compare k to <> Lt -> compare k x = Lt -> lt_to to x = false.
Proof.
  unfold lt_to. intros H1 H2. destruct (compare x to) eqn:E; auto. exfalso. apply H1.
  apply (tp_lt_le_trans compare TP k x to); [assumption|]. now apply tp_lt_le.
Qed.

Ltac bst H := let H' := fresh in pose proof H as H'; cbn [elements] in H';
  apply (sorted_app (fun x : A => x)) in H' as (?Sl & ?Sr & ?Kl & ?Kr); [|exact TP].

Lemma collectfrom_spec from i (t : tree) : (i = From from \/ exists to, i = FromTo from to) -> sorted (elements t) ->
  forall res, collectfrom compare i t res = filter (ge_from from) (elements t) ++ res.
Proof.
  intros Hi.
  assert (Main : forall k (l r : tree) res, sorted (elements (RED k l r)) ->
      (sorted (elements l) -> forall res, collectfrom compare i l res = filter (ge_from from) (elements l) ++ res) ->
      (sorted (elements r) -> forall res, collectfrom compare i r res = filter (ge_from from) (elements r) ++ res) ->
      collectfrom compare i (RED k l r) res = filter (ge_from from) (elements l ++ k :: elements r) ++ res).
  { intros k l r res H IHl IHr. bst H. unfold klt, kgt in *; rewrite Forall_forall in *.
    rewrite filter_app, filter_cons. destruct (compare from k) eqn:F.
    3: { transitivity (collectfrom compare i r res); [cbn [collectfrom]; destruct Hi as [->|[to ->]]; now rewrite F|].
         rewrite (IHr Sr). unfold ge_from at 3. rewrite F.
         rewrite (filter_none _ (elements l)); [reflexivity|]. intros x Hx. eapply ge_from_mono'; eauto. }
    all: assert (G : ge_from from k = true) by (unfold ge_from; now rewrite F).
    all: transitivity (collectfrom compare i l (k :: filter (ge_from from) (elements r) ++ res));
      [cbn [collectfrom]; destruct Hi as [->|[to ->]]; rewrite F; rewrite ?collectall_spec, ?(IHr Sr);
       rewrite ?(filter_all (ge_from from) (elements r)); auto; intros x Hx; eapply ge_from_mono; eauto|].
    all: rewrite (IHl Sl), G; now rewrite <- app_assoc. }
  induction t as [|k l IHl r IHr|k l IHl r IHr]; intros H res; [reflexivity| |].
  - now apply Main.
  - now apply (Main k l r res).
Qed.

Lemma collectto_spec to i (t : tree) : (i = To to \/ exists from, i = FromTo from to) -> sorted (elements t) ->
  forall res, collectto compare i t res = filter (lt_to to) (elements t) ++ res.
Proof.
  intros Hi.
  assert (Main : forall k (l r : tree) res, sorted (elements (RED k l r)) ->
      (sorted (elements l) -> forall res, collectto compare i l res = filter (lt_to to) (elements l) ++ res) ->
      (sorted (elements r) -> forall res, collectto compare i r res = filter (lt_to to) (elements r) ++ res) ->
      collectto compare i (RED k l r) res = filter (lt_to to) (elements l ++ k :: elements r) ++ res).
  { intros k l r res H IHl IHr. bst H. unfold klt, kgt in *; rewrite Forall_forall in *.
    rewrite filter_app, filter_cons. destruct (compare k to) eqn:F.
    2: { transitivity (elements l ++ k :: collectto compare i r res);
           [cbn [collectto]; destruct Hi as [->|[from ->]]; now rewrite F, collectall_spec|].
         rewrite (IHr Sr). assert (G : lt_to to k = true) by (unfold lt_to; now rewrite F).
         rewrite G, (filter_all (lt_to to) (elements l)), <- app_assoc; [reflexivity|].
         intros x Hx. eapply lt_to_mono; eauto. }
    all: assert (G : lt_to to k = false) by (unfold lt_to; now rewrite F).
    all: transitivity (collectto compare i l res);
      [cbn [collectto]; destruct Hi as [->|[from ->]]; now rewrite F|].
    all: rewrite (IHl Sl), G, (filter_none _ (elements r)), app_nil_r; [reflexivity|];
      intros x Hx; eapply (lt_to_mono' to k); eauto; congruence. }
  induction t as [|k l IHl r IHr|k l IHl r IHr]; intros H res; [reflexivity| |].
  - now apply Main.
  - now apply (Main k l r res).
Qed.

Lemma collectfromto_spec i (t : tree) : sorted (elements t) ->
  forall res, collectfromto compare i t res = filter (in_intv i) (elements t) ++ res.
Proof.
  destruct i as [|from|to|from to].
  - intros _ res. rewrite filter_all by reflexivity. rewrite <- collectall_spec. now destruct t.
  - intros H res. rewrite <- (collectfrom_spec from (From from)) by auto. now destruct t.
  - intros H res. rewrite <- (collectto_spec to (To to)) by auto. now destruct t.
  - assert (Main : forall k (l r : tree) res, sorted (elements (RED k l r)) ->
      (sorted (elements l) -> forall res, collectfromto compare (FromTo from to) l res = filter (in_intv (FromTo from to)) (elements l) ++ res) ->
      (sorted (elements r) -> forall res, collectfromto compare (FromTo from to) r res = filter (in_intv (FromTo from to)) (elements r) ++ res) ->
      collectfromto compare (FromTo from to) (RED k l r) res =
      filter (in_intv (FromTo from to)) (elements l ++ k :: elements r) ++ res).
    { intros k l r res H IHl IHr. bst H. unfold klt, kgt in *; rewrite Forall_forall in *.
      rewrite filter_app, filter_cons. cbn [collectfromto]. destruct (compare from k) eqn:F.
      3: { rewrite (IHr Sr). assert (G : in_intv (FromTo from to) k = false) by (cbn; unfold ge_from; now rewrite F).
           rewrite G, (filter_none _ (elements l)); [reflexivity|]. intros x Hx. cbn.
           now rewrite (ge_from_mono' from k x F (Kl x Hx)). }
      all: assert (G : ge_from from k = true) by (unfold ge_from; now rewrite F).
      all: destruct (compare k to) eqn:T.
      all: try (assert (G2 : in_intv (FromTo from to) k = false) by (cbn; unfold lt_to; rewrite T; apply andb_false_r);
           rewrite (IHl Sl), G2;
           rewrite (filter_none _ (elements r)); [now rewrite app_nil_r|]; intros x Hx; cbn;
           rewrite (lt_to_mono' to k x); [apply andb_false_r|congruence|now apply Kr]).
      all: assert (G2 : in_intv (FromTo from to) k = true) by (cbn; rewrite G; unfold lt_to; now rewrite T);
           rewrite G2;
           rewrite (collectfrom_spec from (FromTo from to)) by eauto;
           rewrite (collectto_spec to (FromTo from to)) by eauto;
           rewrite <- app_assoc; cbn [Datatypes.app]; f_equal;
           [apply filter_ext_In; intros x Hx; cbn; rewrite (lt_to_mono to k x T (Kl x Hx)); now rewrite andb_true_r|];
           f_equal; f_equal; apply filter_ext_In; intros x Hx; cbn;
           now rewrite (ge_from_mono from k x G (Kr x Hx)). }
    induction t as [|k l IHl r IHr|k l IHl r IHr]; intros H res; [reflexivity| |].
    + apply Main; auto.
    + apply (Main k l r res); auto.
Qed.
Lemma sublist_spec d s i : inv d s -> sublist compare d i = filter (in_intv i) (elements (fst d)).
Proof.
  intros H. unfold sublist. rewrite collectfromto_spec; [apply app_nil_r|]. eapply inv_sorted; eauto.
Qed.
Lemma inv_fromSortedList l : sorted l -> inv (fromSortedList l) l.
Proof.
  intros S. unfold fromSortedList. destruct (insertAll_spec l ZERO I) as [D C].
  apply inv_finish; [assumption|]. rewrite C. split; [assumption|reflexivity].
Qed.
Lemma inv_perm d s s' : inv d s -> Permutation s s' -> inv d s'.
Proof.
  intros ([S P] & R & C & N) P'. split; [split; [assumption|]; etransitivity; eauto|].
  split; [assumption|]. split; [assumption|]. now rewrite <- (Permutation_length P').
Qed.
Lemma inv_subset d s i : inv d s -> inv (subset compare d i) (filter (in_intv i) s).
Proof.
  intros H. unfold subset. rewrite (sublist_spec d s i H).
  apply (inv_perm _ (filter (in_intv i) (elements (fst d)))).
  - apply inv_fromSortedList. apply sorted_filter. eapply inv_sorted; eauto.
  - apply FinMap.filter_Permutation. apply H.
Qed.
Lemma sorted_h_spec l : forall x, sorted_h compare x l = true <-> sorted (x :: l).
Proof.
  induction l as [|y l IH]; intros x; cbn [sorted_h].
  - split; [repeat constructor|auto].
  - split.
    + destruct (compare x y) eqn:E; try discriminate. intros H. apply IH in H.
      constructor; [assumption|]. inversion H; subst. constructor; [assumption|].
      apply (kgt_trans (fun x : A => x) compare TP l y); assumption.
    + intros H. inversion H as [|? ? H1 H2]; subst. apply Forall_inv in H2. rewrite H2. now apply IH.
Qed.
Lemma sorted_spec l : Rbset_Model.sorted compare l = true <-> sorted l.
Proof. destruct l as [|x l]; cbn; [split; [constructor|auto]|apply sorted_h_spec]. Qed.
End Search.

Lemma inv_map {A B} (f : A -> B) (c' : B -> B -> comparison) (TP' : total_preorder c') (d : set A) :
  exists d', map f c' d = Ret d' /\
    inv c' d' (fold_left (fun r x => set_add c' (f x) r) (elements (fst d)) []).
Proof.
  unfold map. rewrite foldl_spec. eexists. split; [reflexivity|].
  assert (G : forall l d0 s0, inv c' d0 s0 ->
    inv c' (fold_left (fun acc x => add c' acc (f x)) l d0) (fold_left (fun r x => set_add c' (f x) r) l s0)).
  { induction l as [|x l IH]; intros d0 s0 H; [assumption|]. cbn. apply IH. now apply inv_add. }
  apply G. apply inv_empty.
Qed.
