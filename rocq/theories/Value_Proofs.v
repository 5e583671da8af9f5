(** C08, proofs *)
From Verif Require Import Base ArrayLib Str_Model Str_Proofs Str_Props Value_Model Value_Spec.

(** *** trees *)
Fixpoint depth (t : tree) : nat :=
  match t with
  | TNode _ l => S (fold_right (fun t n => max (depth t) n) O l)
  | _ => O
  end.

Section TreeInd.
  Variable P : tree -> Prop.
  Hypothesis Hint : forall n, P (TInt n).
  Hypothesis Hstr : forall s, P (TStr s).
  Hypothesis Hreal : forall d, P (TReal d).
  Hypothesis Href : forall a, P (TRef a).
  Hypothesis Habs : forall a, P (TAbs a).
  Hypothesis Hout : forall a, P (TOut a).
  Hypothesis Hnode : forall t l, Forall P l -> P (TNode t l).
  Fixpoint tree_rect' (t : tree) : P t :=
    match t with
    | TInt n => Hint n | TStr s => Hstr s | TReal d => Hreal d | TRef a => Href a | TAbs a => Habs a | TOut a => Hout a
    | TNode t l => Hnode t l ((fix go l : Forall P l := match l with [] => Forall_nil _ | t :: l => Forall_cons t (tree_rect' t) (go l) end) l)
    end.
End TreeInd.

Lemma depth_node t l c : In c l -> (depth c < depth (TNode t l))%nat.
Proof.
  intros H. cbn [depth]. induction l as [|x l IH]; [contradiction|]. cbn [fold_right].
  destruct H as [->|H]; [lia|]. specialize (IH H). lia.
Qed.

(** *** doubles *)
Lemma dmag_parts d : 0 <= d < two64 -> dmag d = (d / 2 ^ 52 mod 2048) * 2 ^ 52 + d mod 2 ^ 52 /\
  0 <= d / 2 ^ 52 mod 2048 < 2048 /\ 0 <= d mod 2 ^ 52 < 2 ^ 52.
Proof.
  intros H. unfold dmag, two63, two64 in *. change (2 ^ 52) with 4503599627370496.
  split; [|lia]. lia.
Qed.

Lemma dnan_spec d : 0 <= d < two64 -> (dnan d = true <-> is_nan d).
Proof.
  intros H. destruct (dmag_parts d H) as (E & B1 & B2). unfold dnan, is_nan. rewrite E.
  change (2 ^ 52) with 4503599627370496 in *.
  generalize dependent (d / 4503599627370496 mod 2048). generalize dependent (d mod 4503599627370496). intros f Bf e _ Be.
  rewrite Z.gtb_lt. lia.
Qed.

(** magnitude as a function of the bits *)
Definition smag (x : Z) : Z :=
  let e := x / 2 ^ 52 in let f := x mod 2 ^ 52 in if e =? 0 then f else (2 ^ 52 + f) * 2 ^ (e - 1).
Lemma smag_mono x y : 0 <= x -> x < y -> smag x < smag y.
Proof.
  intros H0 H. unfold smag. cbn zeta.
  pose proof (Z.div_mod x (2 ^ 52) ltac:(discriminate)) as Ex. pose proof (Z.div_mod y (2 ^ 52) ltac:(discriminate)) as Ey.
  pose proof (Z.mod_pos_bound x (2 ^ 52) ltac:(reflexivity)) as Bx. pose proof (Z.mod_pos_bound y (2 ^ 52) ltac:(reflexivity)) as By.
  assert (0 <= x / 2 ^ 52) as Px by (apply Z.div_pos; [lia|reflexivity]).
  assert (2 ^ 52 = 4503599627370496) as E52 by reflexivity.
  assert (x / 2 ^ 52 <= y / 2 ^ 52) as Le by (apply Z.div_le_mono; [reflexivity|lia]).
  set (e1 := x / 2 ^ 52) in *. set (f1 := x mod 2 ^ 52) in *. set (e2 := y / 2 ^ 52) in *. set (f2 := y mod 2 ^ 52) in *.
  clearbody e1 e2 f1 f2. rewrite E52 in *. clear E52.
  assert (K : forall a b p, 0 <= a -> a <= b -> 1 <= p -> a <= b * p) by (intros; nia).
  destruct (Z.eqb_spec e1 0) as [Z1|N1]; destruct (Z.eqb_spec e2 0) as [Z2|N2]; [lia| |lia|].
  - assert (1 <= 2 ^ (e2 - 1)) as P by (apply (Z.pow_le_mono_r 2 0); lia).
    apply Z.lt_le_trans with 4503599627370496; [lia|]. apply K; lia.
  - destruct (Z.eq_dec e1 e2) as [->|N].
    + assert (0 < 2 ^ (e2 - 1)) by (apply Z.pow_pos_nonneg; lia). apply Z.mul_lt_mono_pos_r; lia.
    + assert (2 ^ e1 <= 2 ^ (e2 - 1)) as P1 by (apply Z.pow_le_mono_r; lia).
      assert (2 ^ e1 = 2 * 2 ^ (e1 - 1)) as P2 by (rewrite <- Z.pow_succ_r by lia; f_equal; lia).
      assert (0 < 2 ^ (e1 - 1)) by (apply Z.pow_pos_nonneg; lia).
      apply Z.lt_le_trans with (4503599627370496 * 2 ^ e1).
      * rewrite P2. replace (4503599627370496 * (2 * 2 ^ (e1 - 1))) with (9007199254740992 * 2 ^ (e1 - 1)) by lia.
        apply Z.mul_lt_mono_pos_r; lia.
      * apply Z.le_trans with (4503599627370496 * 2 ^ (e2 - 1)); [apply Z.mul_le_mono_nonneg_l; lia|].
        apply Z.mul_le_mono_nonneg_r; lia.
Qed.
Lemma smag_0 : smag 0 = 0. Proof. reflexivity. Qed.

Lemma scaled_smag d : 0 <= d < two64 -> scaled d = if d <? two63 then smag (dmag d) else - smag (dmag d).
Proof.
  intros H. unfold scaled, smag. cbn zeta.
  destruct (dmag_parts d H) as (E & B1 & B2).
  assert (dmag d / 2 ^ 52 = d / 2 ^ 52 mod 2048) as ->.
  { rewrite E. rewrite Z.div_add_l by (change (2 ^ 52) with 4503599627370496; lia).
    rewrite (Z.div_small (d mod 2 ^ 52)) by assumption. lia. }
  assert (dmag d mod 2 ^ 52 = d mod 2 ^ 52) as ->.
  { rewrite E. rewrite Z.add_comm, Z.mod_add by (change (2 ^ 52) with 4503599627370496; lia).
    apply Z.mod_small. assumption. }
  reflexivity.
Qed.

Lemma smag_cmp x y : 0 <= x -> 0 <= y -> (smag x ?= smag y) = (x ?= y).
Proof.
  intros. destruct (Z.compare_spec x y) as [->|L|L].
  - apply Z.compare_refl.
  - apply Z.compare_lt_iff. now apply smag_mono.
  - apply Z.compare_gt_iff. now apply smag_mono.
Qed.

Lemma scaled_key d1 d2 : 0 <= d1 < two64 -> 0 <= d2 < two64 -> (scaled d1 ?= scaled d2) = (dkey d1 ?= dkey d2).
Proof.
  intros H1 H2. rewrite !scaled_smag by assumption. unfold dkey.
  assert (0 <= dmag d1) as P1 by (unfold dmag, two63; lia). assert (0 <= dmag d2) as P2 by (unfold dmag, two63; lia).
  assert (NN : forall x, 0 <= x -> 0 <= smag x /\ (smag x = 0 -> x = 0)).
  { intros x Hx. destruct (Z.eq_dec x 0) as [->|N]; [rewrite smag_0; lia|].
    pose proof (smag_mono 0 x). rewrite smag_0 in *. lia. }
  pose proof (NN _ P1) as [Q1 Q1']. pose proof (NN _ P2) as [Q2 Q2'].
  pose proof (smag_cmp _ _ P1 P2) as C. pose proof (smag_cmp _ _ P2 P1) as C'.
  pose proof smag_0 as S0.
  destruct (d1 <? two63), (d2 <? two63).
  - assumption.
  - destruct (Z.compare_spec (dmag d1) (- dmag d2)) as [E|L|L].
    + assert (dmag d1 = 0) as E1 by lia. assert (dmag d2 = 0) as E2 by lia. rewrite E1, E2, S0. reflexivity.
    + lia.
    + apply Z.compare_gt_iff. destruct (Z.eq_dec (smag (dmag d1)) 0), (Z.eq_dec (smag (dmag d2)) 0); lia.
  - destruct (Z.compare_spec (- dmag d1) (dmag d2)) as [E|L|L].
    + assert (dmag d1 = 0) as E1 by lia. assert (dmag d2 = 0) as E2 by lia. rewrite E1, E2, S0. reflexivity.
    + apply Z.compare_lt_iff. destruct (Z.eq_dec (smag (dmag d1)) 0), (Z.eq_dec (smag (dmag d2)) 0); lia.
    + lia.
  - rewrite !Z.compare_opp. assumption.
Qed.

Lemma deq_spec d1 d2 : 0 <= d1 < two64 -> 0 <= d2 < two64 -> ~ is_nan d1 -> ~ is_nan d2 ->
  (deq d1 d2 = true <-> scaled d1 = scaled d2).
Proof.
  intros H1 H2 N1 N2. rewrite <- dnan_spec in N1, N2 by assumption. unfold deq.
  destruct (dnan d1); [now elim N1|]. destruct (dnan d2); [now elim N2|]. cbn [negb andb].
  rewrite Z.eqb_eq. rewrite <- !Z.compare_eq_iff. now rewrite scaled_key.
Qed.

Lemma le_val_bytes n : forall d, 0 <= d < 256 ^ Z.of_nat n -> le_val (le_bytes n d) = d.
Proof.
  induction n as [|n IH]; intros d H; cbn [le_bytes le_val]; [change (256 ^ Z.of_nat 0) with 1 in H; lia|].
  rewrite IH; [lia|]. rewrite Nat2Z.inj_succ, Z.pow_succ_r in H by lia.
  split; [apply Z.div_pos; lia|]. apply Z.div_lt_upper_bound; lia.
Qed.
Lemma zlen_le_bytes n : forall d, zlen (le_bytes n d) = Z.of_nat n.
Proof. induction n as [|n IH]; intros d; cbn [le_bytes]; [reflexivity|]. rewrite zlen_cons, IH. lia. Qed.
Lemma double_val_ok m v d : blk m v = Some (Bytes Double_tag (le_bytes 8 d)) -> 0 <= d < two64 -> double_val m v = Ret d.
Proof.
  intros B H. unfold double_val, bytes_of. rewrite B. cbn [bind]. rewrite zlen_le_bytes. cbn [Z.eqb Z.of_nat Pos.of_succ_nat Pos.succ Pos.eqb].
  rewrite le_val_bytes; [reflexivity|]. change (256 ^ Z.of_nat 8) with two64. assumption.
Qed.

(** *** denotation *)
Section Mem.
Variable m : mem.
Hypothesis WF : wf_mem m.

Lemma atom_even t : Z.odd (atom m t) = false.
Proof. unfold atom. rewrite Z.odd_add, Z.odd_mul. destruct WF as [-> _]. reflexivity. Qed.
Lemma is_atom_atom t : 0 <= t <= 255 -> is_atom m (atom m t) = true.
Proof. intros. unfold is_atom, atom. lia. Qed.
Lemma blk_atom t : 0 <= t <= 255 -> blk m (atom m t) = None.
Proof.
  intros H. destruct (blk m (atom m t)) eqn:E; [|reflexivity].
  apply WF in E as (_ & E & _). rewrite is_atom_atom in E by assumption. discriminate.
Qed.
Lemma long_odd n : Z.odd (2 * n + 1) = true.
Proof. rewrite Z.odd_add, Z.odd_mul. reflexivity. Qed.

Ltac clash := exfalso;
  match goal with
  | B1 : blk m ?v = Some ?x, B2 : blk m ?v = Some ?y |- _ =>
    assert (x = y) as X by congruence; try discriminate X; injection X; intros;
    unfold String_tag, Double_tag, Reference_tag, Abstract_tag, Final_tag, Closure_tag in *; intuition lia
  | B1 : blk m ?v = Some ?x, B2 : blk m ?v = None |- _ => congruence
  | B : blk m (2 * _ + 1) = Some _ |- _ => apply WF in B as [B _]; now rewrite long_odd in B
  | B : Z.odd (2 * _ + 1) = false |- _ => now rewrite long_odd in B
  | B : blk m (atom m _) = Some _ |- _ => rewrite blk_atom in B by assumption; discriminate
  | E : 2 * _ + 1 = atom m ?t |- _ => pose proof (atom_even t) as X; rewrite <- E, long_odd in X; discriminate
  | E : atom m ?t = 2 * _ + 1 |- _ => pose proof (atom_even t) as X; rewrite E, long_odd in X; discriminate
  | A : is_atom m (atom m _) = false |- _ => rewrite is_atom_atom in A by assumption; discriminate
  end.

Lemma den_fun t1 : forall v t2, den m v t1 -> den m v t2 -> t1 = t2.
Proof.
  induction t1 as [n|s|d|a|a|a|t l IH] using tree_rect'; intros v t2 D1 D2.
  - inversion D1; subst. inversion D2; subst; try clash. f_equal. lia.
  - inversion D1 as [|v1 b1 s1 B1 R1| | | | | |]; subst.
    inversion D2 as [|v2 b2 s2 B R2| | | | | |]; subst; try clash.
    rewrite B1 in B. injection B as <-. f_equal. apply (shows_inj b1); now apply rep_shows.
  - inversion D1 as [| |v1 d1 B1 R1| | | | |]; subst.
    inversion D2 as [| |v2 d2 B R2| | | | |]; subst; try clash.
    pose proof (double_val_ok m v d B1 R1). pose proof (double_val_ok m v d2 B R2). congruence.
  - inversion D1; subst. inversion D2; subst; try clash. reflexivity.
  - inversion D1; subst. inversion D2; subst; try clash. reflexivity.
  - inversion D1; subst. inversion D2; subst; try clash. reflexivity.
  - inversion D1 as [| | | | | |v1 t1 E1 O1|v1 t1 l1 ts B1 Ht N F]; subst.
    + inversion D2 as [| | | | | |v2 t2' E2 O2|]; subst; try clash. f_equal. unfold atom in E2. lia.
    + inversion D2 as [| | | | | | |v2 t2' l2 ts2 B Ht2 N2 F2]; subst; try clash.
      rewrite B1 in B. injection B as <- <-. f_equal. clear - IH F F2. revert ts2 F2.
      induction F as [|x y l ts D F IHF]; intros ts2 F2; inversion F2; subst; [reflexivity|].
      inversion IH; subst. f_equal; [eauto|now apply IHF].
Qed.

Lemma same_refl t : same t t.
Proof.
  induction t as [n|s|d|a|a|a|t l IH] using tree_rect'; constructor; auto.
  induction IH; constructor; auto.
Qed.

(** a block in memory: not long, not an atom *)
Lemma blk_facts v b : blk m v = Some b -> is_long v = false /\ is_atom m v = false /\ managed m v = true.
Proof. intros B. destruct (proj2 WF v b B) as (? & ? & _). unfold is_long, managed. rewrite B. auto. Qed.

(** *** equality *)
Definition eq_ok (r : outcome bool) (t1 t2 : tree) : Prop := exists b, r = Ret b /\ (b = true <-> same t1 t2).

Lemma eq_no t1 t2 : ~ same t1 t2 -> eq_ok (Ret false) t1 t2.
Proof. intros N. exists false. split; [reflexivity|]. split; [discriminate|contradiction]. Qed.

Lemma equal_fields_ok eq l1 l2 ts1 ts2 : Forall2 (den m) l1 ts1 -> Forall2 (den m) l2 ts2 -> length l1 = length l2 -> l1 <> [] ->
  (forall v1 v2 t1 t2, In t1 ts1 -> In t2 ts2 -> den m v1 t1 -> den m v2 t2 -> eq_ok (eq v1 v2) t1 t2) ->
  exists b, equal_fields eq l1 l2 = Ret b /\ (b = true <-> Forall2 same ts1 ts2).
Proof.
  intros F1. revert l2 ts2. induction F1 as [|x tx l1 ts1 D1 F1 IH]; intros l2 ts2 F2 L N E; [now elim N|].
  destruct F2 as [|y ty l2 ts2 D2 F2]; [discriminate|]. injection L as L.
  destruct (E x y tx ty (or_introl eq_refl) (or_introl eq_refl) D1 D2) as (b & Eb & Hb). cbn [equal_fields].
  destruct l1 as [|x' l1].
  - destruct l2; [|discriminate]. inversion F1; inversion F2; subst. exists b. split; [assumption|]. rewrite Hb.
    split; [intros; constructor; [assumption|constructor]|]. now inversion 1.
  - rewrite Eb. cbn [bind]. destruct b.
    + destruct (IH l2 ts2 F2 L) as (b & Eb' & Hb'); [discriminate|intros; apply E; [now right|now right|assumption|assumption]|].
      exists b. split; [assumption|]. rewrite Hb'. split; [intros; constructor; [now apply Hb|assumption]|]. now inversion 1.
    + exists false. split; [reflexivity|]. split; [discriminate|]. inversion 1; subst. now apply Hb.
Qed.

Lemma equal_ok fuel : forall v1 v2 t1 t2, (depth t1 < fuel)%nat -> den m v1 t1 -> den m v2 t2 -> ordinary t1 -> ordinary t2 ->
  eq_ok (sml_equal_aux fuel m v1 v2) t1 t2.
Proof.
  induction fuel as [|fuel IH]; intros v1 v2 t1 t2 HF D1 D2 O1 O2; [lia|]. cbn [sml_equal_aux].
  destruct (Z.eqb_spec v1 v2) as [->|NV].
  { exists true. split; [reflexivity|]. split; [|reflexivity]. intros _. rewrite (den_fun t1 v2 t2 D1 D2). apply same_refl. }
  assert (LONG : forall n, is_long (2 * n + 1) = true) by (intros n; apply long_odd).
  inversion D1 as [? n1 E1 I1|? b1 s1 B1 R1|? d1 B1 R1|? l1 B1|? g1 b1 B1 Hg1|? Q1 P1 B1 A1|? g1 Eg1 Hg1|? g1 l1 ts1 B1 Hg1 N1 F1]; subst.
  - (* integer *)
    rewrite LONG. cbn [orb]. apply eq_no. intros S. inversion S; subst. inversion D2; subst; lia.
  - destruct (blk_facts _ _ B1) as (L1 & _ & M1). rewrite L1. cbn [orb].
    inversion D2 as [? n2 E2 I2|? b2 s2 B2 R2|? d2 B2 R2|? l2 B2|? g2 b2 B2 Hg2|? Q2 P2 B2 A2|? g2 Eg2 Hg2|? g2 l2 ts2 B2 Hg2 N2 F2]; subst.
    + rewrite LONG. apply eq_no. inversion 1.
    + destruct (blk_facts _ _ B2) as (L2 & _ & M2). rewrite L2, M1, M2. cbn [negb]. unfold tag_val, bytes_of. rewrite B1, B2.
      cbn [bind]. cbn. inversion O1 as [|? SL| | | | |]; subst.
      unfold eq_ok. destruct (equal_string_rep b1 s1 b2 s2 R1 R2 SL) as (r & E & Hr). exists r. split; [assumption|].
      rewrite Hr. split; [intros ->; constructor|now inversion 1].
    + destruct (blk_facts _ _ B2) as (L2 & _ & M2). rewrite L2, M1, M2. cbn [negb]. unfold tag_val. rewrite B1, B2. cbn. apply eq_no. inversion 1.
    + destruct (blk_facts _ _ B2) as (L2 & _ & M2). rewrite L2, M1, M2. cbn [negb]. unfold tag_val. rewrite B1, B2. cbn. apply eq_no. inversion 1.
    + destruct (blk_facts _ _ B2) as (L2 & _ & M2). rewrite L2, M1, M2. cbn [negb]. unfold tag_val. rewrite B1, B2.
      destruct Hg2; subst g2; cbn; apply eq_no; inversion 1.
    + unfold is_long. rewrite P2, M1. unfold managed. rewrite B2. apply eq_no. inversion 1.
    + unfold is_long. rewrite atom_even, M1. unfold managed. rewrite blk_atom by assumption. apply eq_no. inversion 1.
    + destruct (blk_facts _ _ B2) as (L2 & _ & M2). rewrite L2, M1, M2. cbn [negb]. unfold tag_val. rewrite B1, B2. cbn [bind].
      destruct (Z.eqb_spec String_tag g2); [unfold String_tag, Closure_tag in *; lia|]. cbn [negb]. apply eq_no. inversion 1.
  - destruct (blk_facts _ _ B1) as (L1 & _ & M1). rewrite L1. cbn [orb].
    inversion D2 as [? n2 E2 I2|? b2 s2 B2 R2|? d2 B2 R2|? l2 B2|? g2 b2 B2 Hg2|? Q2 P2 B2 A2|? g2 Eg2 Hg2|? g2 l2 ts2 B2 Hg2 N2 F2]; subst.
    + rewrite LONG. apply eq_no. inversion 1.
    + destruct (blk_facts _ _ B2) as (L2 & _ & M2). rewrite L2, M1, M2. cbn [negb]. unfold tag_val. rewrite B1, B2. cbn. apply eq_no. inversion 1.
    + destruct (blk_facts _ _ B2) as (L2 & _ & M2). rewrite L2, M1, M2. cbn [negb]. unfold tag_val.
      rewrite (double_val_ok _ _ _ B1 R1), (double_val_ok _ _ _ B2 R2). rewrite B1, B2. cbn [bind].
      cbn. inversion O1; inversion O2; subst. exists (deq d1 d2). split; [reflexivity|].
      rewrite deq_spec by assumption. split; [now constructor|now inversion 1].
    + destruct (blk_facts _ _ B2) as (L2 & _ & M2). rewrite L2, M1, M2. cbn [negb]. unfold tag_val. rewrite B1, B2. cbn. apply eq_no. inversion 1.
    + destruct (blk_facts _ _ B2) as (L2 & _ & M2). rewrite L2, M1, M2. cbn [negb]. unfold tag_val. rewrite B1, B2.
      destruct Hg2; subst g2; cbn; apply eq_no; inversion 1.
    + unfold is_long. rewrite P2, M1. unfold managed. rewrite B2. apply eq_no. inversion 1.
    + unfold is_long. rewrite atom_even, M1. unfold managed. rewrite blk_atom by assumption. apply eq_no. inversion 1.
    + destruct (blk_facts _ _ B2) as (L2 & _ & M2). rewrite L2, M1, M2. cbn [negb]. unfold tag_val. rewrite B1, B2. cbn [bind].
      destruct (Z.eqb_spec Double_tag g2); [unfold Double_tag, Closure_tag in *; lia|]. cbn [negb]. apply eq_no. inversion 1.
  - (* reference *)
    assert (~ same (TRef v1) t2) as NS. { intros S; inversion S; subst. inversion D2; subst; congruence. }
    destruct (blk_facts _ _ B1) as (L1 & _ & M1). rewrite L1. cbn [orb].
    destruct (is_long v2); [now apply eq_no|]. rewrite M1. cbn [negb].
    destruct (managed m v2) eqn:M2; [|now apply eq_no]. unfold managed in M2. unfold tag_val at 1. rewrite B1. cbn [bind].
    unfold tag_val. destruct (blk m v2) as [[g l|g l]|]; [| |discriminate]; cbn [bind negb].
    + destruct (Reference_tag =? g); now apply eq_no.
    + destruct (Reference_tag =? g); now apply eq_no.
  - assert (~ same (TAbs v1) t2) as NS. { intros S; inversion S; subst. inversion D2; subst; congruence. }
    destruct (blk_facts _ _ B1) as (L1 & _ & M1). rewrite L1. cbn [orb].
    destruct (is_long v2); [now apply eq_no|]. rewrite M1. cbn [negb].
    destruct (managed m v2) eqn:M2; [|now apply eq_no]. unfold managed in M2. unfold tag_val at 1. rewrite B1. cbn [bind].
    unfold tag_val. destruct (blk m v2) as [[g l|g l]|]; [| |discriminate]; cbn [bind negb].
    + destruct Hg1; subst g1; (destruct (_ =? g); now apply eq_no).
    + destruct Hg1; subst g1; (destruct (_ =? g); now apply eq_no).
  - assert (~ same (TOut v1) t2) as NS. { intros S; inversion S; subst. inversion D2; subst; congruence. }
    unfold is_long. rewrite P1. cbn [orb]. destruct (Z.odd v2); [now apply eq_no|].
    unfold managed at 1. rewrite B1. now apply eq_no.
  - assert (~ same (TNode g1 []) t2) as NS.
    { intros S; inversion S as [| | | | | |? ? ? F]; subst. inversion F; subst. inversion D2; subst; [congruence|].
      match goal with H : Forall2 _ _ [] |- _ => inversion H; subst end. congruence. }
    unfold is_long. rewrite atom_even. cbn [orb]. destruct (Z.odd v2); [now apply eq_no|].
    unfold managed at 1. rewrite blk_atom by assumption. now apply eq_no.
  - destruct (blk_facts _ _ B1) as (L1 & _ & M1). rewrite L1. cbn [orb].
    inversion D2 as [? n2 E2 I2|? b2 s2 B2 R2|? d2 B2 R2|? l2 B2|? g2 b2 B2 Hg2|? Q2 P2 B2 A2|? g2 Eg2 Hg2|? g2 l2 ts2 B2 Hg2 N2 F2]; subst.
    + rewrite LONG. apply eq_no. inversion 1.
    + destruct (blk_facts _ _ B2) as (L2 & _ & M2). rewrite L2, M1, M2. cbn [negb]. unfold tag_val. rewrite B1, B2. cbn [bind].
      destruct (Z.eqb_spec g1 String_tag); [unfold String_tag, Closure_tag in *; lia|]. apply eq_no. inversion 1.
    + destruct (blk_facts _ _ B2) as (L2 & _ & M2). rewrite L2, M1, M2. cbn [negb]. unfold tag_val. rewrite B1, B2. cbn [bind].
      destruct (Z.eqb_spec g1 Double_tag); [unfold Double_tag, Closure_tag in *; lia|]. apply eq_no. inversion 1.
    + destruct (blk_facts _ _ B2) as (L2 & _ & M2). rewrite L2, M1, M2. cbn [negb]. unfold tag_val. rewrite B1, B2. cbn [bind].
      destruct (Z.eqb_spec g1 Reference_tag); [unfold Reference_tag, Closure_tag in *; lia|]. apply eq_no. inversion 1.
    + destruct (blk_facts _ _ B2) as (L2 & _ & M2). rewrite L2, M1, M2. cbn [negb]. unfold tag_val. rewrite B1, B2. cbn [bind].
      destruct (Z.eqb_spec g1 g2); [|apply eq_no; inversion 1]. exfalso. destruct Hg2; subst g2; subst g1; unfold Abstract_tag, Final_tag, Closure_tag in *; lia.
    + unfold is_long. rewrite P2, M1. unfold managed. rewrite B2. apply eq_no. inversion 1.
    + unfold is_long. rewrite atom_even, M1. unfold managed. rewrite blk_atom by assumption. apply eq_no.
      intros S; inversion S as [| | | | | |? ? ? F]; subst. inversion F; subst. inversion F1; subst. congruence.
    + destruct (blk_facts _ _ B2) as (L2 & _ & M2). rewrite L2, M1, M2. cbn [negb]. unfold tag_val, fields. rewrite B1, B2. cbn [bind].
      destruct (Z.eqb_spec g1 g2) as [->|NG]; [|apply eq_no; inversion 1; congruence]. cbn [negb].
      unfold Closure_tag in *.
      destruct (Z.eqb_spec g2 String_tag); [unfold String_tag in *; lia|].
      destruct (Z.eqb_spec g2 Double_tag); [unfold Double_tag in *; lia|].
      destruct (Z.eqb_spec g2 Reference_tag); [unfold Reference_tag in *; lia|].
      destruct (Z.eqb_spec g2 Abstract_tag); [unfold Abstract_tag in *; lia|].
      destruct (Z.eqb_spec g2 Final_tag); [unfold Final_tag in *; lia|]. cbn [orb].
      destruct (Z.eqb_spec g2 249); [lia|].
      assert (LEN : forall l ts, Forall2 (den m) l ts -> length l = length ts) by (clear; induction 1; cbn; congruence).
      destruct (Z.eqb_spec (zlen l1) (zlen l2)) as [EL|NL]; cbn [negb].
      * assert (length l1 = length l2) as EL' by (unfold zlen in EL; lia).
        destruct (equal_fields_ok (sml_equal_aux fuel m) l1 l2 ts1 ts2 F1 F2 EL' N1) as (b & E & Hb).
        -- intros x y tx ty I J Dx Dy. apply IH; try assumption.
           ++ pose proof (depth_node g2 ts1 tx I). lia.
           ++ inversion O1 as [| | | | | |? ? FO]; subst. rewrite Forall_forall in FO. now apply FO.
           ++ inversion O2 as [| | | | | |? ? FO]; subst. rewrite Forall_forall in FO. now apply FO.
        -- exists b. split; [assumption|]. rewrite Hb. split; [now constructor|now inversion 1].
      * apply eq_no. intros S; inversion S as [| | | | | |? ? ? F]; subst. apply NL. unfold zlen.
        rewrite (LEN _ _ F1), (LEN _ _ F2). f_equal. clear - F. induction F; cbn; congruence.
Qed.

(** *** order *)
Fixpoint lcmp (l1 l2 : list tree) : comparison :=
  match l1, l2 with
  | t1 :: l1, t2 :: l2 => match tcmp t1 t2 with Eq => lcmp l1 l2 | c => c end
  | _, _ => Eq
  end.
Lemma tcmp_node a b l1 l2 : tcmp (TNode a l1) (TNode b l2) =
  match a ?= b with Eq => match zlen l1 ?= zlen l2 with Eq => lcmp l1 l2 | c => c end | c => c end.
Proof. reflexivity. Qed.

Lemma tcmp_refl t : tcmp t t = Eq.
Proof.
  induction t as [n|s|d|a|a|a|t l IH] using tree_rect'; try reflexivity; try apply Z.compare_refl.
  - now apply lex_eq.
  - rewrite tcmp_node, !Z.compare_refl. induction IH as [|x l Hx F IHl]; [reflexivity|]. cbn [lcmp]. now rewrite Hx.
Qed.

Definition cmp_ok (P : Prop) (r : outcome Z) (c : comparison) : Prop :=
  exists z, r = Ret z /\ Z.sgn z = sign_of c /\ (P -> - two62 <= z < two62).

Lemma diff_ok (P : Prop) a b : in_long (a - b) -> (P -> - two62 <= a - b < two62) -> cmp_ok P (diff a b) (a ?= b).
Proof.
  intros H HP. exists (a - b). unfold diff. rewrite (proj2 (in_longb_spec _) H). split; [reflexivity|]. split; [|assumption].
  destruct (Z.compare_spec a b); cbn [sign_of]; lia.
Qed.

Lemma compare_fields_ok cmp l1 l2 ts1 ts2 : Forall2 (den m) l1 ts1 -> Forall2 (den m) l2 ts2 -> length l1 = length l2 -> l1 <> [] ->
  Forall2 comparable ts1 ts2 ->
  (forall v1 v2 t1 t2, In t1 ts1 -> den m v1 t1 -> den m v2 t2 -> comparable t1 t2 -> cmp_ok (modest t1 /\ modest t2) (cmp v1 v2) (tcmp t1 t2)) ->
  cmp_ok (Forall modest ts1 /\ Forall modest ts2) (compare_fields cmp l1 l2) (lcmp ts1 ts2).
Proof.
  intros F1. revert l2 ts2. induction F1 as [|x tx l1 ts1 D1 F1 IH]; intros l2 ts2 F2 L N C E; [now elim N|].
  destruct F2 as [|y ty l2 ts2 D2 F2]; [discriminate|]. injection L as L. inversion C as [|? ? ? ? C1 C2]; subst.
  destruct (E x y tx ty (or_introl eq_refl) D1 D2 C1) as (z & Ez & Hz & Mz). cbn [compare_fields lcmp].
  destruct l1 as [|x' l1].
  - destruct l2; [|discriminate]. inversion F1; inversion F2; subst. exists z. split; [assumption|]. rewrite Hz.
    cbn [lcmp]. split; [now destruct (tcmp tx ty)|]. intros [M1 M2]. inversion M1; inversion M2; subst. auto.
  - rewrite Ez. cbn [bind]. destruct (Z.eqb_spec z 0) as [->|NZ]; cbn [negb].
    + destruct (tcmp tx ty); try discriminate Hz.
      destruct (IH l2 ts2) as (r & Er & Hr & Mr); try assumption; [discriminate|intros; apply E; [now right|assumption..]|].
      exists r. split; [assumption|]. split; [assumption|]. intros [M1 M2]. inversion M1; inversion M2; subst. auto.
    + exists z. split; [reflexivity|]. rewrite Hz. split; [destruct (tcmp tx ty); [cbn in Hz; lia|reflexivity|reflexivity]|].
      intros [M1 M2]. inversion M1; inversion M2; subst. auto.
Qed.

Lemma long_val_long n : long_val (2 * n + 1) = n.
Proof. unfold long_val. lia. Qed.

Lemma is_atom_false_blk v b : blk m v = Some b -> is_atom m v = false.
Proof. intros B. now apply WF in B as (_ & B & _). Qed.

Lemma tag_atom t : 0 <= t <= 255 -> tag_val m (atom m t) = Ret t.
Proof.
  intros H. unfold tag_val. rewrite blk_atom, is_atom_atom by assumption. unfold atom.
  replace (atom0 m + 8 * t - (atom0 m + 8 * 0)) with (8 * t) by lia.
  destruct (Z.eqb_spec (8 * t mod 8) 0); [|lia]. cbn [andb]. f_equal. lia.
Qed.

Lemma compare_ok fuel : forall v1 v2 t1 t2, (depth t1 < fuel)%nat -> den m v1 t1 -> den m v2 t2 -> comparable t1 t2 ->
  cmp_ok (modest t1 /\ modest t2) (compare_val fuel m v1 v2) (tcmp t1 t2).
Proof.
  induction fuel as [|fuel IH]; intros v1 v2 t1 t2 HF D1 D2 C; [lia|]. cbn [compare_val].
  destruct (Z.eqb_spec v1 v2) as [->|NV].
  { exists 0. split; [reflexivity|]. rewrite (den_fun t1 v2 t2 D1 D2), tcmp_refl. split; [reflexivity|]. unfold two62. lia. }
  destruct C as [a b|s t|d1 d2 ND1 ND2|a b|a b ts1 ts2 C].
  - inversion D1; inversion D2; subst. unfold is_long. rewrite long_odd. cbn [orb]. rewrite !long_val_long.
    cbn [tcmp]. apply diff_ok; [unfold in_int, in_long, two62, two63 in *; lia|].
    intros [M1 M2]. inversion M1; inversion M2; subst. change (2 ^ 61) with 2305843009213693952 in *. unfold two62. lia.
  - inversion D1 as [|? b1 ? B1 R1| | | | | |]; inversion D2 as [|? b2 ? B2 R2| | | | | |]; subst.
    destruct (blk_facts _ _ B1) as (L1 & A1 & M1). destruct (blk_facts _ _ B2) as (L2 & A2 & M2).
    rewrite L1, L2, A1, A2, M1, M2. cbn [orb andb negb]. unfold tag_val, bytes_of. rewrite B1, B2. cbn.
    destruct (compare_val_rep b1 s b2 t R1 R2) as (r & E & S & Br). exists r. split; [assumption|]. split; [assumption|].
    intros _. change (2 ^ 58) with 288230376151711744 in *. unfold two62. lia.
  - inversion D1 as [| |? ? B1 R1| | | | |]; inversion D2 as [| |? ? B2 R2| | | | |]; subst.
    destruct (blk_facts _ _ B1) as (L1 & A1 & M1). destruct (blk_facts _ _ B2) as (L2 & A2 & M2).
    rewrite L1, L2, A1, A2, M1, M2. cbn [orb andb negb].
    rewrite (double_val_ok _ _ _ B1 R1), (double_val_ok _ _ _ B2 R2). unfold tag_val. rewrite B1, B2. cbn [bind].
    change (Double_tag =? Double_tag) with true. change (Double_tag =? String_tag) with false. cbn [negb tcmp].
    rewrite scaled_key by assumption. rewrite <- dnan_spec in ND1, ND2 by assumption. unfold deq, dlt.
    destruct (dnan d1); [now elim ND1|]. destruct (dnan d2); [now elim ND2|]. cbn [negb andb].
    eexists. split; [reflexivity|]. split; [|intros _; destruct (dkey d1 =? dkey d2); [|destruct (dkey d1 <? dkey d2)]; unfold two62; lia].
    destruct (Z.compare_spec (dkey d1) (dkey d2)) as [E|L|L].
    + rewrite E, Z.eqb_refl. reflexivity.
    + destruct (Z.eqb_spec (dkey d1) (dkey d2)); [lia|]. destruct (Z.ltb_spec (dkey d1) (dkey d2)); [reflexivity|lia].
    + destruct (Z.eqb_spec (dkey d1) (dkey d2)); [lia|]. destruct (Z.ltb_spec (dkey d1) (dkey d2)); [lia|reflexivity].
  - inversion D1 as [| | | | |? Q1 P1 B1 A1| |]; inversion D2 as [| | | | |? Q2 P2 B2 A2| |]; subst.
    unfold is_long, managed. rewrite P1, P2, A1, A2, B1, B2. cbn [orb andb negb tcmp]. apply diff_ok.
    + unfold in_long, two63 in *. lia.
    + intros [M1 M2]. inversion M1; inversion M2; subst. change (2 ^ 62) with two62 in *. unfold two62 in *. lia.
  - assert (TAG : forall v g ts, den m v (TNode g ts) -> tag_val m v = Ret g /\ is_long v = false /\ is_atom m v || managed m v = true /\
      0 <= g <= 255 /\ exists l, fields m v = Ret l /\ zlen l = zlen ts /\ Forall2 (den m) l ts /\ zlen l < 2 ^ 54 /\
        (l = [] -> v = atom m g) /\ (l <> [] -> 0 <= g < Closure_tag)).
    { clear - WF. intros v g ts D. inversion D as [| | | | | |? ? E O|? ? l ? B Hg N F]; subst.
      - split; [now apply tag_atom|]. split; [apply atom_even|]. split; [now rewrite is_atom_atom|].
        split; [assumption|]. exists []. unfold fields. rewrite blk_atom, is_atom_atom by assumption.
        split; [reflexivity|]. split; [reflexivity|]. split; [constructor|]. split; [reflexivity|]. split; [reflexivity|]. now intros [].
      - destruct (blk_facts _ _ B) as (L1 & A1 & M1). unfold tag_val, fields. rewrite B, L1, A1, M1.
        split; [reflexivity|]. split; [reflexivity|]. split; [reflexivity|]. split; [unfold Closure_tag in *; lia|].
        exists l. split; [reflexivity|]. split; [clear - F; induction F; [reflexivity|rewrite !zlen_cons; lia]|].
        split; [assumption|]. split; [|now split]. apply WF in B as (_ & _ & B). eapply B; reflexivity. }
    destruct (TAG _ _ _ D1) as (T1 & L1 & M1 & G1 & l1 & E1 & Z1 & F1 & S1 & K1 & K1').
    destruct (TAG _ _ _ D2) as (T2 & L2 & M2 & G2 & l2 & E2 & Z2 & F2 & S2 & K2 & K2'). clear TAG.
    rewrite L1, L2. cbn [orb].
    assert ((negb (is_atom m v1) && negb (managed m v1)) || (negb (is_atom m v2) && negb (managed m v2)) = false) as ->.
    { destruct (is_atom m v1), (managed m v1), (is_atom m v2), (managed m v2); try discriminate; reflexivity. }
    rewrite T1, T2. cbn [bind]. rewrite tcmp_node.
    destruct (Z.eqb_spec a b) as [->|NG]; cbn [negb].
    2:{ pose proof (diff_ok (modest (TNode a ts1) /\ modest (TNode b ts2)) a b) as X.
        destruct (a ?= b) eqn:EC; try (apply X; [unfold in_long, two63; lia|intros _; unfold two62; lia]).
        apply Z.compare_eq in EC. contradiction. }
    rewrite Z.compare_refl.
    (* not both are atoms *)
    assert (0 <= b < Closure_tag) as HB.
    { destruct l1 as [|x l1']; [|apply K1'; discriminate]. destruct l2 as [|y l2']; [|apply K2'; discriminate].
      elim NV. rewrite K1, K2 by reflexivity. reflexivity. }
    unfold Closure_tag in HB.
    destruct (Z.eqb_spec b String_tag); [unfold String_tag in *; lia|].
    destruct (Z.eqb_spec b Double_tag); [unfold Double_tag in *; lia|].
    destruct (Z.eqb_spec b Abstract_tag); [unfold Abstract_tag in *; lia|].
    destruct (Z.eqb_spec b Final_tag); [unfold Final_tag in *; lia|]. cbn [orb].
    destruct (Z.eqb_spec b Closure_tag); [unfold Closure_tag in *; lia|].
    rewrite E1, E2. cbn [bind]. rewrite <- Z1, <- Z2. change (2 ^ 54) with 18014398509481984 in *.
    pose proof (zlen_nonneg l1). pose proof (zlen_nonneg l2).
    destruct (Z.eqb_spec (zlen l1) (zlen l2)) as [EL|NL]; cbn [negb].
    + rewrite EL, Z.compare_refl.
      assert (XX : cmp_ok (Forall modest ts1 /\ Forall modest ts2) (compare_fields (compare_val fuel m) l1 l2) (lcmp ts1 ts2)).
      2:{ destruct XX as (z & Ez & Hz & Mz). exists z. split; [assumption|]. split; [assumption|].
          intros [M1' M2']. inversion M1'; inversion M2'; subst. auto. }
      apply compare_fields_ok; try assumption.
      * unfold zlen in EL. lia.
      * intros ->. destruct l2; [|rewrite zlen_cons in EL; change (@zlen Z []) with 0 in EL; pose proof (zlen_nonneg l2); lia].
        apply NV. rewrite K1, K2 by reflexivity. reflexivity.
      * apply C; [reflexivity|]. unfold zlen in *. lia.
      * intros x y tx ty I Dx Dy Cxy. apply IH; try assumption. pose proof (depth_node b ts1 tx I). lia.
    + exists (s64 (zlen l1 - zlen l2)). split; [reflexivity|]. rewrite s64_id by (unfold in_long, two63; lia).
      split; [|unfold two62; lia]. destruct (Z.compare_spec (zlen l1) (zlen l2)); cbn [sign_of]; lia.
Qed.

(** *** hash: totality, also on cyclic values *)
Lemma hash_bytes_total n : forall b p s, 0 <= p -> p + Z.of_nat n <= zlen b ->
  exists s', hash_bytes n b p s = Ret s' /\ hash_univ_limit s' = hash_univ_limit s.
Proof.
  induction n as [|n IH]; intros b p s H0 H; cbn [hash_bytes]; [now exists s|].
  destruct (zget_some b p) as [x E]; [lia|]. unfold sub_raw. rewrite E. cbn [bind].
  destruct (IH b (p + 1) (combine_small x s)) as (s' & -> & L); [lia|lia|]. exists s'. now split.
Qed.
Lemma hash_log_total fuel : forall b len i s, len <= zlen b -> 0 < i -> len < i * 2 ^ (Z.of_nat fuel) ->
  exists s', hash_log (S fuel) b len i s = Ret s' /\ hash_univ_limit s' = hash_univ_limit s.
Proof.
  induction fuel as [|fuel IH]; intros b len i s HL HI HP.
  - change (2 ^ Z.of_nat 0) with 1 in HP. cbn [hash_log]. destruct (Z.ltb_spec (i + 127) len); [lia|]. now exists s.
  - change (hash_log (S (S fuel)) b len i s) with
      (if i + 127 <? len then do x <- sub_raw b (127 + i); hash_log (S fuel) b len (i * 2) (combine_small x s) else Ret s).
    destruct (Z.ltb_spec (i + 127) len); [|now exists s].
    destruct (zget_some b (127 + i)) as [x E]; [lia|]. unfold sub_raw. rewrite E. cbn [bind].
    destruct (IH b len (i * 2) (combine_small x s)) as (s' & E' & L); [lia|lia| |].
    + rewrite Nat2Z.inj_succ, Z.pow_succ_r in HP by lia. lia.
    + exists s'. now split.
Qed.

End Mem.

Lemma hash_total m : well_formed m -> forall fuel v s, good_word m v -> (Z.to_nat (hash_univ_limit s) < fuel)%nat ->
  exists s', hash_aux fuel false m v s = Ret s' /\ hash_univ_limit s' < hash_univ_limit s.
Proof.
  intros [WF W]. induction fuel as [|fuel IH]; intros v s G H; [lia|]. cbn [hash_aux].
  set (s1 := HS (hash_accu s) (hash_univ_limit s - 1) (hash_univ_count s)).
  assert (hash_univ_limit s1 = hash_univ_limit s - 1) as L1 by reflexivity.
  destruct ((hash_univ_count s1 <? 0) || (hash_univ_limit s1 <? 0)) eqn:B; [exists s1; split; [reflexivity|lia]|].
  assert (0 <= hash_univ_limit s1) as P1 by lia. clearbody s1.
  destruct (is_long v) eqn:EL; [eexists; split; [reflexivity|cbn; lia]|].
  destruct (is_atom m v) eqn:EA.
  { specialize (G EL EA). unfold tag_val. destruct (blk m v) as [b|] eqn:Bv.
    - apply WF in Bv as (_ & Bv & _). congruence.
    - rewrite EA, G. cbn. eexists. split; [reflexivity|]. cbn. lia. }
  unfold managed. destruct (blk m v) as [b|] eqn:Bv; [|eexists; split; [reflexivity|cbn; lia]].
  pose proof (W v b Bv) as Wb. unfold tag_val, bytes_of, fields. rewrite Bv. destruct b as [g l|g bs]; cbn [bind].
  - destruct Wb as [Hg Hl]. unfold No_scan_tag in Hg.
    destruct (Z.eqb_spec g String_tag); [unfold String_tag in *; lia|].
    destruct (Z.eqb_spec g Double_tag); [unfold Double_tag in *; lia|].
    destruct (Z.eqb_spec g Abstract_tag); [unfold Abstract_tag in *; lia|].
    destruct (Z.eqb_spec g Final_tag); [unfold Final_tag in *; lia|]. cbn [orb].
    destruct (g =? Reference_tag); [eexists; split; [reflexivity|cbn; lia]|].
    set (s2 := combine_small g (count_down s1)). assert (hash_univ_limit s2 = hash_univ_limit s1) as L2 by reflexivity. clearbody s2.
    assert (X : forall l', (forall x, In x l' -> In x l) -> forall s3, hash_univ_limit s3 <= hash_univ_limit s1 ->
      exists s', hash_fields (hash_aux fuel false m) l' s3 = Ret s' /\ hash_univ_limit s' <= hash_univ_limit s3).
    { induction l' as [|x l' IHl]; intros Sub s3 L3; cbn [hash_fields]; [exists s3; split; [reflexivity|lia]|].
      destruct (IHl (fun y I => Sub y (or_intror I)) s3 L3) as (s4 & -> & L4). cbn [bind].
      destruct (IH x s4) as (s5 & -> & L5); [apply Hl, Sub; now left|lia|]. exists s5. split; [reflexivity|lia]. }
    destruct (X l (fun x I => I) s2) as (s' & E & L); [lia|]. exists s'. split; [assumption|lia].
  - destruct Wb as [[-> [t R]]|[[-> L8]|[->| ->]]].
    + cbn. rewrite (string_length_ok bs t R). cbn [bind]. pose proof (rep_zlen _ _ R) as Lb. pose proof (zlen_nonneg t) as Pt.
      assert (zlen t <= maxlen) as Mt by apply R. unfold maxlen in Mt.
      destruct (hash_bytes_total (Z.to_nat (if zlen t <=? 128 then zlen t else 128)) bs 0 (count_down s1)) as (s2 & -> & L2);
        [lia|destruct (Z.leb_spec (zlen t) 128); lia|]. cbn [bind].
      destruct (hash_log_total 63 bs (zlen t) 1 s2) as (s3 & E3 & L3); [lia|lia|change (1 * 2 ^ Z.of_nat 63) with two63; unfold two63; lia|].
      exists s3. split; [exact E3|]. cbn in L2. lia.
    + change (Double_tag =? String_tag) with false. change (Double_tag =? Double_tag) with true. cbv iota.
      destruct (hash_bytes_total 8 bs 0 (count_down s1)) as (s2 & -> & L2); [lia|lia|]. exists s2. split; [reflexivity|].
      cbn in L2. lia.
    + cbn. exists s1. split; [reflexivity|lia].
    + cbn. exists s1. split; [reflexivity|lia].
Qed.

(** *** hash: like trees have the same hash *)
Lemma hash_bytes_ext n : forall b1 b2 p s, (forall i, p <= i < p + Z.of_nat n -> zget b1 i = zget b2 i) ->
  hash_bytes n b1 p s = hash_bytes n b2 p s.
Proof.
  induction n as [|n IH]; intros b1 b2 p s H; cbn [hash_bytes]; [reflexivity|]. unfold sub_raw. rewrite (H p) by lia.
  destruct (zget b2 p); [|reflexivity]. cbn [bind]. apply IH. intros. apply H. lia.
Qed.
Lemma hash_log_ext fuel : forall b1 b2 len i s, 0 < i -> (forall i, 0 <= i < len -> zget b1 i = zget b2 i) ->
  hash_log fuel b1 len i s = hash_log fuel b2 len i s.
Proof.
  induction fuel as [|fuel IH]; intros b1 b2 len i s P H; cbn [hash_log]; [reflexivity|].
  destruct (Z.ltb_spec (i + 127) len); [|reflexivity]. unfold sub_raw. rewrite (H (127 + i)) by lia.
  destruct (zget b2 (127 + i)); [|reflexivity]. cbn [bind]. apply IH; [lia|assumption].
Qed.

Lemma bind_ext {A B} (x : outcome A) (k1 k2 : A -> outcome B) : (forall a, k1 a = k2 a) -> bind x k1 = bind x k2.
Proof. intros H. destruct x; cbn [bind]; auto. Qed.

Lemma hash_alike m1 m2 : wf_mem m1 -> wf_mem m2 -> forall fuel safe v1 v2 t1 t2 s, den m1 v1 t1 -> den m2 v2 t2 -> alike t1 t2 ->
  hash_aux fuel safe m1 v1 s = hash_aux fuel safe m2 v2 s.
Proof.
  intros W1 W2. induction fuel as [|fuel IH]; intros safe v1 v2 t1 t2 s D1 D2 A; [reflexivity|]. cbn [hash_aux].
  set (s1 := HS (hash_accu s) (hash_univ_limit s - 1) (hash_univ_count s)). clearbody s1.
  destruct ((hash_univ_count s1 <? 0) || (hash_univ_limit s1 <? 0)); [reflexivity|].
  destruct A as [n|s0|d|a b|a b|a|t l1 l2 F].
  - inversion D1; inversion D2; subst. unfold is_long. rewrite !long_odd. reflexivity.
  - inversion D1 as [|? b1 ? B1 R1| | | | | |]; inversion D2 as [|? b2 ? B2 R2| | | | | |]; subst.
    destruct (blk_facts m1 W1 _ _ B1) as (L1 & A1 & M1). destruct (blk_facts m2 W2 _ _ B2) as (L2 & A2 & M2).
    rewrite L1, L2, A1, A2, M1, M2. unfold tag_val, bytes_of. rewrite B1, B2. cbn [bind].
    change (String_tag =? String_tag) with true. cbv iota. rewrite (string_length_ok b1 s0 R1), (string_length_ok b2 s0 R2). cbn [bind].
    assert (X : forall i, 0 <= i < zlen s0 -> zget b1 i = zget b2 i).
    { intros i I. now rewrite (zget_rep b1 s0), (zget_rep b2 s0). }
    rewrite (hash_bytes_ext _ b1 b2).
    + apply bind_ext. intros s2. apply hash_log_ext; [reflexivity|exact X].
    + intros i I. apply X. destruct (Z.leb_spec (zlen s0) 128); pose proof (zlen_nonneg s0); lia.
  - inversion D1 as [| |? ? B1 R1| | | | |]; inversion D2 as [| |? ? B2 R2| | | | |]; subst.
    destruct (blk_facts m1 W1 _ _ B1) as (L1 & A1 & M1). destruct (blk_facts m2 W2 _ _ B2) as (L2 & A2 & M2).
    rewrite L1, L2, A1, A2, M1, M2. unfold tag_val, bytes_of. rewrite B1, B2. reflexivity.
  - inversion D1 as [| | |? ? B1| | | |]; inversion D2 as [| | |? ? B2| | | |]; subst.
    destruct (blk_facts m1 W1 _ _ B1) as (L1 & A1 & M1). destruct (blk_facts m2 W2 _ _ B2) as (L2 & A2 & M2).
    rewrite L1, L2, A1, A2, M1, M2. unfold tag_val. rewrite B1, B2. reflexivity.
  - inversion D1 as [| | | |? ? ? B1 H1| | |]; inversion D2 as [| | | |? ? ? B2 H2| | |]; subst.
    destruct (blk_facts m1 W1 _ _ B1) as (L1 & A1 & M1). destruct (blk_facts m2 W2 _ _ B2) as (L2 & A2 & M2).
    rewrite L1, L2, A1, A2, M1, M2. unfold tag_val. rewrite B1, B2. destruct H1, H2; subst; reflexivity.
  - inversion D1 as [| | | | |? Q1 P1 B1 A1| |]; inversion D2 as [| | | | |? Q2 P2 B2 A2| |]; subst.
    unfold managed. rewrite A1, A2, B1, B2. reflexivity.
  - inversion D1 as [| | | | | |? ? E1 O1|? ? r1 ? B1 HX1 N1 F1]; inversion D2 as [| | | | | |? ? E2 O2|? ? r2 ? B2 HX2 N2 F2]; subst.
    + unfold is_long. rewrite (atom_even m1 W1), (atom_even m2 W2), !is_atom_atom by assumption.
      rewrite (tag_atom m1 W1), (tag_atom m2 W2) by assumption. reflexivity.
    + inversion F; subst. inversion F2; subst. now elim N2.
    + inversion F; subst. inversion F1; subst. now elim N1.
    + destruct (blk_facts m1 W1 _ _ B1) as (L1 & A1 & M1). destruct (blk_facts m2 W2 _ _ B2) as (L2 & A2 & M2).
      rewrite L1, L2, A1, A2, M1, M2. unfold tag_val, fields. rewrite B1, B2. cbn [bind].
      destruct (t =? String_tag); [unfold bytes_of; now rewrite B1, B2|].
      destruct (t =? Double_tag); [unfold bytes_of; now rewrite B1, B2|].
      destruct ((t =? Abstract_tag) || (t =? Final_tag)); [reflexivity|].
      destruct (t =? Reference_tag); [reflexivity|].
      generalize (combine_small t (count_down s1)). clear - F F1 F2 IH W1 W2.
      revert r1 r2 F1 F2. induction F as [|x y l1 l2 A F IHF]; intros r1 r2 F1 F2 s; inversion F1; inversion F2; subst; [reflexivity|].
      cbn [hash_fields]. erewrite IHF by eassumption.
      match goal with |- bind ?m _ = _ => destruct m; [|reflexivity..] end. cbn [bind]. eapply IH; eassumption.
Qed.

Lemma scaled_inj d1 d2 : 0 <= d1 < two64 -> 0 <= d2 < two64 -> scaled d1 = scaled d2 -> d1 <> two63 -> d2 <> two63 -> d1 = d2.
Proof.
  intros H1 H2 E N1 N2. apply Z.compare_eq_iff in E. rewrite scaled_key in E by assumption. apply Z.compare_eq in E.
  assert (K : forall d, 0 <= d < two64 -> (d < two63 /\ dmag d = d) \/ (two63 <= d /\ dmag d = d - two63)).
  { clear. intros d H. unfold dmag, two63, two64 in *. destruct (Z.lt_ge_cases d 9223372036854775808) as [L|L]; [left|right]; split; lia. }
  unfold dkey in E.
  destruct (K d1 H1) as [[A1 B1]|[A1 B1]], (K d2 H2) as [[A2 B2]|[A2 B2]]; rewrite B1, B2 in E; clear K B1 B2;
    destruct (Z.ltb_spec d1 two63), (Z.ltb_spec d2 two63); unfold two63, two64 in *; lia.
Qed.

Lemma same_alike m t1 : forall v1 v2 t2, den m v1 t1 -> den m v2 t2 -> same t1 t2 -> no_minus_zero t1 -> no_minus_zero t2 -> alike t1 t2.
Proof.
  induction t1 as [n|s|d|a|a|a|t l IH] using tree_rect'; intros v1 v2 t2 D1 D2 S Z1 Z2; inversion S; subst; try constructor.
  - inversion D1; inversion D2; inversion Z1; inversion Z2; subst.
    match goal with H : scaled _ = scaled _ |- _ => apply scaled_inj in H; [subst; constructor|assumption..] end.
  - assert (G1 : forall v l, den m v (TNode t l) -> exists r, Forall2 (den m) r l).
    { clear. intros v l D. inversion D; subst; [exists []; constructor|eexists; eassumption]. }
    destruct (G1 _ _ D1) as (r1 & F1). destruct (G1 _ _ D2) as (r2 & F2).
    match goal with H : Forall2 same _ _ |- _ => rename H into F end.
    inversion Z1 as [| | | | | |? ? Z1']; inversion Z2 as [| | | | | |? ? Z2']; subst.
    clear - IH F F1 F2 Z1' Z2'. revert r1 r2 F1 F2.
    induction F as [|x y l1 l2 A F IHF]; intros r1 r2 F1 F2; constructor; inversion F1; inversion F2; inversion IH; inversion Z1'; inversion Z2'; subst; eauto.
Qed.
