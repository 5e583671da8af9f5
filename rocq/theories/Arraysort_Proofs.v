(** Proofs about Arraysort. *)
From Coq Require Import Sorting.Sorted Sorting.Permutation.
From Verif Require Import Base OrderSpec ArrayLib Arraysort_Model.

Section Proofs.
Context {A : Type} (cmp : A -> A -> comparison) (d : A).
Notation array := (list A).
Notation g := (znth d).

(** [a'] is [a] with the elements at positions lo..hi-1 permuted *)
Definition rperm (lo hi : Z) (a a' : array) : Prop :=
  zlen a' = zlen a /\ Permutation a a' /\
  (forall k, ~ (lo <= k < hi) -> g a' k = g a k) /\
  (forall k, lo <= k < hi -> exists k', lo <= k' < hi /\ g a' k = g a k').

Lemma rperm_refl lo hi a : rperm lo hi a a.
Proof. repeat split; eauto. Qed.
Lemma rperm_trans lo hi a b c : rperm lo hi a b -> rperm lo hi b c -> rperm lo hi a c.
Proof.
  intros (L1 & P1 & O1 & I1) (L2 & P2 & O2 & I2). repeat split.
  - congruence.
  - etransitivity; eauto.
  - intros k H. now rewrite O2, O1.
  - intros k H. destruct (I2 k H) as (k1 & H1 & E1). destruct (I1 k1 H1) as (k2 & H2 & E2).
    exists k2. split; congruence.
Qed.
Lemma rperm_mono lo hi lo' hi' a b : lo' <= lo -> hi <= hi' -> rperm lo hi a b -> rperm lo' hi' a b.
Proof.
  intros Hl Hh (L & P & O & I). repeat split; auto.
  - intros k H. apply O. lia.
  - intros k H. destruct (Z_lt_dec k lo); [exists k; split; [lia|apply O; lia]|].
    destruct (Z_le_dec hi k); [exists k; split; [lia|apply O; lia]|].
    destruct (I k) as (k' & H' & E); [lia|]. exists k'. split; [lia|assumption].
Qed.
Lemma rperm_all lo hi a b (P : A -> Prop) : rperm lo hi a b ->
  (forall k, lo <= k < hi -> P (g a k)) -> forall k, lo <= k < hi -> P (g b k).
Proof. intros (_ & _ & _ & I) H k Hk. destruct (I k Hk) as (k' & Hk' & ->). auto. Qed.
Lemma rperm_len lo hi a b : rperm lo hi a b -> zlen b = zlen a.
Proof. now intros (L & _). Qed.
Lemma rperm_out lo hi a b k : rperm lo hi a b -> ~ (lo <= k < hi) -> g b k = g a k.
Proof. intros (_ & _ & O & _). apply O. Qed.

Lemma swap_spec a i j : 0 <= i < zlen a -> 0 <= j < zlen a -> exists a', swap a i j = Ret a' /\
  zlen a' = zlen a /\ Permutation a a' /\
  forall k, g a' k = if k =? i then g a j else if k =? j then g a i else g a k.
Proof.
  intros Hi Hj. unfold swap. rewrite (sub_raw_ok d a i Hi). cbn [bind]. rewrite (sub_raw_ok d a j Hj). cbn [bind].
  destruct (zset_some a i (g a j) Hi) as (a1 & E1 & L1 & G1).
  unfold update_raw at 1. rewrite E1. cbn [bind].
  destruct (zset_some a1 j (g a i)) as (a2 & E2 & L2 & G2); [lia|].
  exists a2. unfold update_raw. rewrite E2. split; [reflexivity|]. split; [congruence|]. split.
  - pose proof (zset_Permutation a i (g a j) (g a i) a1 (znth_get d a i Hi) E1) as P1.
    assert (zget a1 j = Some (g a j)) as Gj.
    { rewrite G1. destruct (j =? i); [reflexivity|]. now apply znth_get. }
    pose proof (zset_Permutation a1 j (g a i) (g a j) a2 Gj E2) as P2.
    apply Permutation_cons_inv with (a := g a j).
    transitivity (g a i :: a1); [now apply Permutation_sym|now apply Permutation_sym].
  - intros k. unfold znth at 1. rewrite G2, G1.
    destruct (Z.eqb_spec k j), (Z.eqb_spec k i); subst; try reflexivity.
Qed.
Lemma swap_rperm lo hi a i j : 0 <= lo -> hi <= zlen a -> lo <= i < hi -> lo <= j < hi -> exists a', swap a i j = Ret a' /\
  rperm lo hi a a' /\ forall k, g a' k = if k =? i then g a j else if k =? j then g a i else g a k.
Proof.
  intros Hl Hh Hi Hj. destruct (swap_spec a i j) as (a' & E & L & P & G); [lia..|].
  exists a'. split; [assumption|]. split; [|assumption]. repeat split; auto.
  - intros k Hk. rewrite G. destruct (Z.eqb_spec k i), (Z.eqb_spec k j); try lia. reflexivity.
  - intros k Hk. rewrite G. destruct (Z.eqb_spec k i); [exists j; auto|].
    destruct (Z.eqb_spec k j); [exists i; auto|]. exists k; auto.
Qed.

(** vecswap exchanges two disjoint blocks *)
Lemma vecswap_spec lo hi fuel : forall a i j n, 0 <= lo -> hi <= zlen a -> 0 <= n -> n < Z.of_nat fuel ->
  lo <= i -> i + n <= j -> j + n <= hi -> exists a', vecswap fuel a i j n = Ret a' /\ rperm lo hi a a' /\
  forall k, g a' k = if (i <=? k) && (k <? i + n) then g a (k + (j - i))
                     else if (j <=? k) && (k <? j + n) then g a (k - (j - i)) else g a k.
Proof.
  induction fuel as [|fuel IH]; intros a i j n Hl Hh Hn Hf Hi Hij Hj; [lia|]. cbn [vecswap].
  destruct (Z.eqb_spec n 0).
  - exists a. split; [reflexivity|]. split; [apply rperm_refl|]. intros k.
    destruct (Z.leb_spec i k), (Z.ltb_spec k (i + n)), (Z.leb_spec j k), (Z.ltb_spec k (j + n)); cbn; try reflexivity; lia.
  - destruct (swap_rperm lo hi a i j) as (a1 & E1 & R1 & G1); [lia..|]. rewrite E1. cbn [bind].
    pose proof (rperm_len _ _ _ _ R1) as L1.
    destruct (IH a1 (i + 1) (j + 1) (n - 1)) as (a2 & E2 & R2 & G2); [lia..|].
    exists a2. split; [assumption|]. split; [eapply rperm_trans; eauto|].
    intros k. rewrite G2. replace (j + 1 - (i + 1)) with (j - i) by lia.
    rewrite !G1. clear - Hi Hij Hn n0.
    repeat (match goal with |- context [?x <=? ?y] => destruct (Z.leb_spec x y)
      | |- context [?x <? ?y] => destruct (Z.ltb_spec x y)
      | |- context [?x =? ?y] => destruct (Z.eqb_spec x y) end; cbn [andb]; try (exfalso; lia));
      try reflexivity; f_equal; lia.
Qed.

(** ** Insertion sort *)
Definition rsorted (lo hi : Z) (a : array) : Prop :=
  forall p q, lo <= p -> p < q -> q < hi -> ord_le cmp (g a p) (g a q).

Lemma inner_spec start i fuel : forall a j, 0 <= start -> i < zlen a -> start <= j <= i -> j - start < Z.of_nat fuel ->
  exists a', inner cmp fuel a start j = Ret a' /\ rperm start (i + 1) a a' /\
  (total_preorder cmp ->
   (forall p q, start <= p -> p < q -> q <= i -> q <> j -> ord_le cmp (g a p) (g a q)) -> rsorted start (i + 1) a').
Proof.
  induction fuel as [|fuel IH]; intros a j Hs Hi Hj Hf; [lia|]. cbn [inner].
  destruct (Z.eqb_spec j start).
  - exists a. split; [reflexivity|]. split; [apply rperm_refl|].
    intros TP H p q H1 H2 H3. apply H; lia.
  - rewrite (sub_raw_ok d a (j - 1)) by lia. cbn [bind]. rewrite (sub_raw_ok d a j) by lia. cbn [bind].
    destruct (cmp (g a (j - 1)) (g a j)) eqn:C; cycle 2.
    + destruct (swap_rperm start (i + 1) a j (j - 1)) as (a1 & E1 & R1 & G1); [lia..|]. rewrite E1. cbn [bind].
      pose proof (rperm_len _ _ _ _ R1) as L1.
      destruct (IH a1 (j - 1)) as (a2 & E2 & R2 & S2); [lia..|].
      exists a2. split; [assumption|]. split; [eapply rperm_trans; eauto|].
      intros TP H. apply S2; [assumption|]. intros p q H1 H2 H3 H4. rewrite !G1.
      destruct (Z.eqb_spec q j).
      * subst q. destruct (Z.eqb_spec p j); [lia|]. destruct (Z.eqb_spec p (j - 1)).
        -- unfold ord_le. rewrite (tp_sym cmp TP), C. discriminate.
        -- apply H; lia.
      * destruct (Z.eqb_spec q (j - 1)); [lia|].
        destruct (Z.eqb_spec p j); [apply H; lia|]. destruct (Z.eqb_spec p (j - 1)); apply H; lia.
    + exists a. split; [reflexivity|]. split; [apply rperm_refl|].
      intros TP H p q H1 H2 H3. destruct (Z.eq_dec q j); [|apply H; lia].
      subst q. destruct (Z.eq_dec p (j - 1)); [subst; unfold ord_le; congruence|].
      apply (tp_le_trans cmp TP) with (g a (j - 1)); [apply H; lia|unfold ord_le; congruence].
    + exists a. split; [reflexivity|]. split; [apply rperm_refl|].
      intros TP H p q H1 H2 H3. destruct (Z.eq_dec q j); [|apply H; lia].
      subst q. destruct (Z.eq_dec p (j - 1)); [subst; unfold ord_le; congruence|].
      apply (tp_le_trans cmp TP) with (g a (j - 1)); [apply H; lia|unfold ord_le; congruence].
Qed.

Lemma outer_spec start limit f fuel : forall a i, 0 <= start -> limit <= zlen a -> start < i ->
  Z.max 0 (limit - i) < Z.of_nat fuel -> limit - start <= Z.of_nat f ->
  exists a', outer cmp f fuel a start limit i = Ret a' /\ rperm start limit a a' /\
  (total_preorder cmp -> rsorted start i a -> rsorted start limit a').
Proof.
  induction fuel as [|fuel IH]; intros a i Hs Hl Hi Hf Hf'; [exfalso; lia|]. cbn [outer].
  rewrite Z.geb_leb. destruct (Z.leb_spec limit i).
  - exists a. split; [reflexivity|]. split; [apply rperm_refl|]. intros TP S p q H1 H2 H3. apply S; lia.
  - destruct (inner_spec start i f a i) as (a1 & E1 & R1 & S1); [lia..|]. rewrite E1. cbn [bind].
    pose proof (rperm_len _ _ _ _ R1) as L1.
    destruct (IH a1 (i + 1)) as (a2 & E2 & R2 & S2); [lia..|].
    exists a2. split; [assumption|]. split.
    + eapply rperm_trans; [|exact R2]. eapply rperm_mono; [| |exact R1]; lia.
    + intros TP S. apply S2; [assumption|]. apply S1; [assumption|]. intros p q H1 H2 H3 H4. apply S; lia.
Qed.
Lemma insertSort_spec fuel a start n : 0 <= start -> 0 <= n -> start + n <= zlen a -> n < Z.of_nat fuel ->
  exists a', insertSort cmp fuel a start n = Ret a' /\ rperm start (start + n) a a' /\
  (total_preorder cmp -> rsorted start (start + n) a').
Proof.
  intros Hs Hn Hl Hf. unfold insertSort.
  destruct (outer_spec start (start + n) fuel fuel a (start + 1)) as (a' & E & R & S); [lia..|].
  exists a'. split; [assumption|]. split; [assumption|]. intros TP. apply S; [assumption|].
  intros p q H1 H2 H3. lia.
Qed.

(** ** Pivot *)
Lemma med3_spec lo hi arr a b c : 0 <= lo -> hi <= zlen arr -> lo <= a < hi -> lo <= b < hi -> lo <= c < hi ->
  exists p, med3 cmp arr a b c = Ret p /\ lo <= p < hi.
Proof.
  intros Hl Hh Ha Hb Hc. unfold med3.
  rewrite (sub_raw_ok d arr a) by lia. cbn [bind]. rewrite (sub_raw_ok d arr b) by lia. cbn [bind].
  rewrite (sub_raw_ok d arr c) by lia. cbn [bind].
  destruct (cmp (g arr a) (g arr b)), (cmp (g arr b) (g arr c)), (cmp (g arr a) (g arr c)); eauto.
Qed.
Lemma getPivot_spec arr a n : 0 <= a -> 1 <= n -> a + n <= zlen arr ->
  exists p, getPivot cmp arr a n = Ret p /\ a <= p < a + n.
Proof.
  intros Ha Hn Hl. unfold getPivot. destruct (Z.leb_spec n 7); [eexists; split; [reflexivity|lia]|].
  destruct (Z.leb_spec n 40); [apply med3_spec; lia|].
  destruct (med3_spec a (a + n) arr a (a + n / 8) (a + 2 * (n / 8))) as (p1 & E1 & R1); [lia..|].
  rewrite E1. cbn [bind].
  destruct (med3_spec a (a + n) arr (a + n / 2 - n / 8) (a + n / 2) (a + n / 2 + n / 8)) as (p2 & E2 & R2); [lia..|].
  rewrite E2. cbn [bind].
  destruct (med3_spec a (a + n) arr (a + n - 1 - 2 * (n / 8)) (a + n - 1 - n / 8) (a + n - 1)) as (p3 & E3 & R3); [lia..|].
  rewrite E3. cbn [bind]. apply med3_spec; lia.
Qed.

(** ** Partitioning: [a] holds the pivot, positions run up to pn-1 *)
Definition part (arr : array) (v : A) (a pa pb pc pd pn : Z) : Prop :=
  a < pa /\ pa <= pb /\ pb <= pc + 1 /\ pc <= pd /\ pd < pn /\ g arr a = v /\
  (forall k, a < k < pa -> cmp (g arr k) v = Eq) /\
  (forall k, pa <= k < pb -> cmp (g arr k) v = Lt) /\
  (forall k, pc < k <= pd -> cmp (g arr k) v = Gt) /\
  (forall k, pd < k < pn -> cmp (g arr k) v = Eq).

Ltac cases := repeat match goal with
  | |- context [?x =? ?y] => destruct (Z.eqb_spec x y)
  | |- context [?x <? ?y] => destruct (Z.ltb_spec x y)
  | |- context [?x <=? ?y] => destruct (Z.leb_spec x y)
  end.

Lemma bottom_spec a pn v pc pd fuel : forall arr pa pb, 0 <= a -> pn <= zlen arr -> pc - pb + 1 < Z.of_nat fuel ->
  part arr v a pa pb pc pd pn ->
  exists arr' pa' pb', bottom cmp fuel arr a pc pa pb = Ret (arr', pa', pb') /\ rperm (a + 1) pn arr arr' /\
    part arr' v a pa' pb' pc pd pn /\ pb <= pb' /\ (pc < pb' \/ cmp (g arr' pb') v = Gt).
Proof.
  induction fuel as [|fuel IH]; intros arr pa pb Ha Hn Hf P; [destruct P; lia|]. cbn [bottom].
  rewrite Z.gtb_ltb. destruct (Z.ltb_spec pc pb).
  { exists arr, pa, pb. split; [reflexivity|]. split; [apply rperm_refl|]. split; [assumption|]. lia. }
  pose proof P as (P1 & P2 & P3 & P4 & P5 & V & Q1 & Q2 & Q3 & Q4).
  rewrite (sub_raw_ok d arr pb) by lia. cbn [bind]. rewrite (sub_raw_ok d arr a) by lia. cbn [bind]. rewrite V.
  destruct (cmp (g arr pb) v) eqn:C.
  - destruct (swap_rperm (a + 1) pn arr pa pb) as (a1 & E1 & R1 & G1); [lia..|]. rewrite E1. cbn [bind].
    pose proof (rperm_len _ _ _ _ R1) as L1.
    destruct (IH a1 (pa + 1) (pb + 1)) as (a2 & pa2 & pb2 & E2 & R2 & P' & X & Y); [lia..| |].
    { repeat split; try lia.
      - rewrite G1. cases; try lia. assumption.
      - intros k Hk. rewrite G1. cases; subst; try assumption; try lia. apply Q1. lia.
      - intros k Hk. rewrite G1. cases; subst; try lia; apply Q2; lia.
      - intros k Hk. rewrite G1. cases; subst; try lia; apply Q3; lia.
      - intros k Hk. rewrite G1. cases; subst; try lia; apply Q4; lia. }
    exists a2, pa2, pb2. split; [assumption|]. split; [eapply rperm_trans; eauto|]. split; [assumption|]. split; [lia|assumption].
  - destruct (IH arr pa (pb + 1)) as (a2 & pa2 & pb2 & E2 & R2 & P' & X & Y); [lia..| |].
    { repeat split; try lia; auto. intros k Hk. destruct (Z.eq_dec k pb); [subst; assumption|]. apply Q2. lia. }
    exists a2, pa2, pb2. split; [assumption|]. split; [assumption|]. split; [assumption|]. split; [lia|assumption].
  - exists arr, pa, pb. split; [reflexivity|]. split; [apply rperm_refl|]. split; [assumption|]. split; [lia|auto].
Qed.

Lemma top_spec a pn v pa pb fuel : forall arr pc pd, 0 <= a -> pn <= zlen arr -> pc - pb + 1 < Z.of_nat fuel ->
  part arr v a pa pb pc pd pn -> (pc < pb \/ cmp (g arr pb) v = Gt) ->
  exists arr' pc' pd', top cmp fuel arr a pb pc pd = Ret (arr', pc', pd') /\ rperm (a + 1) pn arr arr' /\
    part arr' v a pa pb pc' pd' pn /\ pc' <= pc /\
    (pc' < pb \/ (cmp (g arr' pb) v = Gt /\ cmp (g arr' pc') v = Lt)).
Proof.
  induction fuel as [|fuel IH]; intros arr pc pd Ha Hn Hf P B; [destruct P; lia|]. cbn [top].
  rewrite Z.gtb_ltb. destruct (Z.ltb_spec pc pb).
  { exists arr, pc, pd. split; [reflexivity|]. split; [apply rperm_refl|]. split; [assumption|]. lia. }
  destruct B as [B|B]; [lia|].
  pose proof P as (P1 & P2 & P3 & P4 & P5 & V & Q1 & Q2 & Q3 & Q4).
  rewrite (sub_raw_ok d arr pc) by lia. cbn [bind]. rewrite (sub_raw_ok d arr a) by lia. cbn [bind]. rewrite V.
  destruct (cmp (g arr pc) v) eqn:C.
  - assert (pb <> pc) by (intros ->; congruence).
    destruct (swap_rperm (a + 1) pn arr pc pd) as (a1 & E1 & R1 & G1); [lia..|]. rewrite E1. cbn [bind].
    pose proof (rperm_len _ _ _ _ R1) as L1.
    destruct (IH a1 (pc - 1) (pd - 1)) as (a2 & pc2 & pd2 & E2 & R2 & P' & X & Y); [lia..| | |].
    { repeat split; try lia.
      - rewrite G1. cases; try lia. assumption.
      - intros k Hk. rewrite G1. cases; subst; try lia; apply Q1; lia.
      - intros k Hk. rewrite G1. cases; subst; try lia; apply Q2; lia.
      - intros k Hk. rewrite G1. cases; subst; try lia; apply Q3; lia.
      - intros k Hk. rewrite G1. cases; subst; try assumption; try (exfalso; lia); first [replace pd with pc by lia; assumption | apply Q4; lia]. }
    { right. rewrite G1. cases; try lia; assumption. }
    exists a2, pc2, pd2. split; [assumption|]. split; [eapply rperm_trans; eauto|]. split; [assumption|]. split; [lia|assumption].
  - exists arr, pc, pd. split; [reflexivity|]. split; [apply rperm_refl|]. split; [assumption|]. split; [lia|auto].
  - destruct (IH arr (pc - 1) pd) as (a2 & pc2 & pd2 & E2 & R2 & P' & X & Y); [lia..| | |].
    { repeat split; try lia; auto. intros k Hk. destruct (Z.eq_dec k pc); [subst; assumption|]. apply Q3. lia. }
    { auto. }
    exists a2, pc2, pd2. split; [assumption|]. split; [assumption|]. split; [assumption|]. split; [lia|assumption].
Qed.

Lemma split_spec a pn v fuel : forall arr pa pb pc pd, 0 <= a -> pn <= zlen arr -> pc - pb + 1 < Z.of_nat fuel ->
  part arr v a pa pb pc pd pn ->
  exists arr' pa' pb' pc' pd', split cmp fuel arr a pa pb pc pd = Ret (arr', (pa', pb', pc', pd')) /\
    rperm (a + 1) pn arr arr' /\ part arr' v a pa' pb' pc' pd' pn /\ pb' = pc' + 1.
Proof.
  induction fuel as [|fuel IH]; intros arr pa pb pc pd Ha Hn Hf P; [destruct P; lia|].
  unfold split; fold (split cmp).
  destruct (bottom_spec a pn v pc pd (S fuel) arr pa pb Ha Hn Hf P) as (a1 & pa1 & pb1 & E1 & R1 & P1 & X1 & Y1).
  rewrite E1. cbn [bind]. pose proof (rperm_len _ _ _ _ R1) as L1.
  destruct (top_spec a pn v pa1 pb1 (S fuel) a1 pc pd) as (a2 & pc2 & pd2 & E2 & R2 & P2 & X2 & Y2); try assumption; [lia..|].
  rewrite E2. cbn [bind]. pose proof (rperm_len _ _ _ _ R2) as L2.
  rewrite Z.gtb_ltb. destruct (Z.ltb_spec pc2 pb1).
  - exists a2, pa1, pb1, pc2, pd2. split; [reflexivity|]. split; [eapply rperm_trans; eauto|].
    split; [assumption|]. destruct P2; lia.
  - destruct Y2 as [Y2|[Y2 Z2]]; [lia|].
    assert (pb1 <> pc2) by (intros ->; congruence).
    pose proof P2 as (B1 & B2 & B3 & B4 & B5 & V & Q1 & Q2 & Q3 & Q4).
    destruct (swap_rperm (a + 1) pn a2 pb1 pc2) as (a3 & E3 & R3 & G3); [lia..|]. rewrite E3. cbn [bind].
    pose proof (rperm_len _ _ _ _ R3) as L3.
    destruct (IH a3 pa1 (pb1 + 1) (pc2 - 1) pd2) as (a4 & pa4 & pb4 & pc4 & pd4 & E4 & R4 & P4 & X4); [lia..| |].
    { repeat split; try lia.
      - rewrite G3. cases; try lia. assumption.
      - intros k Hk. rewrite G3. cases; subst; try lia; apply Q1; lia.
      - intros k Hk. rewrite G3. cases; subst; try lia; try assumption; apply Q2; lia.
      - intros k Hk. rewrite G3. cases; subst; try lia; try assumption; apply Q3; lia.
      - intros k Hk. rewrite G3. cases; subst; try lia; apply Q4; lia. }
    exists a4, pa4, pb4, pc4, pd4. split; [assumption|].
    split; [eapply rperm_trans; [exact R1|]; eapply rperm_trans; [exact R2|]; eapply rperm_trans; [exact R3|]; exact R4|].
    split; assumption.
Qed.

(** ** The whole sort *)
Lemma sort_spec fuel : forall arr a n, 0 <= a -> 0 <= n -> a + n <= zlen arr -> n < Z.of_nat fuel ->
  exists arr', sort_ cmp fuel arr a n = Ret arr' /\ rperm a (a + n) arr arr' /\
  (total_preorder cmp -> rsorted a (a + n) arr').
Proof.
  induction fuel as [|fuel IH]; intros arr a n Ha Hn Hl Hf; [lia|].
  unfold sort_; fold (sort_ cmp). destruct (Z.ltb_spec n 7); [now apply insertSort_spec|].
  destruct (getPivot_spec arr a n) as (pm & Ep & Rp); [lia..|]. rewrite Ep. cbn [bind].
  destruct (swap_rperm a (a + n) arr a pm) as (a1 & E1 & R1 & _); [lia..|]. rewrite E1. cbn [bind].
  pose proof (rperm_len _ _ _ _ R1) as L1.
  destruct (split_spec a (a + n) (g a1 a) (S fuel) a1 (a + 1) (a + 1) (a + (n - 1)) (a + (n - 1)))
    as (a2 & pa & pb & pc & pd & E2 & R2 & P2 & X2); [lia..| |].
  { repeat split; intros; try lia. }
  rewrite E2. cbn [bind]. pose proof (rperm_len _ _ _ _ R2) as L2.
  set (v := g a1 a) in *.
  pose proof P2 as (B1 & B2 & B3 & B4 & B5 & V & Q1 & Q2 & Q3 & Q4).
  assert (M1 : min (pa - a) (pb - pa) = Z.min (pa - a) (pb - pa)) by (unfold min; destruct (Z.ltb_spec (pa - a) (pb - pa)); lia).
  assert (M2 : min (pd - pc) (a + n - pd - 1) = Z.min (pd - pc) (a + n - pd - 1)) by (unfold min; destruct (Z.ltb_spec (pd - pc) (a + n - pd - 1)); lia).
  rewrite M1, M2.
  remember (Z.min (pa - a) (pb - pa)) as r1 eqn:Er1. remember (Z.min (pd - pc) (a + n - pd - 1)) as r2 eqn:Er2.
  destruct (vecswap_spec a (a + n) (S fuel) a2 a (pb - r1) r1) as (a3 & E3 & R3 & G3); [lia..|].
  rewrite E3. cbn [bind]. pose proof (rperm_len _ _ _ _ R3) as L3.
  destruct (vecswap_spec a (a + n) (S fuel) a3 pb (a + n - r2) r2) as (a4 & E4 & R4 & G4); [lia..|].
  rewrite E4. cbn [bind]. pose proof (rperm_len _ _ _ _ R4) as L4.
  (* the three zones after partitioning *)
  assert (Z1 : forall k, a <= k < a + (pb - pa) -> cmp (g a4 k) v = Lt).
  { intros k Hk. rewrite G4. destruct (Z.leb_spec pb k); [lia|]. destruct (Z.leb_spec (a + n - r2) k); [lia|]. cbn [andb].
    rewrite G3. cases; cbn [andb]; try (exfalso; lia); apply Q2; lia. }
  assert (QE : total_preorder cmp -> forall k, a <= k < pa -> cmp (g a2 k) v = Eq).
  { intros TP k Hk. destruct (Z.eq_dec k a); [subst k; rewrite V; apply (tp_refl cmp TP)|apply Q1; lia]. }
  assert (Z2 : total_preorder cmp -> forall k, a + (pb - pa) <= k < a + n - (pd - pc) -> cmp (g a4 k) v = Eq).
  { intros TP k Hk. specialize (QE TP). rewrite G4.
    destruct (Z.leb_spec pb k).
    - destruct (Z.ltb_spec k (pb + r2)); cbn [andb].
      + rewrite G3. cases; cbn [andb]; try (exfalso; lia); apply Q4; lia.
      + cases; cbn [andb]; try (exfalso; lia); rewrite G3; cases; cbn [andb]; try (exfalso; lia); apply Q4; lia.
    - cbn [andb]. destruct (Z.leb_spec (a + n - r2) k); [lia|]. cbn [andb].
      rewrite G3. cases; cbn [andb]; try (exfalso; lia); apply QE; lia. }
  assert (Z3 : forall k, a + n - (pd - pc) <= k < a + n -> cmp (g a4 k) v = Gt).
  { intros k Hk. rewrite G4. cases; cbn [andb]; try (exfalso; lia); rewrite G3; cases; cbn [andb]; try (exfalso; lia); apply Q3; lia. }
  assert (R14 : rperm a (a + n) arr a4).
  { eapply rperm_trans; [exact R1|]. eapply rperm_trans; [eapply rperm_mono; [| |exact R2]; lia|].
    eapply rperm_trans; eauto. }
  clear E1 E2 E3 E4 G3 G4 M1 M2 QE Q1 Q2 Q3 Q4 R1 R2 R3 R4.
  (* the recursive calls *)
  assert (S1 : exists a5, (if pb - pa >? 1 then sort_ cmp fuel a4 a (pb - pa) else Ret a4) = Ret a5 /\
    rperm a (a + (pb - pa)) a4 a5 /\ (total_preorder cmp -> rsorted a (a + (pb - pa)) a5)).
  { rewrite Z.gtb_ltb. destruct (Z.ltb_spec 1 (pb - pa)).
    - apply IH; lia.
    - exists a4. split; [reflexivity|]. split; [apply rperm_refl|]. intros _ p q ? ? ?. lia. }
  destruct S1 as (a5 & E5 & R5 & S5). rewrite E5. cbn [bind]. pose proof (rperm_len _ _ _ _ R5) as L5.
  assert (S2 : exists a6, (if pd - pc >? 1 then sort_ cmp fuel a5 (a + n - (pd - pc)) (pd - pc) else Ret a5) = Ret a6 /\
    rperm (a + n - (pd - pc)) (a + n) a5 a6 /\ (total_preorder cmp -> rsorted (a + n - (pd - pc)) (a + n) a6)).
  { rewrite Z.gtb_ltb. destruct (Z.ltb_spec 1 (pd - pc)).
    - destruct (IH a5 (a + n - (pd - pc)) (pd - pc)) as (a6 & E6 & R6 & S6); [lia..|].
      replace (a + n - (pd - pc) + (pd - pc)) with (a + n) in R6, S6 by lia. eauto.
    - exists a5. split; [reflexivity|]. split; [apply rperm_refl|]. intros _ p q ? ? ?. lia. }
  destruct S2 as (a6 & E6 & R6 & S6). rewrite E6. exists a6. split; [reflexivity|]. split.
  - eapply rperm_trans; [exact R14|]. eapply rperm_trans; eapply rperm_mono; eauto; lia.
  - intros TP. specialize (S5 TP). specialize (S6 TP). specialize (Z2 TP).
    assert (Y1 : forall k, a <= k < a + (pb - pa) -> cmp (g a6 k) v = Lt).
    { intros k Hk. rewrite (rperm_out _ _ _ _ k R6) by lia. revert k Hk. apply (rperm_all a (a + (pb - pa)) a4 a5 (fun x => cmp x v = Lt) R5). exact Z1. }
    assert (Y2 : forall k, a + (pb - pa) <= k < a + n - (pd - pc) -> cmp (g a6 k) v = Eq).
    { intros k Hk. rewrite (rperm_out _ _ _ _ k R6) by lia. rewrite (rperm_out _ _ _ _ k R5) by lia. auto. }
    assert (Y3 : forall k, a + n - (pd - pc) <= k < a + n -> cmp (g a6 k) v = Gt).
    { apply (rperm_all (a + n - (pd - pc)) (a + n) a5 a6 (fun x => cmp x v = Gt) R6). intros k Hk. rewrite (rperm_out _ _ _ _ k R5) by lia. auto. }
    intros p q Hp Hpq Hq.
    assert (T : forall x y, cmp x v <> Gt -> cmp y v <> Lt -> ord_le cmp x y).
    { intros x y Hx Hy. apply (tp_le_trans cmp TP) with v; [exact Hx|]. now apply (tp_total cmp TP). }
    destruct (Z_lt_dec q (a + (pb - pa))).
    { rewrite !(rperm_out _ _ _ _ _ R6) by lia. apply S5; lia. }
    destruct (Z_lt_dec p (a + n - (pd - pc))) as [Hp'|Hp'].
    + apply T.
      * destruct (Z_lt_dec p (a + (pb - pa))); [rewrite Y1 by lia|rewrite Y2 by lia]; discriminate.
      * destruct (Z_lt_dec q (a + n - (pd - pc))); [rewrite Y2 by lia|rewrite Y3 by lia]; discriminate.
    + apply S6; lia.
Qed.

Lemma rsorted_all a : rsorted 0 (zlen a) a -> nondecreasing cmp a.
Proof.
  unfold nondecreasing. induction a as [|x a IH]; intros S; constructor.
  - apply IH. intros p q H1 H2 H3. specialize (S (p + 1) (q + 1)). unfold znth in *. rewrite !zget_cons in S.
    rewrite zlen_cons in S.
    destruct (Z.eqb_spec (p + 1) 0); [lia|]. destruct (Z.eqb_spec (q + 1) 0); [lia|].
    replace (p + 1 - 1) with p in S by lia. replace (q + 1 - 1) with q in S by lia. apply S; lia.
  - apply Forall_forall. intros y Hy. apply In_zget in Hy as (i & Hi). pose proof (zget_range _ _ _ Hi) as R.
    specialize (S 0 (i + 1)). unfold znth in S. rewrite !zget_cons in S. rewrite zlen_cons in S.
    destruct (Z.eqb_spec (i + 1) 0); [lia|]. cbn [Z.eqb] in S. replace (i + 1 - 1) with i in S by lia.
    rewrite Hi in S. apply S; lia.
Qed.

(** ** sorted *)
Lemma s_spec (TP : total_preorder cmp) arr fuel : forall i, 2 <= i <= zlen arr -> zlen arr - i < Z.of_nat fuel ->
  rsorted 0 (i - 1) arr ->
  exists b, s cmp fuel arr (g arr (i - 2)) (g arr (i - 1)) i = Ret b /\ (b = true <-> rsorted 0 (zlen arr) arr).
Proof.
  induction fuel as [|fuel IH]; intros i Hi Hf S; [lia|]. cbn [s].
  destruct (cmp (g arr (i - 2)) (g arr (i - 1))) eqn:C; cycle 2.
  { exists false. split; [reflexivity|]. split; [discriminate|]. intros S'. specialize (S' (i - 2) (i - 1)).
    unfold ord_le in S'. rewrite C in S'. exfalso. apply S'; auto; lia. }
  all: assert (S1 : rsorted 0 i arr) by
    (intros p q H1 H2 H3; destruct (Z.eq_dec q (i - 1)); [subst q|apply S; lia];
     destruct (Z.eq_dec p (i - 2)); [subst p; unfold ord_le; congruence|];
     apply (tp_le_trans cmp TP) with (g arr (i - 2)); [apply S; lia|unfold ord_le; congruence]).
  all: rewrite Z.geb_leb; destruct (Z.leb_spec (zlen arr) i);
    [exists true; split; [reflexivity|]; split; [intros _|reflexivity]; replace (zlen arr) with i by lia; assumption|].
  all: rewrite (sub_raw_ok d arr i) by lia; cbn [bind].
  all: specialize (IH (i + 1)); replace (i + 1 - 2) with (i - 1) in IH by lia; replace (i + 1 - 1) with i in IH by lia;
    apply IH; [lia|lia|assumption].
Qed.
End Proofs.
