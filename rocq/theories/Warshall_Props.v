(** C38: the transitive closure in the parser generator is correct. *)
From Coq Require Import Relations.
From Verif Require Import Base ArrayLib Warshall_Model.

(** *** Specification *)
(** bit j of row i of a matrix of n rows; rows begin at words and take WORDSIZE(n) words each *)
Definition bit (R : list Z) (n i j : Z) : bool :=
  Z.testbit (znth 0 R (i * ((n + 31) / 32) + j / 32)) (j mod 32).
(** the relation on 0..n-1 it stands for *)
Definition rel (R : list Z) (n : Z) : Z -> Z -> Prop :=
  fun i j => 0 <= i < n /\ 0 <= j < n /\ bit R n i j = true.
(** a matrix of n rows, of words of 32 bits, indexed by an int *)
Definition matrix (R : list Z) (n : Z) : Prop :=
  0 <= n /\ zlen R = n * ((n + 31) / 32) /\ n * ((n + 31) / 32) < 2 ^ 31 /\ forall w, In w R -> 0 <= w < 2 ^ 32.

(** *** Proofs *)
Lemma zset_props {A} (a : list A) i x d : 0 <= i < zlen a -> exists a', update_raw a i x = Ret a' /\ zlen a' = zlen a /\
  forall k, znth d a' k = if k =? i then x else znth d a k.
Proof.
  intros H. destruct (zset_some a i x H) as (a' & E & L & G). exists a'. unfold update_raw. rewrite E.
  split; [reflexivity|]. split; [assumption|]. intros k. unfold znth. rewrite G. now destruct (k =? i).
Qed.
Lemma sub_ok (a : list Z) i : 0 <= i < zlen a -> sub_raw a i = Ret (znth 0 a i).
Proof. intros H. destruct (zget_some a i H) as [x E]. unfold sub_raw, znth. now rewrite E. Qed.

Lemma or_row_ok fuel : forall R p q e k, 0 <= p <= e -> 0 <= q -> e <= zlen R -> q + (e - p) <= zlen R -> e - p < Z.of_nat fuel ->
  (p = q \/ q + (e - p) <= p \/ e <= q) -> k = e ->
  exists R', or_row fuel R p q e = Ret (R', k) /\ zlen R' = zlen R /\
    forall x, znth 0 R' x = if (p <=? x) && (x <? e) then Z.lor (znth 0 R x) (znth 0 R (q + (x - p))) else znth 0 R x.
Proof.
  induction fuel as [|fuel IH]; intros R p q e k Hp Hq He Hq2 HF HD ->; [lia|]. cbn [or_row].
  destruct (Z.ltb_spec p e) as [L|L].
  - rewrite (sub_ok R p), (sub_ok R q) by lia. cbn [bind].
    destruct (zset_props R p (Z.lor (znth 0 R p) (znth 0 R q)) 0) as (R1 & -> & L1 & G1); [lia|]. cbn [bind].
    destruct (IH R1 (p + 1) (q + 1) e e) as (R' & -> & L' & G'); try lia.
    exists R'. split; [reflexivity|]. split; [lia|]. intros x. rewrite G'.
    destruct (Z.eq_dec x p) as [->|N].
    + assert ((p + 1 <=? p) && (p <? e) = false) as -> by lia. assert ((p <=? p) && (p <? e) = true) as -> by lia.
      rewrite G1, Z.eqb_refl. now replace (q + (p - p)) with q by lia.
    + assert ((p + 1 <=? x) && (x <? e) = (p <=? x) && (x <? e)) as -> by lia.
      rewrite !G1. rewrite (proj2 (Z.eqb_neq x p)) by assumption.
      destruct ((p <=? x) && (x <? e)) eqn:B; [|reflexivity].
      replace (q + 1 + (x - (p + 1))) with (q + (x - p)) by lia.
      destruct (Z.eqb_spec (q + (x - p)) p) as [E|E]; [|reflexivity].
      exfalso. lia.
  - exists R. replace p with e by lia. split; [reflexivity|]. split; [reflexivity|]. intros x.
    assert ((e <=? x) && (x <? e) = false) as -> by lia. reflexivity.
Qed.

(** word indices *)
Lemma word_index rs i j : 0 <= j < rs * 32 -> i * rs <= i * rs + j / 32 < (i + 1) * rs.
Proof. intros H. lia. Qed.

Lemma mask_bit w k : 0 <= k < 32 -> 0 <= w -> negb (Z.land w (2 ^ k) =? 0) = Z.testbit w k.
Proof.
  intros H Hw. destruct (Z.testbit w k) eqn:E.
  - destruct (Z.eqb_spec (Z.land w (2 ^ k)) 0) as [Z0|N]; [|reflexivity].
    apply (f_equal (fun z => Z.testbit z k)) in Z0. rewrite Z.land_spec, Z.pow2_bits_true, E in Z0 by lia.
    rewrite Z.bits_0 in Z0. discriminate.
  - destruct (Z.eqb_spec (Z.land w (2 ^ k)) 0) as [Z0|N]; [reflexivity|]. elim N. apply Z.bits_inj. intros i.
    rewrite Z.land_spec, Z.bits_0. destruct (Z.eq_dec i k) as [->|NE]; [now rewrite E|].
    destruct (Z.lt_ge_cases i 0); [rewrite Z.testbit_neg_r by assumption; reflexivity|].
    rewrite Z.pow2_bits_false by lia. apply andb_false_r.
Qed.

Section Matrix.
Variable n : Z.
Hypothesis Hn : 0 <= n.
Let rs := (n + 31) / 32.
Hypothesis Hsmall : n * rs < 2 ^ 31.

Definition words (R : list Z) : Prop := zlen R = n * rs /\ forall x, 0 <= znth 0 R x < 2 ^ 32.

Lemma rs_pos : 0 < n -> 0 < rs. Proof. unfold rs. lia. Qed.
Lemma n_rs j : 0 <= j < n -> 0 <= j / 32 < rs. Proof. unfold rs. lia. Qed.

(** one pass of row k over the rows from j on *)
Lemma rows_j_ok fuel : forall R k j, words R -> 0 <= k < n -> 0 <= j <= n -> n - j < Z.of_nat fuel ->
  exists R', rows_j fuel R rs (n * rs) (2 ^ (k mod 32)) (k * rs) (k / 32 + j * rs) (j * rs) = Ret R' /\ words R' /\
    forall i c, 0 <= i < n -> 0 <= c < n ->
      bit R' n i c = if (j <=? i) && bit R n i k then bit R n i c || bit R n k c else bit R n i c.
Proof.
  induction fuel as [|fuel IH]; intros R k j HW Hk Hj HF; [lia|]. cbn [rows_j].
  pose proof (rs_pos ltac:(lia)) as Prs. pose proof (n_rs k Hk) as Pk.
  destruct (Z.ltb_spec (j * rs) (n * rs)) as [L|L].
  2:{ assert (j = n) as -> by nia. exists R. split; [reflexivity|]. split; [assumption|]. intros i c Hi Hc.
      rewrite (proj2 (Z.leb_gt n i)) by lia. reflexivity. }
  assert (j < n) as Hjn by nia. destruct HW as [WL WB].
  assert (0 <= k / 32 + j * rs < zlen R) as B1 by (rewrite WL; nia).
  rewrite sub_ok by assumption. cbn [bind]. rewrite mask_bit; [|lia|apply WB].
  replace (Z.testbit (znth 0 R (k / 32 + j * rs)) (k mod 32)) with (bit R n j k)
    by (unfold bit; fold rs; f_equal; f_equal; lia).
  destruct (bit R n j k) eqn:EB.
  - assert (J1 : j * rs + rs = (j + 1) * rs) by lia. rewrite J1.
    assert (0 <= j * rs) as X1 by nia. assert ((j + 1) * rs <= n * rs) as X2 by nia. assert (0 <= k * rs) as X3 by nia.
    assert ((k + 1) * rs <= n * rs) as X4 by nia. assert ((j + 1) * rs - j * rs = rs) as X5 by lia.
    destruct (or_row_ok (S (Z.to_nat rs)) R (j * rs) (k * rs) ((j + 1) * rs) ((j + 1) * rs)) as (R1 & -> & L1 & G1).
    { lia. } { lia. } { lia. } { rewrite WL. lia. } { lia. }
    { destruct (Z.lt_trichotomy j k) as [C|[C|C]]; [right; right; nia|left; now rewrite C|right; left; nia]. }
    { reflexivity. }
    cbn [bind].
    assert (WB1 : forall x, 0 <= znth 0 R1 x < 2 ^ 32).
    { intros x. rewrite G1. destruct ((_ <=? x) && (x <? _)); [|apply WB].
      pose proof (WB x) as Ba. pose proof (WB (k * rs + (x - j * rs))) as Bb. split; [apply Z.lor_nonneg; lia|].
      destruct (Z.eq_dec (Z.lor (znth 0 R x) (znth 0 R (k * rs + (x - j * rs)))) 0) as [->|N]; [reflexivity|].
      apply Z.log2_lt_cancel. rewrite Z.log2_lor by lia. rewrite Z.log2_pow2 by lia.
      assert (LG : forall a, 0 <= a < 2 ^ 32 -> Z.log2 a < 32).
      { intros a Ha. destruct (Z.eq_dec a 0) as [->|Na]; [reflexivity|]. apply Z.log2_lt_pow2; lia. }
      pose proof (LG _ Ba). pose proof (LG _ Bb). lia. }
    replace (k / 32 + j * rs + rs) with (k / 32 + (j + 1) * rs) by lia.
    destruct (IH R1 k (j + 1)) as (R' & E & HW' & HB); [split; [lia|assumption]|lia|lia|lia|].
    exists R'. split; [exact E|]. split; [assumption|]. intros i c Hi Hc. rewrite HB by assumption.
    assert (RB : forall i c, 0 <= i < n -> 0 <= c < n -> bit R1 n i c = if i =? j then bit R n j c || bit R n k c else bit R n i c).
    { clear - G1 Hn Prs Hjn Hj Hk. intros i c Hi Hc. unfold bit. fold rs. rewrite G1. pose proof (n_rs c Hc) as Pc.
      destruct (Z.eqb_spec i j) as [->|N].
      - assert ((j * rs <=? j * rs + c / 32) && (j * rs + c / 32 <? (j + 1) * rs) = true) as -> by lia.
        rewrite Z.lor_spec. do 2 f_equal. f_equal. lia.
      - destruct ((j * rs <=? i * rs + c / 32) && (i * rs + c / 32 <? (j + 1) * rs)) eqn:C; [|reflexivity].
        exfalso. destruct (Z.lt_trichotomy i j) as [D|[D|D]]; [|lia|]; nia. }
    rewrite !RB by lia. destruct (Z.eqb_spec i j) as [->|N].
    + assert ((j + 1 <=? j) = false) as -> by lia. assert ((j <=? j) = true) as -> by lia. cbn [andb]. now rewrite EB.
    + assert ((j + 1 <=? i) = (j <=? i)) as -> by lia.
      destruct (Z.eqb_spec k j) as [->|NK]; [|reflexivity]. now rewrite orb_diag.
  - replace (j * rs + rs) with ((j + 1) * rs) by lia.
    replace (k / 32 + j * rs + rs) with (k / 32 + (j + 1) * rs) by lia. cbn [bind].
    destruct (IH R k (j + 1)) as (R' & E & HW' & HB); [now split|lia|lia|lia|].
    exists R'. split; [exact E|]. split; [assumption|]. intros i c Hi Hc. rewrite HB by assumption.
    destruct (Z.eq_dec i j) as [->|N].
    + assert ((j + 1 <=? j) = false) as -> by lia. assert ((j <=? j) = true) as -> by lia. cbn [andb]. now rewrite EB.
    + assert ((j + 1 <=? i) = (j <=? i)) as -> by lia. reflexivity.
Qed.

(** paths whose inner nodes are below k *)
Inductive path (R : list Z) (k : Z) : Z -> Z -> Prop :=
| path_edge i j : rel R n i j -> path R k i j
| path_via i x j : 0 <= x < k -> x < n -> path R k i x -> path R k x j -> path R k i j.

Lemma path_range R k i j : path R k i j -> 0 <= i < n /\ 0 <= j < n.
Proof. induction 1 as [i j H|]; [destruct H as (? & ? & _); lia|lia]. Qed.
Lemma path_mono R k k' i j : k <= k' -> path R k i j -> path R k' i j.
Proof. intros H. induction 1; [now apply path_edge|]. apply (path_via R k' i x j); auto; lia. Qed.
(** a path through nodes up to k: either avoids k, or goes to k and from k avoiding it inside *)
Lemma path_split R k i j : 0 <= k -> path R (k + 1) i j -> path R k i j \/ (path R k i k /\ path R k k j).
Proof.
  intros Hk. induction 1 as [i j H|i x j Hx Hxn P1 IH1 P2 IH2]; [left; now apply path_edge|].
  destruct (Z.eq_dec x k) as [->|N].
  - right. split; [destruct IH1 as [|[]]; assumption|destruct IH2 as [|[]]; assumption].
  - assert (0 <= x < k) as Hx' by lia.
    destruct IH1 as [A|[A1 A2]], IH2 as [B|[B1 B2]].
    + left. now apply (path_via R k i x j).
    + right. split; [now apply (path_via R k i x k)|assumption].
    + right. split; [assumption|now apply (path_via R k k x j)].
    + right. split; assumption.
Qed.

Lemma rows_i_ok R0 fuel : forall R k, words R -> 0 <= k <= n -> n - k < Z.of_nat fuel ->
  (forall i j, 0 <= i < n -> 0 <= j < n -> (bit R n i j = true <-> path R0 k i j)) ->
  exists R', rows_i fuel n R rs (n * rs) (k / 32) (2 ^ (k mod 32)) (k * rs) = Ret R' /\ words R' /\
   forall i j, 0 <= i < n -> 0 <= j < n -> (bit R' n i j = true <-> path R0 n i j).
Proof.
  induction fuel as [|fuel IH]; intros R k HW Hk HF HI; [lia|]. cbn [rows_i].
  destruct (Z.ltb_spec (k * rs) (n * rs)) as [L|L].
  2:{ exists R. split; [reflexivity|]. split; [assumption|]. intros i j Hi Hj. rewrite HI by assumption.
      assert (0 < rs) by (apply rs_pos; lia). assert (k = n) as -> by nia. reflexivity. }
  assert (k < n) as Hkn by nia.
  destruct (rows_j_ok (S (Z.to_nat n)) R k 0) as (R1 & E1 & W1 & B1); [assumption|lia|lia|lia|].
  replace (k / 32 + 0 * rs) with (k / 32) in E1 by lia. replace (0 * rs) with 0 in E1 by lia. rewrite E1. cbn [bind].
  assert (MASK : (if shl1 (2 ^ (k mod 32)) =? 0 then (k / 32 + 1, 1) else (k / 32, shl1 (2 ^ (k mod 32)))) = ((k + 1) / 32, 2 ^ ((k + 1) mod 32))).
  { unfold shl1. replace (2 ^ (k mod 32) * 2) with (2 ^ (k mod 32 + 1)) by (rewrite Z.pow_add_r by lia; reflexivity).
    destruct (Z.eq_dec (k mod 32) 31) as [E|N].
    - rewrite E. cbn. f_equal; [lia|]. replace ((k + 1) mod 32) with 0 by lia. reflexivity.
    - assert (2 ^ (k mod 32 + 1) <= 2 ^ 31) as U by (apply Z.pow_le_mono_r; lia). assert (0 < 2 ^ (k mod 32 + 1)) as V by (apply Z.pow_pos_nonneg; lia).
      change (2 ^ 31) with 2147483648 in U. rewrite Z.mod_small by lia.
      destruct (Z.eqb_spec (2 ^ (k mod 32 + 1)) 0); [lia|]. f_equal; [lia|]. f_equal. lia. }
  cbv zeta. rewrite MASK. replace (k * rs + rs) with ((k + 1) * rs) by lia.
  apply IH; [assumption|lia|lia|]. intros i j Hi Hj. rewrite B1 by assumption.
  assert ((0 <=? i) = true) as -> by lia. cbn [andb].
  specialize (HI i j Hi Hj) as HIij. pose proof (HI i k Hi ltac:(lia)) as HIik. pose proof (HI k j ltac:(lia) Hj) as HIkj.
  split.
  - intros H. destruct (bit R n i k) eqn:Eik.
    + apply orb_true_iff in H as [H|H].
      * apply path_mono with k; [lia|]. now apply HIij.
      * apply (path_via R0 (k + 1) i k j); [lia|lia|apply path_mono with k; [lia|now apply HIik]|apply path_mono with k; [lia|now apply HIkj]].
    + apply path_mono with k; [lia|]. now apply HIij.
  - intros P. apply path_split in P as [P|[P1 P2]]; [| |lia].
    + apply HIij in P. rewrite P. now destruct (bit R n i k).
    + apply HIik in P1. apply HIkj in P2. rewrite P1, P2. apply orb_true_r.
Qed.

Lemma path_clos R i j : path R n i j <-> clos_trans Z (rel R n) i j.
Proof.
  split.
  - induction 1; [now apply t_step|eapply t_trans; eassumption].
  - induction 1 as [x y H|x y z H1 IH1 H2 IH2]; [now apply path_edge|].
    pose proof (path_range _ _ _ _ IH1). apply (path_via R n x y z); try assumption; lia.
Qed.

Lemma matrix_words R : matrix R n -> words R.
Proof.
  intros (_ & L & _ & B). split; [exact L|]. intros x. unfold znth. destruct (zget R x) as [w|] eqn:E; [|lia].
  apply B. eapply zget_In, E.
Qed.

Lemma closure_ok R : matrix R n -> exists R', transitive_closure R n = Ret R' /\ words R' /\
  forall i j, 0 <= i < n -> 0 <= j < n -> (bit R' n i j = true <-> clos_trans Z (rel R n) i j).
Proof.
  intros M. pose proof (matrix_words R M) as W. unfold transitive_closure, WORDSIZE, mulint. fold rs.
  change (2 ^ 31) with 2147483648 in Hsmall. rewrite (proj2 (Z.ltb_lt _ _)) by assumption. cbn [bind].
  destruct (rows_i_ok R (S (Z.to_nat n)) R 0) as (R' & E & W' & B); [assumption|lia|lia| |].
  - intros i j Hi Hj. split.
    + intros Hb. apply path_edge. now split.
    + induction 1 as [i j (_ & _ & Hb)|]; [assumption|lia].
  - exists R'. change (0 / 32) with 0 in E. change (2 ^ (0 mod 32)) with 1 in E. change (0 * rs) with 0 in E.
    split; [assumption|]. split; [assumption|]. intros i j Hi Hj. rewrite B by assumption. apply path_clos.
Qed.

(** the diagonal *)
Lemma diagonal_ok fuel : forall R k, words R -> 0 <= k <= n -> n - k < Z.of_nat fuel ->
  exists R', diagonal fuel R rs (n * rs) (2 ^ (k mod 32)) (k * rs + k / 32) = Ret R' /\ words R' /\
    forall i j, 0 <= i < n -> 0 <= j < n -> bit R' n i j = ((k <=? i) && (i =? j)) || bit R n i j.
Proof.
  induction fuel as [|fuel IH]; intros R k HW Hk HF; [lia|]. cbn [diagonal].
  destruct (Z.eq_dec k n) as [->|Nk].
  { destruct (Z.ltb_spec (n * rs + n / 32) (n * rs)); [lia|]. exists R. split; [reflexivity|]. split; [assumption|].
    intros i j Hi Hj. assert ((n <=? i) = false) as -> by lia. reflexivity. }
  assert (0 < rs) as Prs by (apply rs_pos; lia). pose proof (n_rs k ltac:(lia)) as Pk.
  assert (k * rs + k / 32 < n * rs) as L by nia. rewrite (proj2 (Z.ltb_lt _ _)) by assumption.
  destruct HW as [WL WB]. rewrite sub_ok by nia. cbn [bind].
  set (w := znth 0 R (k * rs + k / 32)).
  destruct (zset_props R (k * rs + k / 32) (Z.lor w (2 ^ (k mod 32))) 0) as (R1 & -> & L1 & G1); [nia|]. cbn [bind].
  assert (NEXT : (if shl1 (2 ^ (k mod 32)) =? 0 then (k * rs + k / 32 + 1, 1) else (k * rs + k / 32, shl1 (2 ^ (k mod 32)))) =
     (k * rs + (k + 1) / 32, 2 ^ ((k + 1) mod 32))).
  { unfold shl1. replace (2 ^ (k mod 32) * 2) with (2 ^ (k mod 32 + 1)) by (rewrite Z.pow_add_r by lia; reflexivity).
    destruct (Z.eq_dec (k mod 32) 31) as [E|N].
    - rewrite E. change (2 ^ (31 + 1) mod 4294967296) with 0. cbn [Z.eqb]. f_equal; [lia|]. replace ((k + 1) mod 32) with 0 by lia. reflexivity.
    - assert (2 ^ (k mod 32 + 1) <= 2 ^ 31) as U by (apply Z.pow_le_mono_r; lia). assert (0 < 2 ^ (k mod 32 + 1)) as V by (apply Z.pow_pos_nonneg; lia).
      change (2 ^ 31) with 2147483648 in U. rewrite Z.mod_small by lia.
      destruct (Z.eqb_spec (2 ^ (k mod 32 + 1)) 0); [lia|]. f_equal; [lia|]. f_equal. lia. }
  cbv zeta. rewrite NEXT. replace (k * rs + (k + 1) / 32 + rs) with ((k + 1) * rs + (k + 1) / 32) by lia.
  assert (0 < 2 ^ (k mod 32) < 2 ^ 32) as PB by (split; [apply Z.pow_pos_nonneg; lia|apply Z.pow_lt_mono_r; lia]).
  destruct (IH R1 (k + 1)) as (R' & E & W' & B); [|lia|lia|].
  { split; [lia|]. intros x. rewrite G1. destruct (Z.eqb_spec x (k * rs + k / 32)); [|apply WB].
    pose proof (WB (k * rs + k / 32)) as Bw. fold w in Bw. split; [apply Z.lor_nonneg; lia|].
    destruct (Z.eq_dec w 0) as [->|Nw]; [rewrite Z.lor_0_l; lia|].
    apply Z.log2_lt_cancel. rewrite Z.log2_lor by lia. rewrite !Z.log2_pow2 by lia.
    assert (Z.log2 w < 32) by (apply Z.log2_lt_pow2; lia). lia. }
  exists R'. split; [exact E|]. split; [assumption|]. intros i j Hi Hj. rewrite B by assumption.
  assert (RB : bit R1 n i j = ((i =? k) && (j =? k)) || bit R n i j).
  { unfold bit. fold rs. rewrite G1. pose proof (n_rs j Hj) as Pj.
    destruct (Z.eqb_spec (i * rs + j / 32) (k * rs + k / 32)) as [EQ|NE].
    - assert (i = k) as -> by (destruct (Z.lt_trichotomy i k) as [D|[D|D]]; [exfalso; nia|assumption|exfalso; nia]).
      assert (j / 32 = k / 32) as Ej by lia. unfold w. rewrite Z.lor_spec. rewrite orb_comm. rewrite Z.eqb_refl. cbn [andb].
      rewrite Ej. f_equal. rewrite Z.pow2_bits_eqb by lia. lia.
    - destruct (Z.eqb_spec i k) as [->|]; [|reflexivity]. destruct (Z.eqb_spec j k) as [->|]; [now elim NE|reflexivity]. }
  rewrite RB. destruct (Z.eqb_spec i j) as [->|N].
  - rewrite !andb_true_r. destruct (Z.eqb_spec j k) as [->|].
    + assert ((k <=? k) = true) as -> by lia. cbn [andb orb]. apply orb_true_r.
    + assert ((k + 1 <=? j) = (k <=? j)) as -> by lia. reflexivity.
  - rewrite !andb_false_r. cbn [orb]. assert ((i =? k) && (j =? k) = false) as -> by lia. reflexivity.
Qed.
End Matrix.

(** transitive_closure computes the transitive closure, for every size, without accessing anything
    outside the matrix (that would be UB) *)
Theorem C38_transitive_closure : forall R n, matrix R n ->
  exists R', transitive_closure R n = Ret R' /\ zlen R' = zlen R /\
    forall i j, 0 <= i < n -> 0 <= j < n -> (bit R' n i j = true <-> clos_trans Z (rel R n) i j).
Proof.
  intros R n M. pose proof M as (Hn & L & Sm & _).
  destruct (closure_ok n Hn Sm R M) as (R' & E & [L' _] & B). exists R'. split; [assumption|]. split; [lia|assumption].
Qed.

Theorem C38_reflexive_transitive_closure : forall R n, matrix R n ->
  exists R', reflexive_transitive_closure R n = Ret R' /\ zlen R' = zlen R /\
    forall i j, 0 <= i < n -> 0 <= j < n -> (bit R' n i j = true <-> clos_refl_trans Z (rel R n) i j).
Proof.
  intros R n M. pose proof M as (Hn & L & Sm & _).
  destruct (closure_ok n Hn Sm R M) as (R1 & E & W1 & B).
  unfold reflexive_transitive_closure. rewrite E. cbn [bind]. unfold WORDSIZE, mulint.
  change (2 ^ 31) with 2147483648 in *. rewrite (proj2 (Z.ltb_lt _ _)) by assumption. cbn [bind].
  destruct (diagonal_ok n Hn (S (Z.to_nat n)) R1 0 W1) as (R' & E' & [L' _] & B'); [lia|lia|].
  change (0 / 32) with 0 in E'. change (2 ^ (0 mod 32)) with 1 in E'. replace (0 * ((n + 31) / 32) + 0) with 0 in E' by lia.
  exists R'. split; [assumption|]. split; [lia|]. intros i j Hi Hj. rewrite B' by assumption.
  assert ((0 <=? i) = true) as -> by lia. cbn [andb].
  assert (X : clos_refl_trans Z (rel R n) i j <-> i = j \/ clos_trans Z (rel R n) i j).
  { split.
    - induction 1 as [x y H|x|x y z H1 IH1 H2 IH2]; [right; now apply t_step|now left|].
      assert (K : forall x y, clos_refl_trans Z (rel R n) x y -> x = y \/ clos_trans Z (rel R n) x y).
      { clear. induction 1 as [x y H|x|x y z H1 IH1 H2 IH2]; [right; now apply t_step|now left|].
        destruct IH1 as [->|IH1]; [assumption|]. destruct IH2 as [->|IH2]; [now right|]. right. eapply t_trans; eassumption. }
      apply K. eapply rt_trans; eassumption.
    - assert (K : forall x y, clos_trans Z (rel R n) x y -> clos_refl_trans Z (rel R n) x y).
      { clear. induction 1 as [x y H|x y z H1 IH1 H2 IH2]; [now apply rt_step|eapply rt_trans; eassumption]. }
      intros [->|H]; [apply rt_refl|now apply K]. }
  rewrite X, orb_true_iff, Z.eqb_eq, B by assumption. reflexivity.
Qed.

(** *** Example: 0 -> 1 -> 2 -> 0, 33 -> 34 among 40 nodes (two words per row) *)
Definition ex_matrix : list Z :=
  [2; 0; 4; 0; 1; 0] ++ repeat 0 60 ++ [0; 4] ++ repeat 0 12.
Example closure_example : matrix ex_matrix 40 /\
  (do R <- transitive_closure ex_matrix 40; Ret (bit R 40 0 0, bit R 40 1 0, bit R 40 33 34, bit R 40 34 34, bit R 40 0 34))
    = Ret (true, true, true, false, false).
Proof.
  split; [|vm_compute; reflexivity]. split; [lia|]. split; [reflexivity|]. split; [reflexivity|].
  intros w H. cbn in H. repeat (destruct H as [<-|H]; [lia|]). contradiction.
Qed.

Print Assumptions C38_transitive_closure.
Print Assumptions C38_reflexive_transitive_closure.
