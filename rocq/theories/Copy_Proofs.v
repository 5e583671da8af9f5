(** Facts about the copying functions. *)
From Verif Require Import Base ArrayLib Copy_Model.

Section Store.
Context {A : Type}.
Notation store := (store A).

(** element j of array id *)
Definition peek (st : store) (id j : Z) : option A := match zget st id with Some a => zget a j | None => None end.

Lemma peek_deref st id a : deref st id = Ret a -> forall j, peek st id j = zget a j.
Proof. unfold deref, peek. intros H j. destruct (zget st id); [|discriminate]. now injection H as ->. Qed.
Lemma sub_ok st id i v : peek st id i = Some v -> sub_ st id i = Ret v.
Proof. unfold peek, sub_, deref, sub_raw. destruct (zget st id); [|discriminate]. cbn [bind]. now intros ->. Qed.
Lemma update_ok st id i v w : peek st id i = Some w -> exists st', update_ st id i v = Ret st' /\ zlen st' = zlen st /\
  forall id' j, peek st' id' j = if (id' =? id) && (j =? i) then Some v else peek st id' j.
Proof.
  unfold peek, update_, deref, update_raw. destruct (zget st id) as [a|] eqn:G; [|discriminate]. cbn [bind]. intros H.
  destruct (zset_some a i v (zget_range _ _ _ H)) as (a' & -> & La & Ga). cbn [bind].
  destruct (zset_some st id a' (zget_range _ _ _ G)) as (st' & -> & Ls & Gs).
  exists st'. split; [reflexivity|]. split; [assumption|]. intros id' j. rewrite Gs.
  destruct (Z.eqb_spec id' id) as [->|]; [|reflexivity]. rewrite Ga. cbn [andb]. destruct (Z.eqb_spec j i); [reflexivity|]. now rewrite G.
Qed.

(** n elements have been moved from (a1, i1) to (a2, i2) and nothing else changed *)
Definition moved (st : store) (a1 i1 a2 i2 n : Z) (st' : store) : Prop :=
  zlen st' = zlen st /\
  forall id x, peek st' id x = if (id =? a2) && ((i2 <=? x) && (x <? i2 + n)) then peek st a1 (i1 + (x - i2)) else peek st id x.

Lemma hi2lo_ok fuel : forall st a1 i1 a2 i2 j, -1 <= j -> j + 1 < Z.of_nat fuel -> a1 <> a2 \/ i1 <= i2 ->
  (forall k, 0 <= k <= j -> peek st a1 (i1 + k) <> None) -> (forall k, 0 <= k <= j -> peek st a2 (i2 + k) <> None) ->
  exists st', hi2lo fuel st a1 i1 a2 i2 j = Ret st' /\ moved st a1 i1 a2 i2 (j + 1) st'.
Proof.
  induction fuel as [|fuel IH]; intros st a1 i1 a2 i2 j Hj Hf Hov H1 H2; [lia|]. cbn [hi2lo].
  rewrite Z.geb_leb. destruct (Z.leb_spec 0 j).
  - destruct (peek st a1 (i1 + j)) as [v|] eqn:P1; [|exfalso; apply (H1 j); [lia|assumption]].
    destruct (peek st a2 (i2 + j)) as [w|] eqn:P2; [|exfalso; apply (H2 j); [lia|assumption]].
    rewrite (sub_ok _ _ _ _ P1). cbn [bind].
    destruct (update_ok st a2 (i2 + j) v w P2) as (st1 & -> & L1 & G1). cbn [bind].
    destruct (IH st1 a1 i1 a2 i2 (j - 1)) as (st' & -> & L' & M); try lia.
    + intros k Hk. rewrite G1. destruct (_ && _); [discriminate|]. apply H1. lia.
    + intros k Hk. rewrite G1. destruct (_ && _); [discriminate|]. apply H2. lia.
    + exists st'. split; [reflexivity|]. split; [lia|]. intros id x. rewrite M, !G1.
      replace (j - 1 + 1) with j by lia.
      destruct (Z.eqb_spec id a2) as [->|]; cbn [andb].
      * destruct (Z.leb_spec i2 x); cbn [andb].
        -- destruct (Z.ltb_spec x (i2 + j)).
           ++ destruct (Z.ltb_spec x (i2 + (j + 1))); [|lia].
              destruct (Z.eqb_spec a1 a2); [|reflexivity]. destruct (Z.eqb_spec (i1 + (x - i2)) (i2 + j)); [lia|reflexivity].
           ++ destruct (Z.eqb_spec x (i2 + j)) as [->|].
              ** destruct (Z.ltb_spec (i2 + j) (i2 + (j + 1))); [|lia]. rewrite <- P1. f_equal. lia.
              ** destruct (Z.ltb_spec x (i2 + (j + 1))); [lia|reflexivity].
        -- destruct (Z.eqb_spec x (i2 + j)); [lia|reflexivity].
      * reflexivity.
  - exists st. split; [reflexivity|]. split; [reflexivity|]. intros id x. replace (i2 + (j + 1)) with i2 by lia.
    destruct (Z.leb_spec i2 x), (Z.ltb_spec x i2); try lia; rewrite ?andb_false_r; reflexivity.
Qed.
Lemma lo2hi_ok fuel : forall st a1 i1 a2 i2 j n, j <= n -> n - j < Z.of_nat fuel -> a1 <> a2 \/ i2 <= i1 ->
  (forall k, j <= k < n -> peek st a1 (i1 + k) <> None) -> (forall k, j <= k < n -> peek st a2 (i2 + k) <> None) ->
  exists st', lo2hi fuel st a1 i1 a2 i2 j n = Ret st' /\ moved st a1 (i1 + j) a2 (i2 + j) (n - j) st'.
Proof.
  induction fuel as [|fuel IH]; intros st a1 i1 a2 i2 j n Hj Hf Hov H1 H2; [lia|]. cbn [lo2hi].
  destruct (Z.ltb_spec j n).
  - destruct (peek st a1 (i1 + j)) as [v|] eqn:P1; [|exfalso; apply (H1 j); [lia|assumption]].
    destruct (peek st a2 (i2 + j)) as [w|] eqn:P2; [|exfalso; apply (H2 j); [lia|assumption]].
    rewrite (sub_ok _ _ _ _ P1). cbn [bind].
    destruct (update_ok st a2 (i2 + j) v w P2) as (st1 & -> & L1 & G1). cbn [bind].
    destruct (IH st1 a1 i1 a2 i2 (j + 1) n) as (st' & -> & L' & M); try lia.
    + intros k Hk. rewrite G1. destruct (_ && _); [discriminate|]. apply H1. lia.
    + intros k Hk. rewrite G1. destruct (_ && _); [discriminate|]. apply H2. lia.
    + exists st'. split; [reflexivity|]. split; [lia|]. intros id x. rewrite M, !G1.
      replace (i2 + (j + 1) + (n - (j + 1))) with (i2 + n) by lia. replace (i2 + j + (n - j)) with (i2 + n) by lia.
      destruct (Z.eqb_spec id a2) as [->|]; cbn [andb]; [|reflexivity].
      destruct (Z.ltb_spec x (i2 + n)); rewrite ?andb_true_r, ?andb_false_r.
      * destruct (Z.leb_spec (i2 + (j + 1)) x).
        -- destruct (Z.leb_spec (i2 + j) x); [|lia].
           replace (i1 + (j + 1) + (x - (i2 + (j + 1)))) with (i1 + (x - i2)) by lia.
           replace (i1 + j + (x - (i2 + j))) with (i1 + (x - i2)) by lia.
           destruct (Z.eqb_spec a1 a2); [|reflexivity]. destruct (Z.eqb_spec (i1 + (x - i2)) (i2 + j)); [lia|reflexivity].
        -- destruct (Z.eqb_spec x (i2 + j)) as [->|].
           ++ destruct (Z.leb_spec (i2 + j) (i2 + j)); [|lia]. rewrite <- P1. f_equal. lia.
           ++ destruct (Z.leb_spec (i2 + j) x); [lia|reflexivity].
      * destruct (Z.eqb_spec x (i2 + j)); [lia|reflexivity].
  - exists st. split; [reflexivity|]. split; [reflexivity|]. intros id x. replace (i2 + j + (n - j)) with (i2 + j) by lia.
    destruct (Z.leb_spec (i2 + j) x), (Z.ltb_spec x (i2 + j)); try lia; rewrite ?andb_false_r; reflexivity.
Qed.

Lemma peek_range st id a j : zget st id = Some a -> (peek st id j <> None <-> 0 <= j < zlen a).
Proof.
  unfold peek. intros ->. split.
  - intros H. destruct (zget a j) eqn:G; [eapply zget_range; eauto|easy].
  - intros H. destruct (zget_some a j H) as [x ->]. discriminate.
Qed.
Lemma iadd_ok x y : in_int (x + y) -> iadd x y = Ret (x + y).
Proof. intros H. unfold iadd. apply in_intb_spec in H. now rewrite H. Qed.

Lemma slice_copy_ok st a1 i n dst di l1 l2 : zget st a1 = Some l1 -> zget st dst = Some l2 ->
  0 <= i -> 0 <= n -> i + n <= zlen l1 -> 0 <= di -> di + n <= zlen l2 -> zlen l2 < two62 ->
  exists st', slice_copy st (Slice a1 i n) dst di = Ret st' /\ moved st a1 i dst di n st'.
Proof.
  intros G1 G2 Hi Hn Hin Hd Hdn Hm. unfold slice_copy, deref. cbn [s_arr s_start s_len]. rewrite G1, G2. cbn [bind].
  destruct (Z.ltb_spec di 0); [lia|]. rewrite iadd_ok; [|unfold in_int; pose proof (zlen_nonneg l2); unfold two62 in *; lia]. cbn [bind].
  rewrite Z.gtb_ltb. destruct (Z.ltb_spec (zlen l2) (di + n)); [lia|].
  destruct (Z.ltb_spec i di).
  - destruct (hi2lo_ok (S (Z.to_nat n)) st a1 i dst di (n - 1)) as (st' & E & M); try lia.
    + intros k Hk. apply (peek_range _ _ _ _ G1). lia.
    + intros k Hk. apply (peek_range _ _ _ _ G2). lia.
    + exists st'. split; [exact E|]. now replace (n - 1 + 1) with n in M by lia.
  - destruct (lo2hi_ok (S (Z.to_nat n)) st a1 i dst di 0 n) as (st' & E & M); try lia.
    + intros k Hk. apply (peek_range _ _ _ _ G1). lia.
    + intros k Hk. apply (peek_range _ _ _ _ G2). lia.
    + exists st'. split; [exact E|]. now rewrite !Z.add_0_r, Z.sub_0_r in M.
Qed.
Lemma array_copy_ok st src dst di l1 l2 : zget st src = Some l1 -> zget st dst = Some l2 ->
  0 <= di -> di + zlen l1 <= zlen l2 -> zlen l2 < two62 ->
  exists st', array_copy st src dst di = Ret st' /\ moved st src 0 dst di (zlen l1) st'.
Proof.
  intros G1 G2 Hd Hdn Hm. unfold array_copy, deref. rewrite G1, G2. cbn [bind].
  pose proof (zlen_nonneg l1).
  destruct (Z.ltb_spec di 0); [lia|]. rewrite iadd_ok; [|unfold in_int; unfold two62 in *; lia]. cbn [bind].
  rewrite Z.gtb_ltb. destruct (Z.ltb_spec (zlen l2) (di + zlen l1)); [lia|].
  destruct (hi2lo_ok (S (length l1)) st src 0 dst di (zlen l1 - 1)) as (st' & E & M); try lia.
  - unfold zlen. lia.
  - intros k Hk. apply (peek_range _ _ _ _ G1). lia.
  - intros k Hk. apply (peek_range _ _ _ _ G2). lia.
  - exists st'. split; [exact E|]. now replace (zlen l1 - 1 + 1) with (zlen l1) in M by lia.
Qed.

(** copying from a vector *)
Lemma vec_lo2hi_ok (v : list A) fuel : forall st i1 dst i2 j n, j <= n -> n - j < Z.of_nat fuel ->
  (forall k, j <= k < n -> zget v (i1 + k) <> None) -> (forall k, j <= k < n -> peek st dst (i2 + k) <> None) ->
  exists st', vec_lo2hi fuel st v i1 dst i2 j n = Ret st' /\ zlen st' = zlen st /\
   forall id x, peek st' id x = if (id =? dst) && ((i2 + j <=? x) && (x <? i2 + n)) then zget v (i1 + (x - i2)) else peek st id x.
Proof.
  induction fuel as [|fuel IH]; intros st i1 dst i2 j n Hj Hf H1 H2; [lia|]. cbn [vec_lo2hi].
  destruct (Z.ltb_spec j n).
  - destruct (zget v (i1 + j)) as [y|] eqn:P1; [|exfalso; apply (H1 j); [lia|assumption]].
    destruct (peek st dst (i2 + j)) as [w|] eqn:P2; [|exfalso; apply (H2 j); [lia|assumption]].
    unfold sub_raw. rewrite P1. cbn [bind].
    destruct (update_ok st dst (i2 + j) y w P2) as (st1 & -> & L1 & G1). cbn [bind].
    destruct (IH st1 i1 dst i2 (j + 1) n) as (st' & -> & L' & M); try lia.
    + intros k Hk. apply H1. lia.
    + intros k Hk. rewrite G1. destruct (_ && _); [discriminate|]. apply H2. lia.
    + exists st'. split; [reflexivity|]. split; [lia|]. intros id x. rewrite M, !G1.
      destruct (Z.eqb_spec id dst) as [->|]; cbn [andb]; [|reflexivity].
      destruct (Z.ltb_spec x (i2 + n)); rewrite ?andb_true_r, ?andb_false_r.
      * destruct (Z.leb_spec (i2 + (j + 1)) x).
        -- destruct (Z.leb_spec (i2 + j) x); [reflexivity|lia].
        -- destruct (Z.eqb_spec x (i2 + j)) as [->|].
           ++ destruct (Z.leb_spec (i2 + j) (i2 + j)); [|lia]. rewrite <- P1. f_equal. lia.
           ++ destruct (Z.leb_spec (i2 + j) x); [lia|reflexivity].
      * destruct (Z.eqb_spec x (i2 + j)); [lia|reflexivity].
  - exists st. split; [reflexivity|]. split; [reflexivity|]. intros id x.
    destruct (Z.leb_spec (i2 + j) x), (Z.ltb_spec x (i2 + n)); try lia; rewrite ?andb_false_r; reflexivity.
Qed.

(** blit_string *)
Lemma zget_firstn (l : list A) n j : 0 <= n <= zlen l -> zget (firstn (Z.to_nat n) l) j = if j <? n then zget l j else None.
Proof.
  intros H. destruct (Z.ltb_spec j n).
  - unfold zget. destruct (Z.ltb_spec j 0); [reflexivity|].
    assert (Hn : (Z.to_nat j < Z.to_nat n)%nat) by lia. revert Hn. generalize (Z.to_nat j) (Z.to_nat n). clear.
    intros a b; revert a l. induction b as [|b IH]; intros a l Hn; [lia|]. destruct l; [now destruct a|]. destruct a; [reflexivity|].
    cbn. apply IH. lia.
  - apply zget_none. unfold zlen in *. rewrite firstn_length. lia.
Qed.
Lemma zget_skipn (l : list A) n j : 0 <= n -> 0 <= j -> zget (skipn (Z.to_nat n) l) j = zget l (n + j).
Proof.
  intros H Hj. unfold zget. destruct (Z.ltb_spec j 0); [lia|]. destruct (Z.ltb_spec (n + j) 0); [lia|].
  rewrite Z2Nat.inj_add by lia. generalize (Z.to_nat n) (Z.to_nat j). clear. intros a b. revert l.
  induction a as [|a IH]; intros l; [reflexivity|]. destruct l; [now destruct b|]. cbn. apply IH.
Qed.
Lemma blit_ok st s1 o1 s2 o2 n l1 l2 : zget st s1 = Some l1 -> zget st s2 = Some l2 ->
  0 <= o1 -> 0 <= o2 -> 0 <= n < 2147483648 -> o1 + n <= zlen l1 -> o2 + n <= zlen l2 ->
  exists st', blit_string st s1 o1 s2 o2 n = Ret st' /\ moved st s1 o1 s2 o2 n st'.
Proof.
  intros G1 G2 H1 H2 Hn R1 R2. unfold blit_string, deref. rewrite G1, G2. cbn [bind].
  assert (T : to_int32 n = n) by (unfold to_int32; rewrite Z.mod_small; lia). rewrite T.
  destruct (Z.ltb_spec n 0); [lia|]. destruct (Z.ltb_spec o1 0); [lia|]. destruct (Z.ltb_spec o2 0); [lia|].
  rewrite !Z.gtb_ltb. destruct (Z.ltb_spec (zlen l1) (o1 + n)); [lia|]. destruct (Z.ltb_spec (zlen l2) (o2 + n)); [lia|].
  cbn [orb]. set (a2' := firstn _ _ ++ _).
  destruct (zset_some st s2 a2' (zget_range _ _ _ G2)) as (st' & -> & L & G). exists st'. split; [reflexivity|].
  split; [assumption|]. intros id x. unfold peek at 1 3. rewrite G.
  destruct (Z.eqb_spec id s2) as [->|]; cbn [andb]; [|reflexivity]. rewrite G2.
  assert (LF : zlen (firstn (Z.to_nat o2) l2) = o2) by (unfold zlen in *; rewrite firstn_length; lia).
  assert (LM : zlen (firstn (Z.to_nat n) (skipn (Z.to_nat o1) l1)) = n) by (unfold zlen in *; rewrite firstn_length, skipn_length; lia).
  unfold a2'. rewrite !zget_app, LF, LM.
  destruct (Z.ltb_spec x o2).
  - rewrite zget_firstn by lia. destruct (Z.ltb_spec x o2); [|lia]. destruct (Z.leb_spec o2 x); [lia|reflexivity].
  - destruct (Z.leb_spec o2 x); [|lia]. cbn [andb]. destruct (Z.ltb_spec (x - o2) n).
    + destruct (Z.ltb_spec x (o2 + n)); [|lia]. unfold peek. rewrite G1.
      rewrite zget_firstn by (unfold zlen in *; rewrite skipn_length; lia). destruct (Z.ltb_spec (x - o2) n); [|lia].
      rewrite zget_skipn by lia. f_equal.
    + destruct (Z.ltb_spec x (o2 + n)); [lia|]. rewrite zget_skipn by lia. f_equal. lia.
Qed.

(** ** matrices *)
Definition good_mat (st : store) (M : matrix) : Prop :=
  zlen (rows M) = nr M /\ 0 <= nc M < two62 /\ nr M < 2 ^ 60 /\ NoDup (rows M) /\
  forall r id, zget (rows M) r = Some id -> exists l, zget st id = Some l /\ zlen l = nc M.
Definition mpeek (st : store) (M : matrix) (r c : Z) : option A :=
  match zget (rows M) r with Some id => peek st id c | None => None end.

Lemma moved_mat st a1 i1 a2 i2 n st' M : moved st a1 i1 a2 i2 n st' ->
  (forall k, 0 <= k < n -> peek st a1 (i1 + k) <> None /\ peek st a2 (i2 + k) <> None) -> good_mat st M -> good_mat st' M.
Proof.
  intros [L H] Hin (HR & HC & HN & ND & HL). split; [assumption|]. split; [assumption|]. split; [assumption|]. split; [assumption|].
  intros r id Hr. destruct (HL r id Hr) as (l & Hl & Ll). pose proof (zget_range _ _ _ Hl) as R.
  destruct (zget_some st' id) as [l' Hl']; [lia|]. exists l'. split; [assumption|].
  assert (E : forall j, 0 <= j < zlen l <-> 0 <= j < zlen l').
  { intros j. rewrite <- (peek_range _ _ _ j Hl), <- (peek_range _ _ _ j Hl'). rewrite H.
    destruct (Z.eqb_spec id a2) as [->|]; cbn [andb]; [|tauto].
    destruct (Z.leb_spec i2 j); cbn [andb]; [|tauto]. destruct (Z.ltb_spec j (i2 + n)); [|tauto].
    destruct (Hin (j - i2)) as [X Y]; [lia|]. replace (i2 + (j - i2)) with j in Y by lia. tauto. }
  pose proof (zlen_nonneg l). pose proof (zlen_nonneg l').
  destruct (Z.lt_trichotomy (zlen l) (zlen l')) as [C|[C|C]]; [|lia|].
  - specialize (E (zlen l)). lia.
  - specialize (E (zlen l')). lia.
Qed.

Definition width (M : matrix) (col : Z) (n : option Z) : Z := match n with None => nc M - col | Some n => n end.
Lemma copy_row_ok st src dst sc dc ncols fr tr : good_mat st src -> good_mat st dst ->
  0 <= fr < nr src -> 0 <= tr < nr dst -> 0 <= sc -> 0 <= width src sc ncols -> sc + width src sc ncols <= nc src ->
  0 <= dc -> dc + width src sc ncols <= nc dst ->
  exists a d st', zget (rows src) fr = Some a /\ zget (rows dst) tr = Some d /\
    copy_row st src dst sc dc ncols fr tr = Ret st' /\ moved st a sc d dc (width src sc ncols) st' /\
    (forall M, good_mat st M -> good_mat st' M).
Proof.
  intros GS GD Hfr Htr Hsc Hw Hsw Hdc Hdw. pose proof GS as (HR & HC & _ & ND & HL). pose proof GD as (HR' & HC' & _ & ND' & HL').
  destruct (zget_some (rows src) fr) as [a Ha]; [lia|]. destruct (zget_some (rows dst) tr) as [d Hd]; [lia|].
  destruct (HL _ _ Ha) as (la & Hla & Lla). destruct (HL' _ _ Hd) as (ld & Hld & Lld).
  unfold copy_row, row_id, sub_chk. rewrite Ha, Hd. cbn [bind].
  assert (MS : mk_slice st a sc ncols = Ret (Slice a sc (width src sc ncols))).
  { unfold mk_slice, deref. rewrite Hla. cbn [bind]. destruct ncols as [n|]; cbn [width] in *.
    - destruct (Z.leb_spec 0 sc), (Z.leb_spec 0 n), (Z.leb_spec n (zlen la - sc)); cbn [andb]; try lia. reflexivity.
    - destruct (Z.leb_spec 0 sc), (Z.leb_spec sc (zlen la)); cbn [andb]; try lia. now rewrite Lla. }
  rewrite MS. cbn [bind].
  destruct (slice_copy_ok st a sc (width src sc ncols) d dc la ld Hla Hld) as (st' & E & M); try lia.
  exists a, d, st'. split; [reflexivity|]. split; [reflexivity|]. split; [exact E|]. split; [exact M|].
  intros M' GM. apply (moved_mat _ _ _ _ _ _ _ _ M); [|assumption]. intros k Hk. split.
  - apply (peek_range _ _ _ _ Hla). lia.
  - apply (peek_range _ _ _ _ Hld). lia.
Qed.

(** source and destination are the same matrix or share no row *)
Definition separate (src dst : matrix) : Prop := rows src = rows dst \/ forall id, In id (rows src) -> ~ In id (rows dst).
(** the rows r with P r of the source have been copied (delta rows down, columns sc.. to dc..) and
    nothing else has changed *)
Definition rows_copied (P : Z -> Prop) (st : store) (src dst : matrix) (sc dc w delta : Z) (st' : store) : Prop :=
  (forall r d x, P r -> zget (rows dst) (r + delta) = Some d -> dc <= x < dc + w -> peek st' d x = mpeek st src r (sc + (x - dc))) /\
  (forall id x, (forall r, P r -> zget (rows dst) (r + delta) = Some id -> ~ (dc <= x < dc + w)) -> peek st' id x = peek st id x).

Lemma rows_inj M st r r' id : good_mat st M -> zget (rows M) r = Some id -> zget (rows M) r' = Some id -> r = r'.
Proof.
  intros (_ & _ & _ & ND & _) H H'. pose proof (zget_range _ _ _ H). pose proof (zget_range _ _ _ H').
  unfold zget in H, H'. destruct (Z.ltb_spec r 0), (Z.ltb_spec r' 0); try lia.
  rewrite NoDup_nth_error in ND. enough (Z.to_nat r = Z.to_nat r') by lia. apply ND; [|congruence].
  apply nth_error_Some. congruence.
Qed.
Lemma rows_step P st0 st st' src dst sc dc w delta r a d : good_mat st src -> good_mat st dst -> separate src dst ->
  rows_copied P st0 src dst sc dc w delta st ->
  zget (rows src) r = Some a -> zget (rows dst) (r + delta) = Some d -> moved st a sc d dc w st' ->
  ~ P r -> (forall r', P r' -> r' + delta <> r) ->
  rows_copied (fun x => P x \/ x = r) st0 src dst sc dc w delta st'.
Proof.
  intros GS GD Sep [C1 C2] Ha Hd [_ M] NP ND. split.
  - intros r' d' x HP Hd' Hx. rewrite M.
    destruct (Z.eqb_spec d' d) as [->|Ne].
    + assert (E : r' + delta = r + delta) by (eapply rows_inj; eauto). assert (r' = r) by lia. subst r'.
      destruct (Z.leb_spec dc x), (Z.ltb_spec x (dc + w)); try lia. cbn [andb].
      unfold mpeek. rewrite Ha. apply C2. intros r' HP' Hr'.
      destruct Sep as [Eq|Dis].
      * exfalso. apply (ND r' HP'). rewrite <- Eq in Hr'. eapply rows_inj; [exact GS| |]; eauto.
      * exfalso. apply (Dis a); eapply zget_In; eauto.
    + cbn [andb]. destruct HP as [HP|HP]; [now apply C1|]. subst r'. congruence.
  - intros id x H. rewrite M. destruct (Z.eqb_spec id d) as [->|Ne]; cbn [andb].
    + assert (X : ~ (dc <= x < dc + w)) by (apply (H r); auto).
      destruct (Z.leb_spec dc x), (Z.ltb_spec x (dc + w)); try lia; cbn [andb]; apply C2; intros r' HP'; apply H; auto.
    + apply C2. intros r' HP'. apply H. auto.
Qed.
Lemma rows_copied_ext (P Q : Z -> Prop) st src dst sc dc w delta st' : (forall x, P x <-> Q x) ->
  rows_copied P st src dst sc dc w delta st' -> rows_copied Q st src dst sc dc w delta st'.
Proof.
  intros E [C1 C2]. split.
  - intros r d x HQ. apply C1. now apply E.
  - intros id x H. apply C2. intros r HP. apply H. now apply E.
Qed.

Lemma topDown_ok st0 src dst sr stoprow sc dc ncols delta : separate src dst -> delta < 0 -> 0 <= sr -> stoprow <= nr src ->
  0 <= sr + delta -> stoprow + delta <= nr dst ->
  0 <= sc -> 0 <= width src sc ncols -> sc + width src sc ncols <= nc src -> 0 <= dc -> dc + width src sc ncols <= nc dst ->
  forall fuel st r, sr <= r <= stoprow -> stoprow - r < Z.of_nat fuel -> good_mat st src -> good_mat st dst ->
  rows_copied (fun x => sr <= x < r) st0 src dst sc dc (width src sc ncols) delta st ->
  exists st', topDown fuel st src dst stoprow sc dc ncols r (r + delta) = Ret st' /\
    rows_copied (fun x => sr <= x < stoprow) st0 src dst sc dc (width src sc ncols) delta st'.
Proof.
  intros Sep Hd Hsr Hst Hsd Hstd Hsc Hw Hsw Hdc Hdw. induction fuel as [|fuel IH]; intros st r Hr Hf GS GD C; [lia|].
  cbn [topDown]. rewrite Z.geb_leb. destruct (Z.leb_spec stoprow r).
  - exists st. split; [reflexivity|]. eapply rows_copied_ext; [|exact C]. cbn. lia.
  - destruct (copy_row_ok st src dst sc dc ncols r (r + delta)) as (a & d & st1 & Ha & Hd1 & E & M & GM); try assumption; try lia.
    rewrite E. cbn [bind]. replace (r + delta + 1) with (r + 1 + delta) by lia. apply IH; try lia; auto.
    eapply rows_copied_ext; [|eapply (rows_step _ st0 st st1 src dst sc dc _ delta r a d); eauto].
    + cbn. lia.
    + cbn. lia.
    + cbn. lia.
Qed.
Lemma bottomUp_ok st0 src dst sr stoprow sc dc ncols delta : separate src dst -> 0 <= delta -> 0 <= sr -> stoprow <= nr src ->
  0 <= sr + delta -> stoprow + delta <= nr dst ->
  0 <= sc -> 0 <= width src sc ncols -> sc + width src sc ncols <= nc src -> 0 <= dc -> dc + width src sc ncols <= nc dst ->
  forall fuel st r, sr - 1 <= r < stoprow -> r - sr + 1 < Z.of_nat fuel -> good_mat st src -> good_mat st dst ->
  rows_copied (fun x => r < x < stoprow) st0 src dst sc dc (width src sc ncols) delta st ->
  exists st', bottomUp fuel st src dst sr sc dc ncols r (r + delta) = Ret st' /\
    rows_copied (fun x => sr <= x < stoprow) st0 src dst sc dc (width src sc ncols) delta st'.
Proof.
  intros Sep Hd Hsr Hst Hsd Hstd Hsc Hw Hsw Hdc Hdw. induction fuel as [|fuel IH]; intros st r Hr Hf GS GD C; [lia|].
  cbn [bottomUp]. destruct (Z.ltb_spec r sr).
  - exists st. split; [reflexivity|]. eapply rows_copied_ext; [|exact C]. cbn. lia.
  - destruct (copy_row_ok st src dst sc dc ncols r (r + delta)) as (a & d & st1 & Ha & Hd1 & E & M & GM); try assumption; try lia.
    rewrite E. cbn [bind]. replace (r + delta - 1) with (r - 1 + delta) by lia. apply IH; try lia; auto.
    eapply rows_copied_ext; [|eapply (rows_step _ st0 st st1 src dst sc dc _ delta r a d); eauto].
    + cbn. lia.
    + cbn. lia.
    + cbn. lia.
Qed.
Definition height (M : matrix) (row : Z) (n : option Z) : Z := match n with None => nr M - row | Some n => n end.
Lemma array2_copy_ok st src sr sc nrows ncols dst dr dc : good_mat st src -> good_mat st dst -> separate src dst ->
  0 <= sr -> 0 <= height src sr nrows -> sr + height src sr nrows <= nr src ->
  0 <= sc -> 0 <= width src sc ncols -> sc + width src sc ncols <= nc src ->
  0 <= dr -> dr + height src sr nrows <= nr dst -> 0 <= dc -> dc + width src sc ncols <= nc dst ->
  exists st', array2_copy st src sr sc nrows ncols dst dr dc = Ret st' /\
    rows_copied (fun x => sr <= x < sr + height src sr nrows) st src dst sc dc (width src sc ncols) (dr - sr) st'.
Proof.
  intros GS GD Sep Hsr Hh Hshr Hsc Hw Hsw Hdr Hdh Hdc Hdw. unfold array2_copy.
  pose proof GS as (LS & _ & NS & _). pose proof GD as (LD & _ & ND & _). change (2 ^ 60) with 1152921504606846976 in *.
  assert (ES : stop (nr src) sr nrows = Ret (sr + height src sr nrows)).
  { unfold stop. destruct nrows as [n|]; cbn [height] in *.
    - destruct (Z.ltb_spec sr 0), (Z.ltb_spec n 0); cbn [orb]; try lia.
      rewrite iadd_ok by (unfold in_int, two62; lia). cbn [bind]. rewrite Z.gtb_ltb.
      destruct (Z.ltb_spec (nr src) (sr + n)); [lia|reflexivity].
    - rewrite Z.gtb_ltb. destruct (Z.ltb_spec sr 0), (Z.ltb_spec (nr src) sr); cbn [orb]; try lia. f_equal. lia. }
  rewrite ES. cbn [bind]. set (stoprow := sr + height src sr nrows) in *.
  destruct (Z.leb_spec sr dr).
  - rewrite iadd_ok by (unfold in_int, two62; lia). cbn [bind].
    replace (stoprow - 1 + dr - sr) with (stoprow - 1 + (dr - sr)) by lia.
    apply bottomUp_ok; try assumption; try lia.
    split; [intros; lia|reflexivity].
  - destruct (topDown_ok st src dst sr stoprow sc dc ncols (dr - sr) Sep ltac:(lia) ltac:(lia) ltac:(lia) ltac:(lia) ltac:(lia) ltac:(lia) ltac:(lia) ltac:(lia) ltac:(lia) ltac:(lia) (S (Z.to_nat (nr src))) st sr ltac:(lia) ltac:(lia) GS GD) as (st' & E & R); [|replace (sr + (dr - sr)) with dr in E by lia; eauto].
    split; [intros; lia|reflexivity].
Qed.
End Store.

(** ** memmov *)
Section Mem.
Context {B : Type}.
Notation mem := (@mem B).
(** what memmove does *)
Definition mem_moved (m : mem) (dst src n : Z) (m' : mem) : Prop :=
  forall b, m' b = if (dst <=? b) && (b <? dst + n) then m (src + (b - dst)) else m b.
Lemma up_bytes_ok i : forall (m : mem) dst src, dst <= src -> mem_moved m dst src (Z.of_nat i) (up_bytes i m dst src).
Proof.
  induction i as [|i IH]; intros m dst src H b; cbn [up_bytes].
  - destruct (Z.leb_spec dst b), (Z.ltb_spec b (dst + Z.of_nat 0)); cbn [andb]; try lia; reflexivity.
  - rewrite IH by lia. unfold put.
    destruct (Z.leb_spec (dst + 1) b), (Z.ltb_spec b (dst + 1 + Z.of_nat i)), (Z.leb_spec dst b), (Z.ltb_spec b (dst + Z.of_nat (S i)));
     cbn [andb]; try lia.
    + destruct (Z.eqb_spec (src + 1 + (b - (dst + 1))) dst); [lia|]. f_equal. lia.
    + destruct (Z.eqb_spec b dst); [lia|reflexivity].
    + destruct (Z.eqb_spec b dst) as [->|]; [f_equal; lia|lia].
    + destruct (Z.eqb_spec b dst); [lia|reflexivity].
Qed.
Lemma up_words_ok i : forall (m : mem) dst src, dst <= src -> (src - dst) mod 8 = 0 ->
  mem_moved m dst src (8 * Z.of_nat i) (up_words i m dst src).
Proof.
  induction i as [|i IH]; intros m dst src H Hm b; cbn [up_words].
  - destruct (Z.leb_spec dst b), (Z.ltb_spec b (dst + 8 * Z.of_nat 0)); cbn [andb]; try lia; reflexivity.
  - rewrite IH by lia. unfold copy_word.
    destruct (Z.leb_spec (dst + 8) b), (Z.ltb_spec b (dst + 8 + 8 * Z.of_nat i)), (Z.leb_spec dst b), (Z.ltb_spec b (dst + 8 * Z.of_nat (S i)));
     cbn [andb]; try lia.
    + destruct (Z.leb_spec dst (src + 8 + (b - (dst + 8)))), (Z.ltb_spec (src + 8 + (b - (dst + 8))) (dst + 8)); cbn [andb]; try lia. f_equal. lia.
    + destruct (Z.ltb_spec b (dst + 8)); [lia|]. reflexivity.
    + destruct (Z.ltb_spec b (dst + 8)); [|lia]. reflexivity.
    + destruct (Z.ltb_spec b (dst + 8)); reflexivity.
Qed.
(** descending loops: dst, src point just after the ranges *)
Lemma down_bytes_ok i : forall (m : mem) dst src, src <= dst -> mem_moved m (dst - Z.of_nat i) (src - Z.of_nat i) (Z.of_nat i) (down_bytes i m dst src).
Proof.
  induction i as [|i IH]; intros m dst src H b; cbn [down_bytes].
  - destruct (Z.leb_spec (dst - Z.of_nat 0) b), (Z.ltb_spec b (dst - Z.of_nat 0 + Z.of_nat 0)); cbn [andb]; try lia; reflexivity.
  - rewrite IH by lia. unfold put.
    destruct (Z.leb_spec (dst - 1 - Z.of_nat i) b), (Z.ltb_spec b (dst - 1 - Z.of_nat i + Z.of_nat i)),
      (Z.leb_spec (dst - Z.of_nat (S i)) b), (Z.ltb_spec b (dst - Z.of_nat (S i) + Z.of_nat (S i)));
     cbn [andb]; try lia.
    + destruct (Z.eqb_spec (src - 1 - Z.of_nat i + (b - (dst - 1 - Z.of_nat i))) (dst - 1)); [lia|]. f_equal. lia.
    + destruct (Z.eqb_spec b (dst - 1)) as [->|]; [f_equal; lia|lia].
    + destruct (Z.eqb_spec b (dst - 1)); [lia|reflexivity].
    + destruct (Z.eqb_spec b (dst - 1)); [lia|reflexivity].
Qed.
Lemma down_words_ok i : forall (m : mem) dst src, src <= dst -> (dst - src) mod 8 = 0 ->
  mem_moved m (dst - 8 * Z.of_nat i) (src - 8 * Z.of_nat i) (8 * Z.of_nat i) (down_words i m dst src).
Proof.
  induction i as [|i IH]; intros m dst src H Hm b; cbn [down_words].
  - destruct (Z.leb_spec (dst - 8 * Z.of_nat 0) b), (Z.ltb_spec b (dst - 8 * Z.of_nat 0 + 8 * Z.of_nat 0)); cbn [andb]; try lia; reflexivity.
  - rewrite IH by lia. unfold copy_word. set (k := Z.of_nat i). replace (Z.of_nat (S i)) with (k + 1) by lia.
    destruct (Z.leb_spec (dst - 8 - 8 * k) b), (Z.ltb_spec b (dst - 8 - 8 * k + 8 * k)),
      (Z.leb_spec (dst - 8 * (k + 1)) b), (Z.ltb_spec b (dst - 8 * (k + 1) + 8 * (k + 1)));
     cbn [andb]; try lia.
    + set (s := src - 8 - 8 * k + (b - (dst - 8 - 8 * k))). 
      destruct (Z.leb_spec (dst - 8) s), (Z.ltb_spec s (dst - 8 + 8)); cbn [andb]; try (unfold s in *; lia); f_equal; unfold s; lia.
    + destruct (Z.leb_spec (dst - 8) b), (Z.ltb_spec b (dst - 8 + 8)); cbn [andb]; try lia. f_equal. lia.
    + destruct (Z.leb_spec (dst - 8) b), (Z.ltb_spec b (dst - 8 + 8)); cbn [andb]; try lia. reflexivity.
    + destruct (Z.leb_spec (dst - 8) b), (Z.ltb_spec b (dst - 8 + 8)); cbn [andb]; try lia. reflexivity.
Qed.
Lemma mem_moved_up (m m1 m2 : mem) dst src n1 n2 : dst <= src -> 0 <= n1 -> 0 <= n2 ->
  mem_moved m dst src n1 m1 -> mem_moved m1 (dst + n1) (src + n1) n2 m2 -> mem_moved m dst src (n1 + n2) m2.
Proof.
  intros H H1 H2 M1 M2 b. rewrite M2, !M1.
  destruct (Z.leb_spec (dst + n1) b), (Z.ltb_spec b (dst + n1 + n2)), (Z.leb_spec dst b), (Z.ltb_spec b (dst + (n1 + n2)));
    cbn [andb]; try lia.
  - destruct (Z.leb_spec dst (src + n1 + (b - (dst + n1)))), (Z.ltb_spec (src + n1 + (b - (dst + n1))) (dst + n1)); cbn [andb]; try lia; f_equal; lia.
  - destruct (Z.ltb_spec b (dst + n1)); [lia|reflexivity].
  - destruct (Z.ltb_spec b (dst + n1)); [reflexivity|lia].
  - destruct (Z.ltb_spec b (dst + n1)); reflexivity.
Qed.
Lemma mem_moved_down (m m1 m2 : mem) dst src n1 n2 : src <= dst -> 0 <= n1 -> 0 <= n2 ->
  mem_moved m (dst - n1) (src - n1) n1 m1 -> mem_moved m1 (dst - n1 - n2) (src - n1 - n2) n2 m2 ->
  mem_moved m (dst - (n1 + n2)) (src - (n1 + n2)) (n1 + n2) m2.
Proof.
  intros H H1 H2 M1 M2 b. rewrite M2, !M1.
  destruct (Z.leb_spec (dst - n1 - n2) b), (Z.ltb_spec b (dst - n1 - n2 + n2)), (Z.leb_spec (dst - (n1 + n2)) b), (Z.ltb_spec b (dst - (n1 + n2) + (n1 + n2)));
    cbn [andb]; try lia.
  - set (s := src - n1 - n2 + (b - (dst - n1 - n2))).
    destruct (Z.leb_spec (dst - n1) s), (Z.ltb_spec s (dst - n1 + n1)); cbn [andb]; try (unfold s in *; lia); f_equal; unfold s; lia.
  - destruct (Z.leb_spec (dst - n1) b), (Z.ltb_spec b (dst - n1 + n1)); cbn [andb]; try lia. f_equal; lia.
  - destruct (Z.leb_spec (dst - n1) b), (Z.ltb_spec b (dst - n1 + n1)); cbn [andb]; try lia; reflexivity.
  - destruct (Z.leb_spec (dst - n1) b), (Z.ltb_spec b (dst - n1 + n1)); cbn [andb]; try lia; reflexivity.
Qed.
Lemma memmov_ok (m : mem) dst src n : 0 <= n -> mem_moved m dst src n (memmov m dst src n).
Proof.
  intros Hn. unfold memmov. destruct (Z.leb_spec dst src).
  - destruct (Z.eqb_spec ((src - dst) mod 8) 0); cbn [negb].
    + set (i := if negb (dst mod 8 =? 0) then Z.min (8 - dst mod 8) n else 0).
      assert (Hi : 0 <= i <= n) by (unfold i; destruct (Z.eqb_spec (dst mod 8) 0); cbn [negb]; lia).
      pose proof (up_bytes_ok (Z.to_nat i) m dst src ltac:(lia)) as M1. rewrite Z2Nat.id in M1 by lia.
      set (m1 := up_bytes _ m dst src) in *. set (w := (n - i) / 8).
      assert (Hw : 0 <= w /\ 8 * w + (n - i) mod 8 = n - i /\ 0 <= (n - i) mod 8 < 8) by (unfold w; lia).
      destruct Hw as (Hw & Hs & Hr).
      pose proof (up_words_ok (Z.to_nat w) m1 (dst + i) (src + i) ltac:(lia) ltac:(replace (src + i - (dst + i)) with (src - dst) by lia; assumption)) as M2.
      rewrite Z2Nat.id in M2 by lia. set (m2 := up_words _ m1 _ _) in *.
      pose proof (up_bytes_ok (Z.to_nat ((n - i) mod 8)) m2 (dst + i + 8 * w) (src + i + 8 * w) ltac:(lia)) as M3. rewrite Z2Nat.id in M3 by lia.
      set (m3 := up_bytes _ m2 _ _) in *. clearbody m1 m2 m3 i w.
      replace n with (i + (8 * w + (n - i) mod 8)) by lia.
      eapply mem_moved_up; try eassumption; try lia. eapply mem_moved_up; try eassumption; try lia.
    + pose proof (up_bytes_ok (Z.to_nat n) m dst src ltac:(lia)) as M1. now rewrite Z2Nat.id in M1 by lia.
  - destruct (Z.eqb_spec ((dst + n - (src + n)) mod 8) 0); cbn [negb].
    + set (i := Z.min ((dst + n) mod 8) n). assert (Hi : 0 <= i <= n) by (unfold i; lia).
      pose proof (down_bytes_ok (Z.to_nat i) m (dst + n) (src + n) ltac:(lia)) as M1. rewrite Z2Nat.id in M1 by lia.
      set (m1 := down_bytes _ m _ _) in *. set (w := (n - i) / 8).
      assert (Hw : 0 <= w /\ 8 * w + (n - i) mod 8 = n - i /\ 0 <= (n - i) mod 8 < 8) by (unfold w; lia).
      destruct Hw as (Hw & Hs & Hr).
      pose proof (down_words_ok (Z.to_nat w) m1 (dst + n - i) (src + n - i) ltac:(lia) ltac:(replace (dst + n - i - (src + n - i)) with (dst + n - (src + n)) by lia; assumption)) as M2.
      rewrite Z2Nat.id in M2 by lia. set (m2 := down_words _ m1 _ _) in *.
      pose proof (down_bytes_ok (Z.to_nat ((n - i) mod 8)) m2 (dst + n - i - 8 * w) (src + n - i - 8 * w) ltac:(lia)) as M3. rewrite Z2Nat.id in M3 by lia.
      set (m3 := down_bytes _ m2 _ _) in *. clearbody m1 m2 m3 i w.
      assert (MM : mem_moved m (dst + n - (i + (8 * w + (n - i) mod 8))) (src + n - (i + (8 * w + (n - i) mod 8))) (i + (8 * w + (n - i) mod 8)) m3).
      { apply (mem_moved_down m m1); try lia; [assumption|].
        replace (dst + n - i - (8 * w + (n - i) mod 8)) with ((dst + n - i) - (8 * w + (n - i) mod 8)) by lia.
        replace (src + n - i - (8 * w + (n - i) mod 8)) with ((src + n - i) - (8 * w + (n - i) mod 8)) by lia.
        apply (mem_moved_down m1 m2); try lia; assumption. }
      replace (i + (8 * w + (n - i) mod 8)) with n in MM by lia.
      now replace (dst + n - n) with dst in MM by lia; replace (src + n - n) with src in MM by lia.
    + pose proof (down_bytes_ok (Z.to_nat n) m (dst + n) (src + n) ltac:(lia)) as M1. rewrite Z2Nat.id in M1 by lia.
      now replace (dst + n - n) with dst in M1 by lia; replace (src + n - n) with src in M1 by lia.
Qed.
End Mem.
