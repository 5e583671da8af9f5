(** C43: copying between arrays has the effect of reading the whole source before writing, also when
    source and destination overlap. *)
From Verif Require Import Base ArrayLib Hash_Model Copy_Model Copy_Proofs.

(** ** Specification *)
Section Spec.
Context {A : Type}.
(** l2 with n elements from position i2 on replaced by the n elements of l1 from position i1 on *)
Definition splice (l1 : list A) (i1 : Z) (l2 : list A) (i2 n : Z) : list A :=
  firstn (Z.to_nat i2) l2 ++ firstn (Z.to_nat n) (skipn (Z.to_nat i1) l1) ++ skipn (Z.to_nat (i2 + n)) l2.
(** the store with array number id replaced by l and all others kept *)
Definition with_array (st : store A) (id : Z) (l : list A) (st' : store A) : Prop :=
  zlen st' = zlen st /\ zget st' id = Some l /\ forall id', id' <> id -> zget st' id' = zget st id'.

Lemma zget_splice (l1 : list A) i1 l2 i2 n x : 0 <= i1 -> 0 <= i2 -> 0 <= n -> i1 + n <= zlen l1 -> i2 + n <= zlen l2 ->
  zget (splice l1 i1 l2 i2 n) x = if (i2 <=? x) && (x <? i2 + n) then zget l1 (i1 + (x - i2)) else zget l2 x.
Proof.
  intros H1 H2 Hn R1 R2.
  assert (LF : zlen (firstn (Z.to_nat i2) l2) = i2) by (unfold zlen in *; rewrite firstn_length; lia).
  assert (LM : zlen (firstn (Z.to_nat n) (skipn (Z.to_nat i1) l1)) = n) by (unfold zlen in *; rewrite firstn_length, skipn_length; lia).
  unfold splice. rewrite !zget_app, LF, LM.
  destruct (Z.ltb_spec x i2).
  - rewrite zget_firstn by lia. destruct (Z.ltb_spec x i2); [|lia]. destruct (Z.leb_spec i2 x); [lia|reflexivity].
  - destruct (Z.leb_spec i2 x); [|lia]. cbn [andb]. destruct (Z.ltb_spec (x - i2) n).
    + destruct (Z.ltb_spec x (i2 + n)); [|lia].
      rewrite zget_firstn by (unfold zlen in *; rewrite skipn_length; lia). destruct (Z.ltb_spec (x - i2) n); [|lia].
      rewrite zget_skipn by lia. f_equal.
    + destruct (Z.ltb_spec x (i2 + n)); [lia|]. rewrite zget_skipn by lia. f_equal. lia.
Qed.
Lemma same_peek (st st' : store A) id : zlen st = zlen st' -> (forall x, peek st id x = peek st' id x) -> zget st id = zget st' id.
Proof.
  intros L H. unfold peek in H. destruct (zget st id) as [l|] eqn:G, (zget st' id) as [l'|] eqn:G'.
  - f_equal. now apply list_ext.
  - apply zget_range in G. destruct (zget_some st' id) as [y Y]; [lia|congruence].
  - apply zget_range in G'. destruct (zget_some st id) as [y Y]; [lia|congruence].
  - reflexivity.
Qed.
Lemma moved_with (st st' : store A) a1 i1 a2 i2 n l1 l2 : moved st a1 i1 a2 i2 n st' -> zget st a1 = Some l1 -> zget st a2 = Some l2 ->
  0 <= i1 -> 0 <= i2 -> 0 <= n -> i1 + n <= zlen l1 -> i2 + n <= zlen l2 -> with_array st a2 (splice l1 i1 l2 i2 n) st'.
Proof.
  intros [L M] G1 G2 H1 H2 Hn R1 R2. split; [assumption|]. split.
  - destruct (zget_some st' a2) as [l' G']. { apply zget_range in G2. lia. }
    rewrite G'. f_equal. apply list_ext. intros x. rewrite zget_splice by assumption.
    specialize (M a2 x). unfold peek in M. rewrite G1, G2, G' in M. rewrite M, Z.eqb_refl. cbn [andb]. reflexivity.
  - intros id' Ne. apply same_peek; [assumption|]. intros x. rewrite M. destruct (Z.eqb_spec id' a2); [contradiction|reflexivity].
Qed.
End Spec.

(** ** Array.copy: the result in every case; Subscript exactly when the source does not fit, except
    that a di so large that di + length src is not an int gives Overflow instead *)
Theorem C43_array_copy : forall A (st : store A) src dst di l1 l2,
  zget st src = Some l1 -> zget st dst = Some l2 -> zlen l1 < two62 -> zlen l2 < two62 -> in_int di ->
  (0 <= di /\ di + zlen l1 <= zlen l2 ->
     exists st', array_copy st src dst di = Ret st' /\ with_array st dst (splice l1 0 l2 di (zlen l1)) st') /\
  (~ (0 <= di /\ di + zlen l1 <= zlen l2) ->
     array_copy st src dst di = Raise Subscript \/ (two62 <= di + zlen l1 /\ array_copy st src dst di = Raise Overflow)).
Proof.
  intros A st src dst di l1 l2 G1 G2 L1 L2 Hdi. pose proof (zlen_nonneg l1). pose proof (zlen_nonneg l2). split.
  - intros [H1 H2]. destruct (array_copy_ok st src dst di l1 l2 G1 G2 H1 H2 L2) as (st' & E & M).
    exists st'. split; [assumption|]. eapply moved_with; eauto; lia.
  - intros N. unfold array_copy, deref. rewrite G1, G2. cbn [bind]. destruct (Z.ltb_spec di 0); [now left|].
    unfold iadd. destruct (in_intb (di + zlen l1)) eqn:I; cbn [bind].
    + rewrite Z.gtb_ltb. destruct (Z.ltb_spec (zlen l2) (di + zlen l1)); [now left|lia].
    + right. split; [|reflexivity]. assert (NI : ~ in_int (di + zlen l1)) by (rewrite <- in_intb_spec; congruence).
      unfold in_int in NI. lia.
Qed.
(** Array.sig promises Subscript whenever di < 0 or the source does not fit *)
Theorem C43_array_copy_subscript_refuted : exists (st : store Z) src dst di l1 l2,
  zget st src = Some l1 /\ zget st dst = Some l2 /\ in_int di /\ ~ (0 <= di /\ di + zlen l1 <= zlen l2) /\
  array_copy st src dst di <> Raise Subscript.
Proof.
  exists [[5]], 0, 0, (two62 - 1), [5], [5]. split; [reflexivity|]. split; [reflexivity|]. split; [unfold in_int, two62; lia|].
  split; [unfold zlen, two62; cbn; lia|]. vm_compute. discriminate.
Qed.
Example C43_array_copy_nonvacuous : exists st', array_copy [[1; 2; 3]; [10; 11; 12; 13; 14]] 0 1 1 = Ret st' /\
  with_array [[1; 2; 3]; [10; 11; 12; 13; 14]] 1 [10; 1; 2; 3; 14] st'.
Proof. eexists. split; [reflexivity|]. split; [reflexivity|]. split; [reflexivity|].
 intros id' H. unfold zget. destruct (Z.ltb_spec id' 0); [reflexivity|]. destruct (Z.to_nat id') as [|[|[|k]]] eqn:E; try reflexivity. lia. Qed.

(** ** ArraySlice.copy of any slice, into any array including the one under the slice *)
(** what ArraySlice.slice(a, i, len) denotes *)
Definition slice_range (alen i : Z) (len : option Z) : option (Z * Z) :=
  let n := match len with None => alen - i | Some n => n end in
  if (0 <=? i) && (0 <=? n) && (i + n <=? alen) then Some (i, n) else None.
Theorem C43_slice_copy : forall A (st : store A) a i len dst di l1 l2,
  zget st a = Some l1 -> zget st dst = Some l2 -> zlen l1 < two62 -> zlen l2 < two62 -> in_int di ->
  match slice_range (zlen l1) i len with
  | None => mk_slice st a i len = Raise Subscript
  | Some (i, n) =>
    (0 <= di /\ di + n <= zlen l2 ->
       exists st', (do sl <- mk_slice st a i len; slice_copy st sl dst di) = Ret st' /\ with_array st dst (splice l1 i l2 di n) st') /\
    (~ (0 <= di /\ di + n <= zlen l2) ->
       (do sl <- mk_slice st a i len; slice_copy st sl dst di) = Raise Subscript \/
       (two62 <= di + n /\ (do sl <- mk_slice st a i len; slice_copy st sl dst di) = Raise Overflow))
  end.
Proof.
  intros A st a i len dst di l1 l2 G1 G2 L1 L2 Hdi. unfold slice_range. set (n := match len with None => _ | Some _ => _ end).
  destruct (Z.leb_spec 0 i), (Z.leb_spec 0 n), (Z.leb_spec (i + n) (zlen l1)); cbn [andb];
    try (unfold mk_slice, deref; rewrite G1; cbn [bind]; destruct len as [m|]; subst n;
         [destruct (Z.leb_spec 0 i), (Z.leb_spec 0 m), (Z.leb_spec m (zlen l1 - i))|
          destruct (Z.leb_spec 0 i), (Z.leb_spec i (zlen l1))]; try lia; reflexivity).
  assert (MS : mk_slice st a i len = Ret (Slice a i n)).
  { unfold mk_slice, deref. rewrite G1. cbn [bind]. destruct len as [m|]; subst n.
    - destruct (Z.leb_spec 0 i), (Z.leb_spec 0 m), (Z.leb_spec m (zlen l1 - i)); try lia. reflexivity.
    - destruct (Z.leb_spec 0 i), (Z.leb_spec i (zlen l1)); try lia. reflexivity. }
  rewrite MS. cbn [bind]. split.
  - intros [H2 H3]. destruct (slice_copy_ok st a i n dst di l1 l2) as (st' & E & M); auto.
    exists st'. split; [assumption|]. eapply moved_with; eauto; lia.
  - intros N. unfold slice_copy, deref. cbn [s_arr s_start s_len]. rewrite G1, G2. cbn [bind].
    destruct (Z.ltb_spec di 0); [now left|]. pose proof (zlen_nonneg l2).
    unfold iadd. destruct (in_intb (di + n)) eqn:I; cbn [bind].
    + rewrite Z.gtb_ltb. destruct (Z.ltb_spec (zlen l2) (di + n)); [now left|lia].
    + right. split; [|reflexivity]. assert (NI : ~ in_int (di + n)) by (rewrite <- in_intb_spec; congruence).
      unfold in_int in NI. lia.
Qed.
(** overlapping in both directions, within one array *)
Example C43_slice_copy_up : (do sl <- mk_slice [[1; 2; 3; 4; 5]] 0 0 (Some 4); slice_copy [[1; 2; 3; 4; 5]] sl 0 1) = Ret [[1; 1; 2; 3; 4]].
Proof. reflexivity. Qed.
Example C43_slice_copy_down : (do sl <- mk_slice [[1; 2; 3; 4; 5]] 0 1 None; slice_copy [[1; 2; 3; 4; 5]] sl 0 0) = Ret [[2; 3; 4; 5; 5]].
Proof. reflexivity. Qed.

(** a subslice denotes the corresponding part of the underlying array, whatever the nesting *)
Theorem C43_subslice : forall s i len, 0 <= s_len s ->
  subslice s i len = match slice_range (s_len s) i len with
                     | Some (i, n) => Ret (Slice (s_arr s) (s_start s + i) n) | None => Raise Subscript end.
Proof.
  intros s i len Hs. unfold subslice, slice_range. destruct len as [n|].
  - destruct (Z.leb_spec 0 i), (Z.leb_spec 0 n), (Z.leb_spec n (s_len s - i)), (Z.leb_spec (i + n) (s_len s)); cbn [andb]; try lia; reflexivity.
  - destruct (Z.leb_spec 0 i), (Z.leb_spec i (s_len s)), (Z.leb_spec 0 (s_len s - i)), (Z.leb_spec (i + (s_len s - i)) (s_len s)); cbn [andb]; try lia; reflexivity.
Qed.
Example C43_subslice_nonvacuous : subslice (Slice 7 2 5) 1 (Some 3) = Ret (Slice 7 3 3) /\ subslice (Slice 7 2 5) 1 (Some 5) = Raise Subscript.
Proof. split; reflexivity. Qed.

(** ** Array.copyVec *)
Theorem C43_copyVec : forall A (st : store A) (v : list A) dst di l2,
  zget st dst = Some l2 -> zlen v < two62 -> zlen l2 < two62 -> in_int di ->
  (0 <= di /\ di + zlen v <= zlen l2 ->
     exists st', array_copyVec st v dst di = Ret st' /\ with_array st dst (splice v 0 l2 di (zlen v)) st') /\
  (~ (0 <= di /\ di + zlen v <= zlen l2) ->
     array_copyVec st v dst di = Raise Subscript \/ (two62 <= di + zlen v /\ array_copyVec st v dst di = Raise Overflow)).
Proof.
  intros A st v dst di l2 G2 L1 L2 Hdi. pose proof (zlen_nonneg v). pose proof (zlen_nonneg l2).
  unfold array_copyVec, deref. rewrite G2. cbn [bind]. split.
  - intros [H1 H2]. destruct (Z.ltb_spec di 0); [lia|]. rewrite iadd_ok by (unfold in_int, two62 in *; lia). cbn [bind].
    rewrite Z.gtb_ltb. destruct (Z.ltb_spec (zlen l2) (di + zlen v)); [lia|].
    destruct (vec_lo2hi_ok v (S (length v)) st 0 dst di 0 (zlen v)) as (st' & E & L & M); try lia.
    + unfold zlen. lia.
    + intros k Hk. destruct (zget_some v (0 + k)) as [y ->]; [lia|discriminate].
    + intros k Hk. apply (peek_range _ _ _ _ G2). lia.
    + exists st'. split; [exact E|]. split; [assumption|]. split.
      * destruct (zget_some st' dst) as [l' G']. { apply zget_range in G2. lia. }
        rewrite G'. f_equal. apply list_ext. intros x. rewrite zget_splice by lia.
        specialize (M dst x). unfold peek in M. rewrite G2, G' in M. rewrite M, Z.eqb_refl, Z.add_0_r. cbn [andb]. reflexivity.
      * intros id' Ne. apply same_peek; [assumption|]. intros x. rewrite M. destruct (Z.eqb_spec id' dst); [contradiction|reflexivity].
  - intros N. destruct (Z.ltb_spec di 0); [now left|].
    unfold iadd. destruct (in_intb (di + zlen v)) eqn:I; cbn [bind].
    + rewrite Z.gtb_ltb. destruct (Z.ltb_spec (zlen l2) (di + zlen v)); [now left|lia].
    + right. split; [|reflexivity]. assert (NI : ~ in_int (di + zlen v)) by (rewrite <- in_intb_spec; congruence).
      unfold in_int in NI. lia.
Qed.
Example C43_copyVec_nonvacuous : array_copyVec [[0; 0; 0; 0]] [7; 8] 0 1 = Ret [[0; 7; 8; 0]].
Proof. reflexivity. Qed.

(** ** Array2.copy *)
(** Well-formed matrices in a store: m distinct rows of n elements each.  Matrices made by
    Array2.array are, and different ones share no row. *)
Theorem C43_new_matrix : forall A (st : store A) m n x st' M, m < 2 ^ 60 -> new_matrix st m n x = Ret (st', M) ->
  good_mat st' M /\ (forall M', good_mat st M' -> good_mat st' M' /\ separate M' M /\ separate M M').
Proof.
  intros A st m n x st' M Hm H. unfold new_matrix in H.
  rewrite !Z.gtb_ltb in H. destruct (Z.ltb_spec m 0); [discriminate|]. destruct (Z.ltb_spec maxLen m); [discriminate|].
  destruct (Z.ltb_spec n 0); [discriminate|]. destruct (Z.ltb_spec maxLen n); [discriminate|]. injection H as <- <-.
  assert (R : forall r id, zget (List.map (fun k => zlen st + Z.of_nat k) (seq 0 (Z.to_nat m))) r = Some id -> 0 <= r < m /\ id = zlen st + r).
  { intros r id G. pose proof (zget_range _ _ _ G) as Rg. unfold zlen in Rg. rewrite map_length, seq_length in Rg.
    split; [lia|]. unfold zget in G. destruct (Z.ltb_spec r 0); [lia|]. rewrite nth_error_map in G.
    destruct (nth_error (seq 0 (Z.to_nat m)) (Z.to_nat r)) as [y|] eqn:Y; [|discriminate]. injection G as <-.
    apply (nth_error_nth _ _ O) in Y. rewrite seq_nth in Y by lia. lia. }
  assert (Z0 : zlen (repeat (repeat x (Z.to_nat n)) (Z.to_nat m)) = m) by (unfold zlen; rewrite repeat_length; lia).
  split.
  - split; [|split; [|split; [|split]]]; cbn [rows nr nc].
    + unfold zlen. rewrite map_length, seq_length. lia.
    + unfold maxLen, two62 in *. lia.
    + assumption.
    + apply FinFun.Injective_map_NoDup; [|apply seq_NoDup]. intros a b. lia.
    + intros r id G. apply R in G as [Hr ->]. exists (repeat x (Z.to_nat n)). rewrite zget_app.
      destruct (Z.ltb_spec (zlen st + r) (zlen st)); [lia|]. replace (zlen st + r - zlen st) with r by lia. split.
      * destruct (zget_some (repeat (repeat x (Z.to_nat n)) (Z.to_nat m)) r) as [l Hl]; [lia|].
        rewrite Hl. f_equal. apply zget_In in Hl. now apply repeat_spec in Hl.
      * unfold zlen. rewrite repeat_length. lia.
  - intros M' (H1' & H2' & H3' & H4' & H5'). 
    assert (Old : forall id, In id (rows M') -> 0 <= id < zlen st).
    { intros id Hin. apply In_zget in Hin as [r Hr]. destruct (H5' r id Hr) as (l & Hl & _). now apply zget_range in Hl. }
    assert (New : forall id, In id (List.map (fun k => zlen st + Z.of_nat k) (seq 0 (Z.to_nat m))) -> zlen st <= id).
    { intros id Hin. apply In_zget in Hin as [r Hr]. apply R in Hr. lia. }
    split; [|split].
    + split; [assumption|]. split; [assumption|]. split; [assumption|]. split; [assumption|]. intros r id Hr.
      destruct (H5' r id Hr) as (l & Hl & Ll). exists l. split; [|assumption]. rewrite zget_app. apply zget_range in Hl as Hl'.
      destruct (Z.ltb_spec id (zlen st)); [assumption|lia].
    + right. intros id H6 H7. cbn [rows] in H7. apply Old in H6. apply New in H7. lia.
    + right. intros id H6 H7. cbn [rows] in H6. apply Old in H7. apply New in H6. lia.
Qed.

(** Every element of the destination region receives the element which the corresponding place of
    the source held before the copy, every other element of every matrix is unchanged. *)
Theorem C43_array2_copy : forall A (st : store A) src sr sc nrows ncols dst dr dc,
  good_mat st src -> good_mat st dst -> separate src dst ->
  let h := match nrows with None => nr src - sr | Some n => n end in
  let w := match ncols with None => nc src - sc | Some n => n end in
  0 <= sr -> 0 <= h -> sr + h <= nr src -> 0 <= sc -> 0 <= w -> sc + w <= nc src ->
  0 <= dr -> dr + h <= nr dst -> 0 <= dc -> dc + w <= nc dst ->
  exists st', array2_copy st src sr sc nrows ncols dst dr dc = Ret st' /\
    (forall i j, 0 <= i < h -> 0 <= j < w -> mat_sub st' dst (dr + i) (dc + j) = mat_sub st src (sr + i) (sc + j)) /\
    (forall r c, ~ (dr <= r < dr + h /\ dc <= c < dc + w) -> mat_sub st' dst r c = mat_sub st dst r c) /\
    (forall M r c, good_mat st M -> separate M dst -> rows M <> rows dst -> mat_sub st' M r c = mat_sub st M r c).
Proof.
  intros A st src sr sc nrows ncols dst dr dc GS GD Sep h w Hsr Hh Hsh Hsc Hw Hsw Hdr Hdh Hdc Hdw.
  destruct (array2_copy_ok st src sr sc nrows ncols dst dr dc) as (st' & E & C); try assumption.
  exists st'. split; [exact E|]. change (height src sr nrows) with h in C. change (width src sc ncols) with w in C.
  (* every row still exists *)
  assert (EX : forall id l, zget st id = Some l -> exists l', zget st' id = Some l').
  { intros id l Hl. assert (LL : zlen st' = zlen st).
    { clear - E. revert E. unfold array2_copy. destruct (stop _ _ _) as [s| | |]; try discriminate. cbn [bind].
      assert (U : forall (s1 s2 : store A) id i v, update_ s1 id i v = Ret s2 -> zlen s2 = zlen s1).
      { intros s1 s2 id i v. unfold update_. destruct (deref s1 id); try discriminate. cbn [bind]. destruct (update_raw _ _ _); try discriminate. cbn [bind].
        destruct (zset s1 id a0) eqn:Z; [|discriminate]. injection 1 as <-. unfold zset in Z. destruct (_ || _); [discriminate|]. injection Z as <-.
        unfold zlen. now rewrite upd_length. }
      assert (HL : forall fuel (s1 s2 : store A) a1 i1 a2 i2 j, hi2lo fuel s1 a1 i1 a2 i2 j = Ret s2 -> zlen s2 = zlen s1).
      { induction fuel as [|fuel IH]; intros s1 s2 a1 i1 a2 i2 j; cbn [hi2lo]; [discriminate|]. destruct (j >=? 0); [|now injection 1 as ->].
        destruct (sub_ _ _ _); try discriminate. cbn [bind]. destruct (update_ _ _ _ _) as [s3| | |] eqn:Up; try discriminate. cbn [bind].
        intros H. apply IH in H. apply U in Up. congruence. }
      assert (LH : forall fuel (s1 s2 : store A) a1 i1 a2 i2 j n, lo2hi fuel s1 a1 i1 a2 i2 j n = Ret s2 -> zlen s2 = zlen s1).
      { induction fuel as [|fuel IH]; intros s1 s2 a1 i1 a2 i2 j n; cbn [lo2hi]; [discriminate|]. destruct (j <? n); [|now injection 1 as ->].
        destruct (sub_ _ _ _); try discriminate. cbn [bind]. destruct (update_ _ _ _ _) as [s3| | |] eqn:Up; try discriminate. cbn [bind].
        intros H. apply IH in H. apply U in Up. congruence. }
      assert (CR : forall (s1 s2 : store A) f t, copy_row s1 src dst sc dc ncols f t = Ret s2 -> zlen s2 = zlen s1).
      { intros s1 s2 f t. unfold copy_row. destruct (row_id src f); try discriminate. cbn [bind]. destruct (mk_slice _ _ _ _) as [sl| | |]; try discriminate. cbn [bind].
        destruct (row_id dst t); try discriminate. cbn [bind]. unfold slice_copy. destruct (deref _ _); try discriminate. cbn [bind].
        destruct (deref _ _); try discriminate. cbn [bind]. destruct (dc <? 0); [discriminate|]. destruct (iadd _ _); try discriminate. cbn [bind].
        destruct (_ >? _); [discriminate|]. destruct (_ <? _); [apply HL|apply LH]. }
      destruct (sr <=? dr).
      - destruct (iadd _ _) as [t| | |]; try discriminate. cbn [bind].
        generalize (S (Z.to_nat (nr src))) as fuel, (s - 1) as f, (t - sr) as t'. intros fuel f t' H. revert st f t' H.
        induction fuel as [|fuel IH]; intros st f t'; cbn [bottomUp]; [discriminate|]. destruct (f <? sr); [now injection 1 as ->|].
        destruct (copy_row _ _ _ _ _ _ _ _) eqn:R; try discriminate. cbn [bind]. intros H. apply IH in H. apply CR in R. congruence.
      - generalize (S (Z.to_nat (nr src))) as fuel, sr as f, dr as t'. intros fuel f t' H. revert st f t' H.
        induction fuel as [|fuel IH]; intros st f t'; cbn [topDown]; [discriminate|]. destruct (f >=? s); [now injection 1 as ->|].
        destruct (copy_row _ _ _ _ _ _ _ _) eqn:R; try discriminate. cbn [bind]. intros H. apply IH in H. apply CR in R. congruence. }
    apply zget_some. apply zget_range in Hl. lia. }
  assert (SUB : forall s M r c id l, zget (rows M) r = Some id -> zget s id = Some l ->
     mat_sub s M r c = match peek (A := A) s id c with Some v => Ret v | None => Raise Subscript end).
  { intros s M r c id l Hr Hl. unfold mat_sub, sub_chk, deref, peek. rewrite Hr. cbn [bind]. rewrite Hl. cbn [bind]. reflexivity. }
  destruct C as [C1 C2]. split; [|split].
  - intros i j Hi Hj. pose proof GS as (LS & _ & _ & _ & RS). pose proof GD as (LD & _ & _ & _ & RD).
    destruct (zget_some (rows dst) (dr + i)) as [d Hd]; [lia|]. destruct (zget_some (rows src) (sr + i)) as [a Ha]; [lia|].
    destruct (RS _ _ Ha) as (la & Hla & _). destruct (RD _ _ Hd) as (ld & Hld & _). destruct (EX _ _ Hld) as (ld' & Hld').
    rewrite (SUB st' dst _ _ d ld' Hd Hld'), (SUB st src _ _ a la Ha Hla).
    rewrite (C1 (sr + i) d (dc + j)); [|lia|now replace (sr + i + (dr - sr)) with (dr + i) by lia|lia].
    unfold mpeek. rewrite Ha. replace (sc + (dc + j - dc)) with (sc + j) by lia. reflexivity.
  - intros r c Hn. pose proof GD as (LD & _ & _ & _ & RD). destruct (zget (rows dst) r) as [d|] eqn:Hd.
    + destruct (RD _ _ Hd) as (ld & Hld & _). destruct (EX _ _ Hld) as (ld' & Hld').
      rewrite (SUB st' dst _ _ d ld' Hd Hld'), (SUB st dst _ _ d ld Hd Hld). rewrite C2; [reflexivity|].
      intros r' Hr' Hd' Hc. apply Hn. assert (r' + (dr - sr) = r) by (eapply rows_inj; eauto). lia.
    + unfold mat_sub, sub_chk. now rewrite Hd.
  - intros M r c GM SM Ne. destruct SM as [SM|SM]; [contradiction|]. pose proof GM as (LM & _ & _ & _ & RM).
    destruct (zget (rows M) r) as [d|] eqn:Hd.
    + destruct (RM _ _ Hd) as (ld & Hld & _). destruct (EX _ _ Hld) as (ld' & Hld').
      rewrite (SUB st' M _ _ d ld' Hd Hld'), (SUB st M _ _ d ld Hd Hld). rewrite C2; [reflexivity|].
      intros r' Hr' Hd' _. apply (SM d); eapply zget_In; eauto.
    + unfold mat_sub, sub_chk. now rewrite Hd.
Qed.
(** a 3x3 matrix copied onto itself one row down and one column right *)
Example C43_array2_copy_nonvacuous :
  good_mat [[1;2;3];[4;5;6];[7;8;9]] (Mat [0;1;2] 3 3) /\
  array2_copy [[1;2;3];[4;5;6];[7;8;9]] (Mat [0;1;2] 3 3) 0 0 (Some 2) (Some 2) (Mat [0;1;2] 3 3) 1 1
  = Ret [[1;2;3];[4;1;2];[7;4;5]].
Proof.
  split; [|reflexivity]. split; [reflexivity|]. split; [cbn; unfold two62; lia|]. split; [cbn; lia|]. split.
  - repeat constructor; cbn; intuition lia.
  - intros r id H. cbn [rows] in H. pose proof (zget_range _ _ _ H) as R. unfold zlen in R. cbn in R.
    assert (X : r = 0 \/ r = 1 \/ r = 2) by lia. destruct X as [->|[->| ->]]; injection H as <-; eexists; split; reflexivity.
Qed.
(** Array2.sig 185-186: "Raises Subscript if the src region is invalid, or if src translated to
    (dst_row, dst_col) is invalid for dst": not when the source region has no rows; *)
Theorem C43_array2_copy_subscript_refuted : exists (st : store Z) M,
  good_mat st M /\ array2_copy st M 0 100 (Some 0) (Some 5) M 77 88 = Ret st.
Proof.
  exists [[1]], (Mat [0] 1 1). split; [|reflexivity]. split; [reflexivity|]. split; [cbn; unfold two62; lia|]. split; [cbn; lia|]. split.
  - repeat constructor; cbn; intuition lia.
  - intros r id H. cbn [rows] in H. pose proof (zget_range _ _ _ H) as R. unfold zlen in R. cbn in R.
    assert (r = 0) by lia. subst r. injection H as <-. eexists; split; reflexivity.
Qed.
(** and when it is raised, part of the destination may already have been overwritten: here row 0 of
    the destination (array 2) is written before the missing row 1 is noticed *)
Theorem C43_array2_copy_atomic_refuted : exists (st st' : store Z) src dst,
  good_mat st src /\ good_mat st dst /\ separate src dst /\
  array2_copy st src 1 0 None None dst 0 0 = Raise Subscript /\
  copy_row st src dst 0 0 None 1 0 = Ret st' /\ mat_sub st' dst 0 0 <> mat_sub st dst 0 0.
Proof.
  assert (G3 : good_mat [[1];[2];[3];[4]] (Mat [0;1;2] 3 1)).
  { split; [reflexivity|]. split; [cbn; unfold two62; lia|]. split; [cbn; lia|]. split.
    - repeat constructor; cbn; intuition lia.
    - intros r id H. cbn [rows] in H. pose proof (zget_range _ _ _ H) as R. unfold zlen in R. cbn in R.
      assert (X : r = 0 \/ r = 1 \/ r = 2) by lia. destruct X as [->|[->| ->]]; injection H as <-; eexists; split; reflexivity. }
  assert (G1 : good_mat [[1];[2];[3];[4]] (Mat [3] 1 1)).
  { split; [reflexivity|]. split; [cbn; unfold two62; lia|]. split; [cbn; lia|]. split.
    - repeat constructor; cbn; intuition lia.
    - intros r id H. cbn [rows] in H. pose proof (zget_range _ _ _ H) as R. unfold zlen in R. cbn in R.
      assert (r = 0) by lia. subst r. injection H as <-. eexists; split; reflexivity. }
  exists [[1];[2];[3];[4]], [[1];[2];[3];[2]], (Mat [0;1;2] 3 1), (Mat [3] 1 1).
  split; [assumption|]. split; [assumption|]. split; [right; cbn; intuition lia|]. split; [reflexivity|]. split; [reflexivity|].
  vm_compute. discriminate.
Qed.

(** ** blit_string (strings, CharArray, Word8Array, Buffer) for lengths below 2^31 *)
Theorem C43_blit_string_partial : forall A (st : store A) s1 o1 s2 o2 n l1 l2,
  zget st s1 = Some l1 -> zget st s2 = Some l2 ->
  0 <= o1 -> 0 <= o2 -> 0 <= n < 2147483648 -> o1 + n <= zlen l1 -> o2 + n <= zlen l2 ->
  exists st', blit_string st s1 o1 s2 o2 n = Ret st' /\ with_array st s2 (splice l1 o1 l2 o2 n) st'.
Proof.
  intros A st s1 o1 s2 o2 n l1 l2 G1 G2 H1 H2 Hn R1 R2.
  destruct (blit_ok st s1 o1 s2 o2 n l1 l2) as (st' & E & M); auto.
  exists st'. split; [exact E|]. eapply moved_with; eauto; lia.
Qed.
Example C43_blit_string_nonvacuous : blit_string [[1; 2; 3; 4; 5]] 0 0 0 1 4 = Ret [[1; 1; 2; 3; 4]].
Proof. reflexivity. Qed.
(** From 2^31 on the length is cut to 32 bits (str.c 50, Int_val), so that copying 2^32 bytes copies
    none and copying 2^31 bytes passes a negative length to memmove; both are reachable as strings
    may have 2^57 bytes (Word8Array.copy calls blit_string with the length of the source). *)
Theorem C43_blit_string_refuted :
  exists len, 0 <= len /\ forall (st : store Z) s1 s2 l1 l2, zget st s1 = Some l1 -> zget st s2 = Some l2 -> zlen l1 = len -> zlen l2 = len ->
    blit_string st s1 0 s2 0 len = Ret st.
Proof.
  exists 4294967296. split; [lia|]. intros st s1 s2 l1 l2 G1 G2 L1 L2. unfold blit_string. change (to_int32 4294967296) with 0.
  unfold deref. rewrite G1, G2. cbn [bind]. rewrite L1, L2. cbn [Z.ltb Z.gtb orb Z.add Z.compare Z.to_nat firstn skipn app].
  destruct (zset_some st s2 l2 (zget_range _ _ _ G2)) as (s' & -> & _ & G).
  assert (s' = st) as ->; [|reflexivity].
  apply list_ext. intros k. rewrite G. destruct (Z.eqb_spec k s2) as [->|]; [now rewrite G2|reflexivity].
Qed.
Theorem C43_blit_string_negative_refuted :
  exists len, 0 <= len /\ forall (st : store Z) s1 s2 l1 l2, zget st s1 = Some l1 -> zget st s2 = Some l2 -> zlen l1 = len -> zlen l2 = len ->
    blit_string st s1 0 s2 0 len = UB.
Proof.
  exists 2147483648. split; [lia|]. intros st s1 s2 l1 l2 G1 G2 L1 L2. unfold blit_string. change (to_int32 2147483648) with (-2147483648).
  unfold deref. rewrite G1, G2. cbn [bind]. reflexivity.
Qed.

(** ** memmov (misc.c), byte for byte *)
Theorem C43_memmov : forall B (m : @mem B) dst src n, 0 <= n ->
  forall a, memmov m dst src n a = if (dst <=? a) && (a <? dst + n) then m (src + (a - dst)) else m a.
Proof. intros B m dst src n H. exact (memmov_ok m dst src n H). Qed.
Example C43_memmov_nonvacuous : List.map (memmov (fun a => a) 11 3 20) [10; 11; 12; 20; 30; 31] = [10; 3; 4; 12; 22; 31].
Proof. reflexivity. Qed.

Print Assumptions C43_array_copy.
Print Assumptions C43_array_copy_subscript_refuted.
Print Assumptions C43_slice_copy.
Print Assumptions C43_subslice.
Print Assumptions C43_copyVec.
Print Assumptions C43_new_matrix.
Print Assumptions C43_array2_copy.
Print Assumptions C43_array2_copy_subscript_refuted.
Print Assumptions C43_array2_copy_atomic_refuted.
Print Assumptions C43_blit_string_partial.
Print Assumptions C43_blit_string_refuted.
Print Assumptions C43_blit_string_negative_refuted.
Print Assumptions C43_memmov.
