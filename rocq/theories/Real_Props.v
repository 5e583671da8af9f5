(** C42: floor, ceil, trunc and round from real to int. *)
From Verif Require Import Base ArrayLib Arith_Model Value_Model Value_Spec Value_Proofs Real_Model.

(** *** Specification *)
(** a double that is a number: the exponent is not 2047 *)
Definition finite (d : Z) : Prop := 0 <= d < two64 /\ d / 2 ^ 52 mod 2048 <> 2047.
(** [scaled d] (Value_Spec) is the number d stands for, times this unit *)
Definition unit_ : Z := 2 ^ 1074.
(** n is the largest integer not above d, the smallest not below d, d without its fraction, the
    nearest integer to d where of two equally near the even one *)
Definition is_floor (d n : Z) : Prop := n * unit_ <= scaled d < (n + 1) * unit_.
Definition is_ceil (d n : Z) : Prop := (n - 1) * unit_ < scaled d <= n * unit_.
Definition is_trunc (d n : Z) : Prop := (0 <= scaled d -> is_floor d n) /\ (scaled d <= 0 -> is_ceil d n).
Definition is_round (d n : Z) : Prop :=
  2 * Z.abs (scaled d - n * unit_) <= unit_ /\ (2 * Z.abs (scaled d - n * unit_) = unit_ -> Z.even n = true).
(** the ML integer n, if there is one, otherwise Overflow *)
Definition int_or_overflow (n : Z) : outcome Z := if in_intb n then Ret (2 * n + 1) else Raise Overflow.

(** *** Proofs *)
Lemma unit_pos : 0 < unit_. Proof. reflexivity. Qed.
Lemma unit_parts k : 0 <= k <= 1074 -> unit_ = 2 ^ k * 2 ^ (1074 - k).
Proof. intros H. unfold unit_. rewrite <- Z.pow_add_r by lia. f_equal. lia. Qed.

Lemma dexp_range d : 0 <= dexp d < 2048. Proof. unfold dexp. lia. Qed.
Lemma dex_range d : 1 <= dex d < 2048. Proof. unfold dex. pose proof (dexp_range d). lia. Qed.
Lemma dsig_range d : 0 <= dsig d < 2 ^ 53.
Proof. unfold dsig, dfrac. change (2 ^ 53) with 9007199254740992. change (2 ^ 52) with 4503599627370496. destruct (dexp d =? 0); lia. Qed.
(** the magnitude, times the unit *)
Definition mag (d : Z) : Z := dsig d * 2 ^ (dex d - 1).
Lemma scaled_mag d : scaled d = if dneg d then - mag d else mag d.
Proof.
  unfold scaled, mag, dsig, dex, dneg. fold (dexp d) (dfrac d). pose proof (dexp_range d) as R. cbn zeta.
  replace (if dexp d =? 0 then dfrac d else (2 ^ 52 + dfrac d) * 2 ^ (dexp d - 1)) with
    ((if dexp d =? 0 then dfrac d else 2 ^ 52 + dfrac d) * 2 ^ (Z.max 1 (dexp d) - 1)).
  - destruct (Z.leb_spec two63 d), (Z.ltb_spec d two63); try lia; reflexivity.
  - destruct (Z.eqb_spec (dexp d) 0) as [E|N].
    + rewrite E. change (Z.max 1 0 - 1) with 0. now rewrite Z.pow_0_r, Z.mul_1_r.
    + now replace (Z.max 1 (dexp d)) with (dexp d) by lia.
Qed.
Lemma mag_nonneg d : 0 <= mag d.
Proof. unfold mag. pose proof (dsig_range d). pose proof (dex_range d). apply Z.mul_nonneg_nonneg; [lia|]. apply Z.pow_nonneg. lia. Qed.

Lemma dint_mag d : dint d = mag d / unit_.
Proof.
  unfold dint, mag. pose proof (dex_range d) as R. destruct (Z.leb_spec 1075 (dex d)) as [L|L].
  - replace (dex d - 1) with (dex d - 1075 + 1074) by lia. rewrite Z.pow_add_r by lia. fold unit_. rewrite Z.mul_assoc.
    symmetry. apply Z.div_mul. discriminate.
  - rewrite (unit_parts (dex d - 1)) by lia. rewrite (Z.mul_comm (2 ^ _) (2 ^ (1074 - _))).
    rewrite Z.div_mul_cancel_r by (apply Z.pow_nonzero; lia). f_equal. f_equal. lia.
Qed.

(** from 2^52 on doubles are integers *)
Lemma mag_integer d : 1075 <= dex d -> mag d = dint d * unit_.
Proof.
  intros L. unfold dint, mag. rewrite (proj2 (Z.leb_le _ _) L). replace (dex d - 1) with (dex d - 1075 + 1074) by lia.
  rewrite Z.pow_add_r by lia. fold unit_. lia.
Qed.
Lemma dint_small d : dex d < 1075 -> 0 <= dint d < 2 ^ 53.
Proof.
  intros L. unfold dint. rewrite (proj2 (Z.leb_gt _ _) L). pose proof (dsig_range d) as R. pose proof (dex_range d).
  assert (P : 0 < 2 ^ (1075 - dex d)) by (apply Z.pow_pos_nonneg; lia). split; [apply Z.div_pos; lia|].
  apply Z.le_lt_trans with (dsig d); [|lia]. apply Z.div_le_upper_bound; [lia|]. nia.
Qed.

(** *** (double) i *)
Lemma near_exact m k : 0 <= k -> m mod 2 ^ k = 0 -> near m k = m / 2 ^ k.
Proof.
  intros H E. unfold near. rewrite E. assert (P : 0 < 2 ^ k) by (apply Z.pow_pos_nonneg; lia). cbn zeta. rewrite Z.mul_0_r.
  rewrite (proj2 (Z.ltb_ge _ _)), (proj2 (Z.eqb_neq _ _)) by lia. reflexivity.
Qed.
(** integers that doubles hold exactly *)
Definition exact (i : Z) : Prop := exists m s, Z.abs i = m * 2 ^ s /\ 0 <= m < 2 ^ 53 /\ 0 <= s /\ Z.abs i < 2 ^ 64.
Lemma exact_q m : 0 < m -> exact m -> let k := Z.log2 m in
  let q := if k <=? 52 then m * 2 ^ (52 - k) else near m (k - 52) in
  0 <= k < 64 /\ 2 ^ 52 <= q < 2 ^ 53 /\ q * 2 ^ (k + 1022) = m * unit_.
Proof.
  intros P (m0 & s & E & B & S0 & B64) k q. rewrite Z.abs_eq in E, B64 by lia.
  pose proof (Z.log2_spec m P) as [K1 K2]. fold k in K1, K2.
  assert (K0 : 0 <= k) by apply Z.log2_nonneg.
  assert (K64 : k < 64) by (apply (Z.pow_lt_mono_r_iff 2); lia).
  assert (Q : 0 <= 52 - k /\ q = m * 2 ^ (52 - k) \/ 0 < k - 52 /\ m = q * 2 ^ (k - 52)).
  { subst q. destruct (Z.leb_spec k 52) as [L|L]; [left; lia|right]. split; [lia|].
    assert (Ks : k - 52 <= s).
    { destruct (Z.le_gt_cases (k - 52) s); [assumption|]. exfalso.
      assert (m < 2 ^ k); [|lia]. rewrite E. replace k with (53 + s + (k - 53 - s)) by lia.
      rewrite !Z.pow_add_r by lia. assert (0 < 2 ^ s) by (apply Z.pow_pos_nonneg; lia).
      assert (1 <= 2 ^ (k - 53 - s)) by (apply (Z.pow_le_mono_r 2 0); lia). nia. }
    assert (M0 : m = m0 * 2 ^ (s - (k - 52)) * 2 ^ (k - 52)).
    { rewrite E, <- Z.mul_assoc, <- Z.pow_add_r by lia. f_equal. f_equal. lia. }
    assert (MZ : m mod 2 ^ (k - 52) = 0) by (rewrite M0; apply Z.mod_mul, Z.pow_nonzero; lia).
    rewrite near_exact by (assumption || lia). apply Z_div_exact_full_2 in MZ; [lia|apply Z.pow_nonzero; lia]. }
  clearbody q k. split; [lia|]. destruct Q as [[L Eq]|[L Eq]].
  - split.
    + rewrite Eq. assert (0 < 2 ^ (52 - k)) by (apply Z.pow_pos_nonneg; lia).
      assert (E52 : 2 ^ k * 2 ^ (52 - k) = 2 ^ 52) by (rewrite <- Z.pow_add_r by lia; f_equal; lia).
      rewrite Z.pow_succ_r in K2 by lia. assert (E53 : 2 ^ 53 = 2 * 2 ^ 52) by reflexivity. rewrite E53. nia.
    + rewrite Eq, <- Z.mul_assoc, <- Z.pow_add_r by lia. unfold unit_. f_equal. f_equal. lia.
  - split.
    + assert (0 < 2 ^ (k - 52)) by (apply Z.pow_pos_nonneg; lia).
      assert (E52 : 2 ^ k = 2 ^ 52 * 2 ^ (k - 52)) by (rewrite <- Z.pow_add_r by lia; f_equal; lia).
      rewrite Z.pow_succ_r, E52 in K2 by lia. rewrite E52 in K1. assert (E53 : 2 ^ 53 = 2 * 2 ^ 52) by reflexivity. rewrite E53. nia.
    + rewrite Eq at 1. unfold unit_. rewrite <- !Z.mul_assoc, <- Z.pow_add_r by lia.
      replace (k + 1022) with (k - 52 + 1074) by lia. reflexivity.
Qed.

Lemma of_long_exact i : exact i -> finite (of_long i) /\ scaled (of_long i) = i * unit_.
Proof.
  intros X. destruct (Z.eq_dec i 0) as [->|N]; [split; [split; [unfold two64; cbn; lia|discriminate]|reflexivity]|].
  assert (X' : exact (Z.abs i)) by (destruct X as (m & s & E & R); exists m, s; rewrite Z.abs_eq by lia; auto).
  destruct (exact_q (Z.abs i) ltac:(lia) X') as (K & Q & E). unfold of_long.
  rewrite (proj2 (Z.eqb_neq _ _)) by lia. cbn zeta.
  set (k := Z.log2 (Z.abs i)) in *. set (q := if k <=? 52 then _ else _) in *. clearbody q k.
  change (2 ^ 53) with 9007199254740992 in Q. change (2 ^ 52) with 4503599627370496 in *.
  set (d := _ + _ + _).
  assert (D : 0 <= d < two64 /\ dexp d = k + 1023 /\ dfrac d = q - 4503599627370496 /\ dneg d = (i <? 0)).
  { subst d. unfold dexp, dfrac, dneg, two63, two64. change (2 ^ 52) with 4503599627370496.
    destruct (Z.ltb_spec i 0) as [L|L].
    - repeat split; try lia.
    - repeat split; try lia. }
  destruct D as (R & D1 & D2 & D3). clearbody d. split.
  - split; [assumption|]. unfold dexp in D1. rewrite D1. lia.
  - rewrite scaled_mag, D3. unfold mag, dsig, dex. rewrite D1, D2. rewrite (proj2 (Z.eqb_neq _ _)) by lia.
    replace (Z.max 1 (k + 1023) - 1) with (k + 1022) by lia. change (2 ^ 52) with 4503599627370496.
    replace (4503599627370496 + (q - 4503599627370496)) with q by lia. rewrite E.
    destruct (Z.ltb_spec i 0); [rewrite Z.abs_neq by lia|rewrite Z.abs_eq by lia]; lia.
Qed.

(** *** comparisons *)
Lemma finite_not_nan d : finite d -> dnan d = false.
Proof. intros [R F]. destruct (dnan d) eqn:E; [|reflexivity]. apply dnan_spec in E; [|assumption]. destruct E. contradiction. Qed.
Lemma dlt_finite a b : finite a -> finite b -> dlt a b = (scaled a <? scaled b).
Proof.
  intros A B. unfold dlt. rewrite !finite_not_nan by assumption. cbn [negb andb]. pose proof (scaled_key a b (proj1 A) (proj1 B)) as C.
  unfold Z.ltb. now rewrite C.
Qed.
Lemma dle_finite a b : finite a -> finite b -> dle a b = (scaled a <=? scaled b).
Proof.
  intros A B. unfold dle, deq, dlt. rewrite !finite_not_nan by assumption. cbn [negb andb]. pose proof (scaled_key a b (proj1 A) (proj1 B)) as C.
  unfold Z.ltb, Z.leb. rewrite C. destruct (Z.compare_spec (dkey a) (dkey b)) as [H|H|H]; cbn [orb]; [now apply Z.eqb_eq|reflexivity|].
  apply Z.eqb_neq. lia.
Qed.

(** *** (long) d *)
Definition whole (d : Z) : Z := if dneg d then - dint d else dint d.
Lemma long_of_finite d : finite d -> long_of d = if in_longb (whole d) then Ret (whole d) else UB.
Proof. intros [_ F]. unfold long_of. rewrite (proj2 (Z.eqb_neq (dexp d) 2047)) by exact F. reflexivity. Qed.
Lemma whole_spec d : (0 <= scaled d -> whole d * unit_ <= scaled d < (whole d + 1) * unit_) /\
  (scaled d <= 0 -> (whole d - 1) * unit_ < scaled d <= whole d * unit_).
Proof.
  rewrite scaled_mag. unfold whole. rewrite dint_mag. pose proof (mag_nonneg d) as M. pose proof unit_pos as U.
  pose proof (Z.div_mod (mag d) unit_ ltac:(lia)) as E. pose proof (Z.mod_pos_bound (mag d) unit_ U) as B.
  set (q := mag d / unit_) in *. set (r := mag d mod unit_) in *. set (x := mag d) in *. clearbody q r x. generalize dependent unit_. intros u U E B.
  assert (0 <= q) by nia. assert (Z0 : x <= 0 -> q = 0 /\ r = 0) by (intros; nia).
  destruct (dneg d); split; intros HX; nia.
Qed.
Lemma whole_exact d : Z.abs (whole d) < 2 ^ 64 -> exact (whole d).
Proof.
  intros B. pose proof (dsig_range d) as R. assert (A : Z.abs (whole d) = dint d).
  { unfold whole. assert (0 <= dint d) by (rewrite dint_mag; apply Z.div_pos; [apply mag_nonneg|reflexivity]). destruct (dneg d); lia. }
  destruct (Z.le_gt_cases 1075 (dex d)) as [L|L].
  - exists (dsig d), (dex d - 1075). rewrite A in *. unfold dint in *. rewrite (proj2 (Z.leb_le _ _) L) in *. auto with zarith.
  - exists (dint d), 0. rewrite A in *. pose proof (dint_small d L). rewrite Z.pow_0_r. lia.
Qed.

(** *** the constants *)
Lemma finite_of i : finite (of_long i) -> 0 <= of_long i < two64. Proof. now intros []. Qed.
Ltac fin := split; [unfold two64; vm_compute; split; [discriminate|reflexivity]|vm_compute; discriminate].
Lemma c_max : finite (of_long Max_long) /\ scaled (of_long Max_long) = two62 * unit_.
Proof. split; [fin|vm_compute; reflexivity]. Qed.
Lemma c_max1 : finite (of_long (two62 + 1)) /\ scaled (of_long (two62 + 1)) = two62 * unit_.
Proof. split; [fin|vm_compute; reflexivity]. Qed.
Lemma c_two62 : finite (of_long two62) /\ scaled (of_long two62) = two62 * unit_.
Proof. split; [fin|vm_compute; reflexivity]. Qed.
Lemma c_min : finite (of_long Min_long) /\ scaled (of_long Min_long) = - two62 * unit_.
Proof. split; [fin|vm_compute; reflexivity]. Qed.
Lemma c_min1 : finite (of_long (Min_long - 1)) /\ scaled (of_long (Min_long - 1)) = - two62 * unit_.
Proof. split; [fin|vm_compute; reflexivity]. Qed.
Lemma c_zero : finite dzero /\ scaled dzero = 0.
Proof. split; [fin|vm_compute; reflexivity]. Qed.

Lemma boxed i : in_long i -> (let v := Val_long i in if negb (Long_val v =? i) then Raise Overflow else Ret v) = int_or_overflow i.
Proof.
  intros L. cbn zeta. unfold int_or_overflow, Val_long, Long_val. unfold in_long in L.
  destruct (in_intb i) eqn:E.
  - apply in_intb_spec in E. unfold in_int in E. rewrite s64_id by (unfold in_long, two62, two63 in *; lia).
    rewrite Z.shiftr_div_pow2 by lia. change (2 ^ 1) with 2. replace ((i * 2 + 1) / 2) with i by lia. rewrite Z.eqb_refl. cbn [negb]. f_equal. lia.
  - assert (N : ~ in_int i) by (rewrite <- in_intb_spec; congruence). unfold in_int in N.
    rewrite Z.shiftr_div_pow2 by lia. change (2 ^ 1) with 2. rewrite (proj2 (Z.eqb_neq _ _)); [reflexivity|]. intros H.
    unfold s64, in_long, two62, two63, two64 in *. lia.
Qed.

(** *** The theorems.  x, u, w: the scaled number, the unit, the whole part *)
Lemma whole_long d : - 2 ^ 63 * unit_ <= scaled d < 2 ^ 63 * unit_ -> in_longb (whole d) = true /\ exact (whole d).
Proof.
  intros B. destruct (whole_spec d) as [W1 W2]; pose proof unit_pos as U. destruct (Z.le_ge_cases 0 (scaled d)) as [S|S]; [specialize (W1 S) as W|specialize (W2 S) as W]; clear W1 W2.
  - assert (- 2 ^ 63 <= whole d < 2 ^ 63) by (generalize dependent unit_; intros u; change (2 ^ 63) with 9223372036854775808; nia).
    split; [apply in_longb_spec; unfold in_long, two63; change (2 ^ 63) with 9223372036854775808 in *; lia|].
    apply whole_exact. change (2 ^ 63) with 9223372036854775808 in *. change (2 ^ 64) with 18446744073709551616. lia.
  - assert (- 2 ^ 63 <= whole d < 2 ^ 63) by (generalize dependent unit_; intros u; change (2 ^ 63) with 9223372036854775808; nia).
    split; [apply in_longb_spec; unfold in_long, two63; change (2 ^ 63) with 9223372036854775808 in *; lia|].
    apply whole_exact. change (2 ^ 63) with 9223372036854775808 in *. change (2 ^ 64) with 18446744073709551616. lia.
Qed.

Lemma over n : ~ in_int n -> int_or_overflow n = Raise Overflow.
Proof. intros H. unfold int_or_overflow. destruct (in_intb n) eqn:E; [|reflexivity]. apply in_intb_spec in E. contradiction. Qed.

Lemma ck_in x : in_long x -> ck x = Ret x.
Proof. intros H. unfold ck. apply in_longb_spec in H. now rewrite H. Qed.


(** what the conversions look at *)
Lemma setup d (P : Z -> Z -> Z -> Prop) : finite d ->
  (forall x u w, 0 < u -> (0 <= x -> w * u <= x < (w + 1) * u) -> (x <= 0 -> (w - 1) * u < x <= w * u) -> 
     (- 9223372036854775808 * u <= x < 9223372036854775808 * u -> in_longb w = true /\ exact w) ->
     (forall n, exact n -> dlt d (of_long n) = (x <? n * u)) ->
     (forall n, exact n -> dlt (of_long n) d = (n * u <? x)) ->
     dle dzero d = (0 <=? x) -> dle (of_long (two62 + 1)) d = (two62 * u <=? x) ->  dle (of_long two62) d = (two62 * u <=? x) ->
     dlt d (of_long Min_long) = (x <? - two62 * u) -> dle d (of_long (Min_long - 1)) = (x <=? - two62 * u) ->
     dlt (of_long Max_long) d = (two62 * u <? x) ->
     long_of d = (if in_longb w then Ret w else UB) -> (9007199254740992 * u <= Z.abs x -> x = w * u) -> P x u w) -> P (scaled d) unit_ (whole d).
Proof.
  intros F H. destruct (whole_spec d) as [W1 W2]. apply H; auto using unit_pos.
  - apply whole_long.
  - intros n X. destruct (of_long_exact n X) as [Fn Sn]. now rewrite (dlt_finite _ _ F Fn), Sn.
  - intros n X. destruct (of_long_exact n X) as [Fn Sn]. now rewrite (dlt_finite _ _ Fn F), Sn.
  - now rewrite (dle_finite _ _ (proj1 c_zero) F), (proj2 c_zero).
  - now rewrite (dle_finite _ _ (proj1 c_max1) F), (proj2 c_max1).
  - now rewrite (dle_finite _ _ (proj1 c_two62) F), (proj2 c_two62).
  - now rewrite (dlt_finite _ _ F (proj1 c_min)), (proj2 c_min).
  - now rewrite (dle_finite _ _ F (proj1 c_min1)), (proj2 c_min1).
  - now rewrite (dlt_finite _ _ (proj1 c_max) F), (proj2 c_max).
  - now apply long_of_finite.
  - intros B. destruct (Z.le_gt_cases 1075 (dex d)) as [L|L].
    + rewrite scaled_mag, mag_integer by assumption. unfold whole. destruct (dneg d); lia.
    + exfalso. assert (Z.abs (scaled d) = mag d) as E by (rewrite scaled_mag; pose proof (mag_nonneg d); destruct (dneg d); lia).
      rewrite E in B. unfold mag in B. pose proof (dsig_range d) as R. pose proof (dex_range d). change (2 ^ 53) with 9007199254740992 in R.
      assert (2 ^ (dex d - 1) <= unit_) by (apply Z.pow_le_mono_r; lia). assert (0 < 2 ^ (dex d - 1)) by (apply Z.pow_pos_nonneg; lia). nia.
Qed.
Ltac quotient x u U q r := pose proof (Z.div_mod x u ltac:(lia)); pose proof (Z.mod_pos_bound x u U);
  set (q := x / u) in *; set (r := x mod u) in *; clearbody q r.
Ltac inl := unfold in_long, two63; nia.

Theorem C42_floor : forall d, finite d -> exists n, is_floor d n /\ sml_floor d = int_or_overflow n.
Proof.
  intros d F. unfold is_floor. apply (setup d (fun x u w => exists n, n * u <= x < (n + 1) * u /\ sml_floor d = int_or_overflow n) F).
  clear F. intros x u w U W1 W2 WL FX GX T0 T1 _ T2 _ _ TL _. unfold sml_floor. 
  replace (long_of (of_long Max_long)) with (Ret two62) by (vm_compute; reflexivity). cbn [bind]. rewrite T0, T1, T2, TL.
  unfold two62 in *. clear T0 T1 T2 TL GX.
  destruct (Z.leb_spec 0 x) as [L0|L0].
  - specialize (W1 L0). clear W2. destruct (Z.leb_spec (4611686018427387904 * u) x) as [L1|L1].
    + exists (x / u). cbn [bind]. quotient x u U q r. split; [nia|]. symmetry. apply over. unfold in_int, two62. nia.
    + destruct (WL ltac:(nia)) as [I X]. rewrite I. cbn [bind]. exists w. split; [nia|]. apply boxed. inl.
  - specialize (W2 ltac:(lia)). clear W1. destruct (Z.ltb_spec x (Z.opp 4611686018427387904 * u)) as [L1|L1].
    + exists (x / u). cbn [bind]. quotient x u U q r. split; [nia|]. symmetry. apply over. unfold in_int, two62. nia.
    + destruct (WL ltac:(nia)) as [I X]. rewrite I. cbn [bind]. rewrite FX by assumption.
      assert (Wr : -4611686018427387904 <= w <= 0) by nia.
      destruct (Z.ltb_spec x (w * u)) as [L2|L2].
      * unfold csub. rewrite ck_in by inl. cbn [bind]. exists (w - 1). split; [nia|]. apply boxed. inl.
      * cbn [bind]. exists w. split; [nia|]. apply boxed. inl.
Qed.

(** ceil is right except at -2^62 *)
Theorem C42_ceil_partial : forall d, finite d -> scaled d <> - 2 ^ 62 * unit_ ->
  exists n, is_ceil d n /\ sml_ceil d = int_or_overflow n.
Proof.
  intros d F NE. unfold is_ceil.
  apply (setup d (fun x u w => x <> - 2 ^ 62 * u -> exists n, (n - 1) * u < x <= n * u /\ sml_ceil d = int_or_overflow n) F); [|assumption].
  clear F NE. intros x u w U W1 W2 WL FX GX T0 T1 _ T2 T3 T4 TL TI NE. unfold sml_ceil. rewrite T0, T4, TL.
  change (csub Min_long 1) with (Ret (Min_long - 1)). cbn [bind]. rewrite T3.
  unfold two62 in *. change (2 ^ 62) with 4611686018427387904 in NE. clear T0 T1 T2 T3 T4 TL FX.
  destruct (Z.leb_spec 0 x) as [L0|L0].
  - specialize (W1 L0). clear W2. destruct (Z.ltb_spec (4611686018427387904 * u) x) as [L1|L1].
    + exists (- (- x / u)). cbn [bind]. remember (- x) as y eqn:EY. quotient y u U q r. split; [nia|]. symmetry. apply over. unfold in_int, two62. nia.
    + destruct (WL ltac:(nia)) as [I X]. rewrite I. cbn [bind]. rewrite GX by assumption.
      assert (Wr : 0 <= w <= 4611686018427387904) by nia.
      destruct (Z.ltb_spec (w * u) x) as [L2|L2].
      * unfold cadd. rewrite ck_in by inl. cbn [bind]. exists (w + 1). split; [nia|]. apply boxed. inl.
      * cbn [bind]. exists w. split; [nia|]. apply boxed. inl.
  - specialize (W2 ltac:(lia)). clear W1. destruct (Z.leb_spec x (Z.opp 4611686018427387904 * u)) as [L1|L1].
    + exists w. cbn [bind]. specialize (TI ltac:(nia)). split; [nia|]. symmetry. apply over. unfold in_int, two62. nia.
    + destruct (WL ltac:(nia)) as [I X]. rewrite I. cbn [bind]. exists w. split; [nia|]. apply boxed. inl.
Qed.

(** trunc is right except at -2^62 *)
Theorem C42_trunc_partial : forall d, finite d -> scaled d <> - 2 ^ 62 * unit_ ->
  exists n, is_trunc d n /\ sml_trunc d = int_or_overflow n.
Proof.
  intros d F NE. unfold is_trunc, is_ceil, is_floor.
  apply (setup d (fun x u w => x <> - 2 ^ 62 * u -> exists n, ((0 <= x -> n * u <= x < (n + 1) * u) /\ (x <= 0 -> (n - 1) * u < x <= n * u)) /\ sml_trunc d = int_or_overflow n) F); [|assumption].
  clear F NE. intros x u w U W1 W2 WL FX GX T0 T1 T5 T2 T3 T4 TL TI NE. unfold sml_trunc.
  change (cadd Max_long 1) with (Ret two62). change (csub Min_long 1) with (Ret (Min_long - 1)). cbn [bind].
  rewrite T5, T3, TL. unfold two62 in *. change (2 ^ 62) with 4611686018427387904 in NE. clear T0 T1 T2 T3 T4 T5 TL FX GX.
  destruct (Z.leb_spec (4611686018427387904 * u) x) as [L0|L0]; cbn [orb].
  - exists (x / u). quotient x u U q r. split; [nia|]. symmetry. apply over. unfold in_int, two62. nia.
  - destruct (Z.leb_spec x (Z.opp 4611686018427387904 * u)) as [L1|L1].
    + exists w. specialize (TI ltac:(nia)). split; [nia|]. symmetry. apply over. unfold in_int, two62. nia.
    + destruct (WL ltac:(nia)) as [I X]. rewrite I. cbn [bind]. exists w. split; [auto|].
      assert (in_int w) as IW by (unfold in_int, two62; nia). unfold int_or_overflow. rewrite (proj2 (in_intb_spec w) IW).
      unfold Val_long. rewrite s64_id by (unfold in_long, in_int, two62, two63 in *; lia). f_equal. lia.
Qed.

(** *** round *)
Lemma near_spec m k : 0 <= k -> 2 * Z.abs (m - near m k * 2 ^ k) <= 2 ^ k /\ (2 * Z.abs (m - near m k * 2 ^ k) = 2 ^ k -> Z.even (near m k) = true).
Proof.
  intros K. assert (P : 0 < 2 ^ k) by (apply Z.pow_pos_nonneg; lia). unfold near. cbn zeta.
  pose proof (Z.div_mod m (2 ^ k) ltac:(lia)) as E. pose proof (Z.mod_pos_bound m (2 ^ k) P) as B.
  set (q := m / 2 ^ k) in *. set (r := m mod 2 ^ k) in *. set (t := 2 ^ k) in *. clearbody q r t. subst m.
  destruct (Z.ltb_spec t (2 * r)); cbn [orb].
  - replace (t * q + r - (q + 1) * t) with (r - t) by lia. lia.
  - destruct (Z.eqb_spec (2 * r) t); cbn [andb].
    + destruct (Z.odd q) eqn:O.
      * replace (t * q + r - (q + 1) * t) with (r - t) by lia. split; [lia|]. intros _. now rewrite Z.add_1_r, Z.even_succ.
      * replace (t * q + r - q * t) with r by lia. split; [lia|]. intros _. now rewrite <- Z.negb_odd, O.
    + replace (t * q + r - q * t) with r by lia. lia.
Qed.
Lemma rint_spec d : finite d -> finite (rint d) /\ exists n, scaled (rint d) = n * unit_ /\ is_round d n /\ (scaled d = n * unit_ \/ Z.abs n <= 2 ^ 53).
Proof.
  intros F. unfold rint. destruct (Z.leb_spec 1075 (dex d)) as [L|L].
  - split; [assumption|]. exists (whole d). pose proof (mag_integer d L) as M. assert (S : scaled d = whole d * unit_).
    { rewrite scaled_mag, M. unfold whole. destruct (dneg d); lia. }
    split; [assumption|]. split; [|now left]. unfold is_round. rewrite S, Z.sub_diag. split; [discriminate|]. intros H. discriminate.
  - pose proof (dex_range d) as R. pose proof (dsig_range d) as G. set (k := 1075 - dex d) in *.
    pose proof (near_spec (dsig d) k ltac:(lia)) as [N1 N2]. set (n := near (dsig d) k) in *.
    assert (NR : 0 <= n <= 2 ^ 53).
    { assert (2 <= 2 ^ k) by (apply (Z.pow_le_mono_r 2 1); lia). change (2 ^ 53) with 9007199254740992 in *. split; nia. }
    assert (XN : exact n). { destruct (Z.eq_dec n (2 ^ 53)) as [->|NE]; [exists 1, 53; repeat split; reflexivity || lia|].
      exists n, 0. rewrite Z.abs_eq, Z.pow_0_r by lia. change (2 ^ 64) with (2048 * 2 ^ 53). lia. }
    destruct (of_long_exact n XN) as [Fn Sn].
    assert (S : finite ((if dneg d then two63 else 0) + of_long n) /\ scaled ((if dneg d then two63 else 0) + of_long n) = (if dneg d then - n else n) * unit_).
    { destruct (dneg d); [|now rewrite Z.add_0_l].
      assert (L63 : of_long n < two63).
      { destruct (Z.lt_ge_cases (of_long n) two63) as [|GE]; [assumption|exfalso].
        unfold of_long in GE. destruct (Z.abs n =? 0); [unfold two63 in GE; lia|]. cbn zeta in GE.
        rewrite (proj2 (Z.ltb_ge n 0)) in GE by lia. unfold two63 in GE.
        destruct (Z.eq_dec n 0) as [Z0|N0]; [rewrite Z0 in GE; vm_compute in GE; now apply GE|].
        destruct (exact_q n ltac:(lia) XN) as (K1 & K2 & _). rewrite Z.abs_eq in GE by lia. cbn zeta in K1, K2.
        change (2 ^ 53) with 9007199254740992 in K2. change (2 ^ 52) with 4503599627370496 in *. lia. }
      destruct Fn as [Rn En]. split.
      - split; [unfold two63, two64 in *; lia|]. intros E. apply En. rewrite <- E. unfold two63, two64 in *. change (2 ^ 52) with 4503599627370496. lia.
      - rewrite scaled_smag in Sn |- * by (unfold two63, two64 in *; lia).
        rewrite (proj2 (Z.ltb_lt _ _) L63) in Sn. rewrite (proj2 (Z.ltb_ge _ _)) by lia.
        replace (dmag (two63 + of_long n)) with (dmag (of_long n)); [lia|]. unfold dmag, two63 in *. lia. }
    destruct S as [FS SS]. split; [assumption|]. exists (if dneg d then - n else n). split; [assumption|]. split; [|right; destruct (dneg d); lia].
    assert (UP : unit_ = 2 ^ k * 2 ^ (dex d - 1)) by (rewrite <- Z.pow_add_r by lia; unfold unit_; f_equal; lia).
    assert (A : Z.abs (scaled d - (if dneg d then - n else n) * unit_) = Z.abs (dsig d - n * 2 ^ k) * 2 ^ (dex d - 1)).
    { rewrite scaled_mag. unfold mag. rewrite UP. assert (P : 0 < 2 ^ (dex d - 1)) by (apply Z.pow_pos_nonneg; lia).
      set (c := 2 ^ (dex d - 1)) in *. clearbody c. set (b := 2 ^ k). clearbody b.
      transitivity (Z.abs (dsig d - n * b) * Z.abs c); [|f_equal; lia]. rewrite <- Z.abs_mul. destruct (dneg d); [rewrite <- Z.abs_opp|]; f_equal; lia. }
    unfold is_round. rewrite A. assert (P : 0 < 2 ^ (dex d - 1)) by (apply Z.pow_pos_nonneg; lia). rewrite UP.
    set (a := Z.abs (dsig d - n * 2 ^ k)) in *. set (b := 2 ^ k) in *. set (c := 2 ^ (dex d - 1)) in *. clearbody a b c. split; [nia|].
    intros E. assert (Ab : 2 * a = b) by nia. specialize (N2 Ab). destruct (dneg d); [now rewrite Z.even_opp|assumption].
Qed.

(** round is right except at 2^62 *)
Theorem C42_round_partial : forall d, finite d -> scaled d <> 2 ^ 62 * unit_ ->
  exists n, is_round d n /\ sml_round d = int_or_overflow n.
Proof.
  intros d F NE. destruct (rint_spec d F) as [FR (n & Sn & Rn & Dn)]. exists n. split; [assumption|]. unfold sml_round. cbn zeta.
  assert (Nn : n <> 2 ^ 62). { intros ->. destruct Dn as [Dn|Dn]; [contradiction|]. vm_compute in Dn. now apply Dn. }
  revert Sn. apply (setup (rint d) (fun x u w => x = n * u -> (if dlt (of_long Max_long) (rint d) || dlt (rint d) (of_long Min_long) then Raise Overflow
     else do i <- long_of (rint d); Ret (Val_long i)) = int_or_overflow n) FR). clear F NE FR Dn Rn.
  intros x u w U W1 W2 WL FX GX T0 T1 T5 T2 T3 T4 TL _ E. rewrite T4, T2, TL. unfold two62 in *. clear T0 T1 T2 T3 T4 T5 TL FX GX.
  change (2 ^ 62) with 4611686018427387904 in Nn. subst x.
  destruct (Z.ltb_spec (4611686018427387904 * u) (n * u)) as [L0|L0]; cbn [orb].
  - symmetry. apply over. unfold in_int, two62. nia.
  - destruct (Z.ltb_spec (n * u) (Z.opp 4611686018427387904 * u)) as [L1|L1].
    + symmetry. apply over. unfold in_int, two62. nia.
    + assert (IN : in_int n) by (unfold in_int, two62; nia). destruct (WL ltac:(nia)) as [I X]. rewrite I. cbn [bind].
      assert (w = n) as -> by (destruct (Z.le_ge_cases 0 (n * u)) as [H|H]; [specialize (W1 H)|specialize (W2 H)]; nia).
      unfold int_or_overflow. rewrite (proj2 (in_intb_spec n) IN).
      unfold Val_long. rewrite s64_id by (unfold in_long, in_int, two62, two63 in *; lia). f_equal. lia.
Qed.

(** infinities raise Overflow in all four *)
Theorem C42_infinity : forall d, d = 2047 * 2 ^ 52 \/ d = two63 + 2047 * 2 ^ 52 ->
  sml_floor d = Raise Overflow /\ sml_ceil d = Raise Overflow /\ sml_trunc d = Raise Overflow /\ sml_round d = Raise Overflow.
Proof. intros d [-> | ->]; vm_compute; auto. Qed.

(** -2^62 is an int, but ceil and trunc refuse it *)
Theorem C42_ceil_refuted : exists d, finite d /\ is_ceil d (- 2 ^ 62) /\ in_int (- 2 ^ 62) /\ sml_ceil d = Raise Overflow.
Proof. exists (of_long Min_long). split; [apply c_min|]. split; [split; vm_compute; congruence|]. split; [split; vm_compute; congruence|vm_compute; reflexivity]. Qed.
Theorem C42_trunc_refuted : exists d, finite d /\ is_trunc d (- 2 ^ 62) /\ in_int (- 2 ^ 62) /\ sml_trunc d = Raise Overflow.
Proof.
  exists (of_long Min_long). split; [apply c_min|]. split; [split; intros H; [exfalso; vm_compute in H; now apply H|split; vm_compute; congruence]|].
  split; [split; vm_compute; congruence|vm_compute; reflexivity].
Qed.
(** 2^62 is not an int, but round returns -2^62 for it *)
Theorem C42_round_refuted : exists d, finite d /\ is_round d (2 ^ 62) /\ ~ in_int (2 ^ 62) /\ sml_round d = Ret (2 * - 2 ^ 62 + 1).
Proof.
  exists (of_long Max_long). split; [apply c_max|]. split; [split; vm_compute; congruence|]. split; [intros [_ H]; vm_compute in H; congruence|vm_compute; reflexivity].
Qed.
(** the conversion of NaN is undefined in C *)
Theorem C42_nan_refuted : exists d, 0 <= d < two64 /\ sml_trunc d = UB /\ sml_floor d = UB.
Proof. exists (2047 * 2 ^ 52 + 1). vm_compute. intuition congruence. Qed.

(** -2.5: floor -3, ceil -2, trunc -2, round -2; 3.5 rounds to 4 *)
Example C42_example : exists d e, finite d /\ finite e /\ 2 * scaled d = -5 * unit_ /\ 2 * scaled e = 7 * unit_ /\
  sml_floor d = Ret (2 * -3 + 1) /\ sml_ceil d = Ret (2 * -2 + 1) /\ sml_trunc d = Ret (2 * -2 + 1) /\ sml_round d = Ret (2 * -2 + 1) /\
  sml_round e = Ret (2 * 4 + 1).
Proof.
  exists (two63 + 1024 * 2 ^ 52 + 2 ^ 50), (1024 * 2 ^ 52 + 2 ^ 51 + 2 ^ 50). split; [fin|]. split; [fin|]. repeat split; vm_compute; reflexivity.
Qed.

Print Assumptions C42_floor.
Print Assumptions C42_ceil_partial.
Print Assumptions C42_trunc_partial.
Print Assumptions C42_round_partial.
Print Assumptions C42_infinity.
Print Assumptions C42_ceil_refuted.
Print Assumptions C42_trunc_refuted.
Print Assumptions C42_round_refuted.
Print Assumptions C42_nan_refuted.
