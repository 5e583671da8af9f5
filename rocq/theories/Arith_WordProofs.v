(** Proofs about word (unsigned 63-bit) operations. *)
From Verif Require Import Base Arith_Model Arith_Proofs.

(** signed reading of a 63-bit word, and its tagged representation *)
Definition sgn63 (w : Z) : Z := if w <? two62 then w else w - two63.
Definition tagw (w : Z) : Z := 2 * sgn63 w + 1.
Definition is_word (w : Z) : Prop := 0 <= w < two63.

Lemma sgn63_int w : is_word w -> in_int (sgn63 w).
Proof. unfold is_word, sgn63, in_int, two63, two62. intros. destruct (Z.ltb_spec w 4611686018427387904); lia. Qed.

Lemma sgn63_mod x : in_int x -> sgn63 (x mod two63) = x.
Proof.
  unfold in_int, sgn63, two62, two63. intros.
  destruct (Z.ltb_spec (x mod 9223372036854775808) 4611686018427387904); lia.
Qed.

Lemma sgn63_mod' z : is_word z -> sgn63 z mod two63 = z.
Proof.
  unfold is_word, sgn63, two62, two63. intros.
  destruct (Z.ltb_spec z 4611686018427387904); lia.
Qed.

Lemma mod63_word z : is_word (z mod two63).
Proof. unfold is_word, two63. lia. Qed.

Lemma u64_tagw w : is_word w -> u64 (tagw w) = 2 * w + 1.
Proof.
  unfold is_word, tagw, sgn63, u64, two62, two63, two64. intros.
  destruct (Z.ltb_spec w 4611686018427387904); lia.
Qed.

Lemma u64_tagw1 w : is_word w -> u64 (tagw w - 1) = 2 * w.
Proof.
  unfold is_word, tagw, sgn63, u64, two62, two63, two64. intros.
  destruct (Z.ltb_spec w 4611686018427387904); lia.
Qed.

Lemma s64_odd z : s64 (2 * z + 1) = tagw (z mod two63).
Proof.
  unfold s64, tagw, sgn63, two62, two63, two64.
  destruct (Z.ltb_spec (z mod 9223372036854775808) 4611686018427387904); lia.
Qed.

Lemma ck_tagw1 w : is_word w -> ck (tagw w - 1) = Ret (tagw w - 1).
Proof.
  intros H. apply ck_ok. apply sgn63_int in H. unfold tagw, in_long, in_int, two62, two63 in *. lia.
Qed.

Lemma s64_u64_odd z : s64 (u64 (2 * z + 1)) = tagw (z mod two63).
Proof. rewrite s64_u64. apply s64_odd. Qed.

Lemma div_le_self a b : 0 <= a -> 0 < b -> a / b <= a.
Proof. intros. apply Z.div_le_upper_bound; nia. Qed.

Section Ops.
Variables a b : Z.
Hypothesis (Ha : is_word a) (Hb : is_word b).

Lemma w_add : ADDINT (tagw a) (tagw b) = Ret (tagw ((a + b) mod two63)).
Proof.
  unfold ADDINT, csub. rewrite ck_tagw1 by assumption. cbn [bind].
  rewrite u64_tagw, u64_tagw1 by assumption.
  replace (2 * a + 1 + 2 * b) with (2 * (a + b) + 1) by lia. now rewrite s64_u64_odd.
Qed.

Lemma w_sub : SUBINT (tagw a) (tagw b) = Ret (tagw ((a - b) mod two63)).
Proof.
  unfold SUBINT, csub. rewrite ck_tagw1 by assumption. cbn [bind].
  rewrite u64_tagw, u64_tagw1 by assumption.
  replace (2 * a + 1 - 2 * b) with (2 * (a - b) + 1) by lia. now rewrite s64_u64_odd.
Qed.

Lemma w_mul : MULINT (tagw a) (tagw b) = Ret (tagw ((a * b) mod two63)).
Proof.
  unfold MULINT, csub. rewrite ck_tagw1 by assumption. cbn [bind].
  rewrite u64_tagw1 by assumption.
  assert (Hs : Z.shiftr (tagw a) 1 = sgn63 a) by apply Long_val_odd. rewrite Hs.
  assert (u64 (1 + u64 (u64 (sgn63 a) * (2 * b))) = u64 (2 * (sgn63 a * b) + 1)) as ->.
  { unfold u64. rewrite Zplus_mod_idemp_r, Z.mul_mod_idemp_l
      || (rewrite Zplus_mod_idemp_r; rewrite <- Zplus_mod_idemp_r, Zmult_mod_idemp_l, Zplus_mod_idemp_r).
    f_equal. ring. }
  rewrite s64_u64_odd. f_equal. f_equal.
  rewrite <- Zmult_mod_idemp_l, sgn63_mod' by assumption. reflexivity.
Qed.

Lemma w_div : b <> 0 -> DIVINT (tagw a) (tagw b) = Ret (tagw (a / b)).
Proof.
  intros Hb0. unfold DIVINT, csub. rewrite !ck_tagw1 by assumption. cbn [bind].
  destruct (Z.eqb_spec (tagw b - 1) 0) as [E|E].
  { exfalso. apply Hb0. pose proof (u64_tagw1 b Hb) as E'. rewrite E in E'. change (u64 0) with 0 in E'. lia. }
  rewrite !u64_tagw1 by assumption. rewrite Z.div_mul_cancel_l by lia.
  assert (Hq : is_word (a / b)).
  { unfold is_word in *. split; [apply Z.div_pos; lia|].
    apply Z.le_lt_trans with a; [|lia]. apply div_le_self; lia. }
  rewrite s64_id by (unfold is_word, in_long, two63 in *; lia).
  unfold Val_long. replace (a / b * 2) with (2 * (a/b)) by lia.
  f_equal. unfold tagw. f_equal.
  unfold s64, is_word, sgn63, two62, two63, two64 in *.
  destruct (Z.ltb_spec (a / b) 4611686018427387904); lia.
Qed.

Lemma w_mod : b <> 0 -> MODINT (tagw a) (tagw b) = Ret (tagw (a mod b)).
Proof.
  intros Hb0. unfold MODINT, csub. rewrite !ck_tagw1 by assumption. cbn [bind].
  destruct (Z.eqb_spec (tagw b - 1) 0) as [E|E].
  { exfalso. apply Hb0. pose proof (u64_tagw1 b Hb) as E'. rewrite E in E'. change (u64 0) with 0 in E'. lia. }
  rewrite !u64_tagw1 by assumption. rewrite Z.mul_mod_distr_l by (unfold is_word in *; lia).
  rewrite Z.add_comm, s64_u64_odd.
  assert (is_word (a mod b)).
  { unfold is_word in *. pose proof (Z.mod_pos_bound a b ltac:(lia)). lia. }
  now rewrite (Z.mod_small (a mod b)) by assumption.
Qed.

Lemma w_lt : LTUNSIGN (tagw a) (tagw b) = (a <? b).
Proof. unfold LTUNSIGN. rewrite !u64_tagw by assumption. lia. Qed.
Lemma w_gt : GTUNSIGN (tagw a) (tagw b) = (a >? b).
Proof. unfold GTUNSIGN. rewrite !u64_tagw by assumption. lia. Qed.
Lemma w_le : LEUNSIGN (tagw a) (tagw b) = (a <=? b).
Proof. unfold LEUNSIGN. rewrite !u64_tagw by assumption. lia. Qed.
Lemma w_ge : GEUNSIGN (tagw a) (tagw b) = (a >=? b).
Proof. unfold GEUNSIGN. rewrite !u64_tagw by assumption. lia. Qed.
Lemma w_eq : EQUNSIGN (tagw a) (tagw b) = (a =? b).
Proof. unfold EQUNSIGN. rewrite !u64_tagw by assumption. lia. Qed.

End Ops.

Lemma w_div0 a : DIVINT a (tagw 0) = Raise Div.
Proof. reflexivity. Qed.
Lemma w_mod0 a : MODINT a (tagw 0) = Raise Div.
Proof. reflexivity. Qed.

(** *** bitwise operations *)

Lemma in_int_shiftr x : in_int x <-> Z.shiftr x 62 = 0 \/ Z.shiftr x 62 = -1.
Proof.
  rewrite Z.shiftr_div_pow2 by lia. change (2^62) with 4611686018427387904.
  unfold in_int, two62. lia.
Qed.

Lemma bits_odd_0 x : Z.testbit (2 * x + 1) 0 = true.
Proof. apply Z.testbit_odd_0. Qed.

Lemma land_odd x y : Z.land (2*x+1) (2*y+1) = 2 * Z.land x y + 1.
Proof.
  apply Z.bits_inj'. intros n Hn. rewrite Z.land_spec.
  destruct (Z.eq_dec n 0) as [->|]. { now rewrite !Z.testbit_odd_0. }
  replace n with (Z.succ (n - 1)) by lia.
  rewrite !Z.testbit_odd_succ by lia. now rewrite Z.land_spec.
Qed.

Lemma lor_odd x y : Z.lor (2*x+1) (2*y+1) = 2 * Z.lor x y + 1.
Proof.
  apply Z.bits_inj'. intros n Hn. rewrite Z.lor_spec.
  destruct (Z.eq_dec n 0) as [->|]. { now rewrite !Z.testbit_odd_0. }
  replace n with (Z.succ (n - 1)) by lia.
  rewrite !Z.testbit_odd_succ by lia. now rewrite Z.lor_spec.
Qed.

Lemma lxor_odd x y : Z.lxor (2*x+1) (2*y+1) = 2 * Z.lxor x y.
Proof.
  apply Z.bits_inj'. intros n Hn. rewrite Z.lxor_spec.
  destruct (Z.eq_dec n 0) as [->|]. { now rewrite !Z.testbit_odd_0, Z.testbit_even_0. }
  replace n with (Z.succ (n - 1)) by lia.
  rewrite !Z.testbit_odd_succ, Z.testbit_even_succ by lia. now rewrite Z.lxor_spec.
Qed.

Lemma two63_pow : two63 = 2 ^ 63.
Proof. reflexivity. Qed.

Section Bitop.
Variable f : Z -> Z -> Z.
Variable fb : bool -> bool -> bool.
Hypothesis f_spec : forall x y n, Z.testbit (f x y) n = fb (Z.testbit x n) (Z.testbit y n).
Hypothesis fb_ff : fb false false = false.

Lemma bitop_int x y : in_int x -> in_int y -> in_int (f x y).
Proof.
  rewrite !in_int_shiftr. intros Hx Hy.
  set (g := Z.testbit (f x y) 62).
  assert (Hall : forall n, 0 <= n -> Z.testbit (Z.shiftr (f x y) 62) n = g).
  { intros n Hn. unfold g. rewrite Z.shiftr_spec by assumption. rewrite !f_spec.
    assert (forall z, (Z.shiftr z 62 = 0 \/ Z.shiftr z 62 = -1) -> Z.testbit z (n + 62) = Z.testbit z 62) as Hz.
    { intros z [E|E].
      - rewrite <- (Z.shiftr_spec z 62 n) by assumption. change 62 with (0 + 62) at 2.
        rewrite <- (Z.shiftr_spec z 62 0) by lia. rewrite E. now rewrite !Z.bits_0.
      - rewrite <- (Z.shiftr_spec z 62 n) by assumption. change 62 with (0 + 62) at 2.
        rewrite <- (Z.shiftr_spec z 62 0) by lia. rewrite E. now rewrite !Z.bits_m1 by lia. }
    now rewrite (Hz x Hx), (Hz y Hy). }
  destruct g.
  - right. apply Z.bits_inj'. intros n Hn. rewrite Hall by assumption. now rewrite Z.bits_m1.
  - left. apply Z.bits_inj'. intros n Hn. rewrite Hall by assumption. now rewrite Z.bits_0.
Qed.

Lemma bitop_mod x y : f x y mod two63 = f (x mod two63) (y mod two63).
Proof.
  rewrite two63_pow. apply Z.bits_inj'. intros n Hn.
  rewrite f_spec.
  destruct (Z.lt_ge_cases n 63).
  - rewrite !Z.mod_pow2_bits_low by lia. now rewrite f_spec.
  - rewrite !Z.mod_pow2_bits_high by lia. now rewrite fb_ff.
Qed.

Lemma bitop_word a b : is_word a -> is_word b ->
  2 * f (sgn63 a) (sgn63 b) + 1 = tagw (f a b).
Proof.
  intros Ha Hb. unfold tagw. do 2 f_equal.
  rewrite <- (sgn63_mod (f (sgn63 a) (sgn63 b))).
  - rewrite bitop_mod, !sgn63_mod' by assumption. reflexivity.
  - apply bitop_int; now apply sgn63_int.
Qed.
End Bitop.

Lemma w_and a b : is_word a -> is_word b -> ANDINT (tagw a) (tagw b) = Ret (tagw (Z.land a b)).
Proof.
  intros Ha Hb. unfold ANDINT. rewrite Z.land_comm. unfold tagw at 1 2. rewrite land_odd.
  f_equal. apply (bitop_word Z.land andb); auto using Z.land_spec.
Qed.

Lemma w_or a b : is_word a -> is_word b -> ORINT (tagw a) (tagw b) = Ret (tagw (Z.lor a b)).
Proof.
  intros Ha Hb. unfold ORINT. rewrite Z.lor_comm. unfold tagw at 1 2. rewrite lor_odd.
  f_equal. apply (bitop_word Z.lor orb); auto using Z.lor_spec.
Qed.

Lemma w_xor a b : is_word a -> is_word b -> XORINT (tagw a) (tagw b) = Ret (tagw (Z.lxor a b)).
Proof.
  intros Ha Hb. unfold XORINT, cadd. rewrite Z.lxor_comm. unfold tagw at 1 2. rewrite lxor_odd.
  rewrite Z.add_comm, (bitop_word Z.lxor xorb) by auto using Z.lxor_spec.
  apply ck_ok.
  assert (is_word (Z.lxor a b)) as Hw.
  { unfold is_word. replace a with (a mod two63) by (apply Z.mod_small; assumption).
    replace b with (b mod two63) by (apply Z.mod_small; assumption).
    rewrite <- (bitop_mod Z.lxor xorb) by auto using Z.lxor_spec. apply mod63_word. }
  apply sgn63_int in Hw. unfold tagw, in_long, in_int, two62, two63 in *. lia.
Qed.

Lemma lxor_ones w : is_word w -> Z.lxor w (two63 - 1) = two63 - 1 - w.
Proof.
  intros H. unfold is_word in H.
  assert (Z.land w (two63 - 1) = w) as HL.
  { change (two63 - 1) with (Z.ones 63). rewrite Z.land_ones by lia. rewrite <- two63_pow.
    apply Z.mod_small; lia. }
  assert (HS : Z.land (two63 - 1) (Z.lnot w) = two63 - 1 - w).
  { rewrite <- Z.ldiff_land. 
    rewrite <- Z.sub_nocarry_ldiff; [reflexivity|].
    apply Z.bits_inj'. intros n Hn. rewrite Z.ldiff_spec, Z.bits_0.
    rewrite <- HL at 1. rewrite Z.land_spec. destruct (Z.testbit w n), (Z.testbit (two63 - 1) n); reflexivity. }
  rewrite <- HS. apply Z.bits_inj'. intros n Hn.
  rewrite Z.lxor_spec, Z.land_spec, Z.lnot_spec by assumption.
  rewrite <- HL at 1. rewrite Z.land_spec.
  destruct (Z.testbit w n), (Z.testbit (two63 - 1) n); reflexivity.
Qed.

Lemma w_not a : is_word a -> word_notb (tagw a) = Ret (tagw (two63 - 1 - a)).
Proof.
  intros Ha. unfold word_notb. change (lit (-1)) with (tagw (two63 - 1)).
  rewrite w_xor; [|assumption|unfold is_word, two63; lia].
  now rewrite lxor_ones.
Qed.

Lemma tagw_mod x : in_int x -> tagw (x mod two63) = 2 * x + 1.
Proof. intros. unfold tagw. now rewrite sgn63_mod. Qed.

Lemma neg_mod a : is_word a -> (- a) mod two63 = (- sgn63 a) mod two63.
Proof.
  unfold is_word, sgn63. intros. destruct (a <? two62); [reflexivity|].
  unfold two63. lia.
Qed.

Lemma neg_int a : is_word a -> a <> two62 -> in_int (- sgn63 a).
Proof.
  unfold is_word, in_int, sgn63, two62, two63. intros.
  destruct (Z.ltb_spec a 4611686018427387904); lia.
Qed.

Lemma w_neg a : is_word a -> a <> two62 -> word_neg (tagw a) = Ret (tagw ((- a) mod two63)).
Proof.
  intros Ha Hne. unfold word_neg.
  rewrite neg_mod, tagw_mod by auto using neg_int.
  pose proof (neg_spec (sgn63 a) (sgn63_int a Ha)) as E. fold (tagw a) in E. rewrite E.
  rewrite (proj2 (in_intb_spec _) (neg_int a Ha Hne)). reflexivity.
Qed.

(** *** shifts *)

Lemma count_out k : is_word k -> word_count_out (tagw k) = (63 <=? k).
Proof.
  unfold word_count_out, GEINT, LTINT, lit, WORDSIZE, tagw, sgn63, is_word, two62, two63.
  intros. destruct (Z.ltb_spec k 4611686018427387904); lia.
Qed.

Lemma Long_val_tagw w : Long_val (tagw w) = sgn63 w.
Proof. apply Long_val_odd. Qed.

Lemma shift_cnt k : is_word k -> k < 63 -> shift_ok (Long_val (tagw k)) = true /\ Long_val (tagw k) = k.
Proof.
  intros Hk Hl. rewrite Long_val_tagw. unfold sgn63, is_word, two62 in *.
  destruct (Z.ltb_spec k 4611686018427387904); [|lia]. unfold shift_ok. lia.
Qed.

Lemma pow2_63_le k : 63 <= k -> exists m, 2 ^ k = two63 * 2 ^ m /\ 0 <= m.
Proof.
  intros H. exists (k - 63). split; [|lia]. rewrite two63_pow, <- Z.pow_add_r by lia. f_equal. lia.
Qed.

Lemma w_shl w k : is_word w -> is_word k ->
  word_shl (tagw w) (tagw k) = Ret (tagw ((w * 2 ^ k) mod two63)).
Proof.
  intros Hw Hk. unfold word_shl. rewrite count_out by assumption.
  destruct (Z.leb_spec 63 k) as [H|H].
  - destruct (pow2_63_le k H) as (m & -> & Hm).
    replace (w * (two63 * 2 ^ m)) with (w * 2 ^ m * two63) by ring.
    rewrite Z.mod_mul by discriminate. reflexivity.
  - unfold SHIFTLEFTINT. destruct (shift_cnt k Hk H) as [-> ->].
    unfold csub. rewrite ck_tagw1 by assumption. cbn [bind].
    rewrite Z.shiftl_mul_pow2 by (unfold is_word in *; lia).
    assert (s64 ((tagw w - 1) * 2 ^ k) + 1 = tagw ((w * 2 ^ k) mod two63)) as E.
    { rewrite <- s64_odd.
      assert (s64 (2 * (w * 2^k) + 1) = s64 (2 * (w * 2^k)) + 1) as ->.
      { unfold s64, two63, two64. lia. }
      f_equal. apply s64_congr. unfold u64.
      rewrite <- Zmult_mod_idemp_l. change ((tagw w - 1) mod two64) with (u64 (tagw w - 1)).
      rewrite u64_tagw1 by assumption. f_equal. ring. }
    unfold cadd. rewrite Z.add_comm, E. apply ck_ok.
    pose proof (sgn63_int _ (mod63_word (w * 2 ^ k))).
    unfold tagw, in_long, in_int, two62, two63 in *. lia.
Qed.

Lemma lor_1 n : Z.lor 1 n = 2 * (n / 2) + 1.
Proof.
  apply Z.bits_inj'. intros i Hi. rewrite Z.lor_spec.
  destruct (Z.eq_dec i 0) as [->|]. { now rewrite Z.testbit_odd_0. }
  replace i with (Z.succ (i - 1)) by lia. rewrite Z.testbit_odd_succ by lia.
  rewrite <- Z.div2_div, Z.div2_spec, Z.shiftr_spec by lia.
  change 1 with (2 * 0 + 1) at 1. rewrite Z.testbit_odd_succ, Z.bits_0 by lia. reflexivity.
Qed.

Lemma w_shr w k : is_word w -> is_word k ->
  word_shr (tagw w) (tagw k) = Ret (tagw (w / 2 ^ k)).
Proof.
  intros Hw Hk. unfold word_shr. rewrite count_out by assumption.
  destruct (Z.leb_spec 63 k) as [H|H].
  - rewrite Z.div_small; [reflexivity|].
    destruct (pow2_63_le k H) as (m & -> & Hm).
    assert (1 <= 2 ^ m) by (apply (Z.pow_le_mono_r 2 0 m); lia).
    unfold is_word in Hw. nia.
  - unfold SHIFTRIGHTINTUNSIGNED. destruct (shift_cnt k Hk H) as [-> ->].
    unfold csub. rewrite ck_tagw1 by assumption. cbn [bind].
    rewrite u64_tagw1 by assumption. rewrite lor_1, s64_odd.
    rewrite Z.shiftr_div_pow2 by (unfold is_word in *; lia).
    rewrite Z.div_div by (try apply Z.pow_pos_nonneg; unfold is_word in *; lia).
    rewrite (Z.mul_comm (2^k) 2), Z.div_mul_cancel_l by (try apply Z.pow_nonzero; unfold is_word in *; lia).
    rewrite Z.mod_small; [reflexivity|].
    assert (0 < 2 ^ k) by (apply Z.pow_pos_nonneg; unfold is_word in *; lia).
    unfold is_word in *. split; [apply Z.div_pos; lia|].
    apply Z.le_lt_trans with w; [|lia]. apply div_le_self; lia.
Qed.

Lemma div_pow_int x k : in_int x -> 0 <= k -> in_int (x / 2 ^ k).
Proof.
  intros Hx Hk. assert (1 <= 2 ^ k) by (apply (Z.pow_le_mono_r 2 0 k); lia).
  unfold in_int, two62 in *. split.
  - apply Z.div_le_lower_bound; nia.
  - apply Z.div_lt_upper_bound; nia.
Qed.

Lemma w_asr w k : is_word w -> is_word k ->
  word_asr (tagw w) (tagw k) = Ret (tagw ((sgn63 w / 2 ^ k) mod two63)).
Proof.
  intros Hw Hk. unfold word_asr. rewrite count_out by assumption.
  pose proof (sgn63_int w Hw) as Hs.
  assert (Hk0 : 0 <= k) by (unfold is_word in *; lia).
  assert (HT : tagw ((sgn63 w / 2 ^ k) mod two63) = 2 * (sgn63 w / 2 ^ k) + 1).
  { unfold tagw. rewrite sgn63_mod; [reflexivity|]. now apply div_pow_int. }
  rewrite HT.
  destruct (Z.leb_spec 63 k) as [H|H].
  - assert (Hb : two63 <= 2 ^ k) by (rewrite two63_pow; apply Z.pow_le_mono_r; lia).
    unfold GEINT, lit, tagw. rewrite Z.geb_leb.
    destruct (Z.leb_spec (2*0+1) (2 * sgn63 w + 1)).
    + rewrite Z.div_small; [reflexivity|]. unfold in_int, two62, two63 in *. lia.
    + replace (sgn63 w / 2 ^ k) with (-1); [reflexivity|].
      apply Z.div_unique with (r := 2 ^ k + sgn63 w); unfold in_int, two62, two63 in *; lia.
  - unfold SHIFTRIGHTINTSIGNED. destruct (shift_cnt k Hk H) as [-> ->].
    unfold csub. rewrite ck_tagw1 by assumption. cbn [bind].
    rewrite lor_1, Z.shiftr_div_pow2 by assumption.
    do 3 f_equal. unfold tagw. rewrite Z.div_div by (try apply Z.pow_pos_nonneg; lia).
    rewrite (Z.mul_comm (2^k) 2).
    replace (2 * sgn63 w + 1 - 1) with (2 * sgn63 w) by lia.
    rewrite Z.div_mul_cancel_l by (try apply Z.pow_nonzero; lia). reflexivity.
Qed.

Lemma w_toInt w : is_word w ->
  word_toInt (tagw w) = if w <? two62 then Ret (2 * w + 1) else Raise Overflow.
Proof.
  intros Hw. unfold word_toInt. change MAXPOS with (tagw (two62 - 1)).
  rewrite w_gt; [|assumption| unfold is_word, two62, two63; lia].
  unfold tagw, sgn63. rewrite Z.gtb_ltb.
  destruct (Z.ltb_spec w two62), (Z.ltb_spec (two62 - 1) w); (reflexivity || lia).
Qed.
