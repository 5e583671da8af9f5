(** Properties C01, C02, C03: integer and word arithmetic. *)
From Verif Require Import Base Arith_Model Arith_Proofs Arith_WordProofs.

(** *** Specification vocabulary (independent of the opcodes) *)

(** the machine word that represents the ML integer [x] *)
Definition rep (x : Z) : Z := 2 * x + 1.

(** [r] is the result of an operation whose mathematical value is [z]:
    [z] itself when it is an ML integer, the exception Overflow otherwise. *)
Definition exact_or_overflow (r : outcome Z) (z : Z) : Prop :=
  (in_int z /\ r = Ret (rep z)) \/ (~ in_int z /\ r = Raise Overflow).

(** the machine word that represents the ML word [w], 0 <= w < 2^63: the same bits *)
Definition wrep (w : Z) : Z := if w <? two62 then 2 * w + 1 else 2 * (w - two63) + 1.
Definition word_range (w : Z) : Prop := 0 <= w < 2 ^ 63.
(** reading of a word as a signed 63-bit number *)
Definition as_signed (w : Z) : Z := if w <? 2 ^ 62 then w else w - 2 ^ 63.

Lemma eoo r z : r = (if in_intb z then Ret (2 * z + 1) else Raise Overflow) -> exact_or_overflow r z.
Proof.
  intros ->. unfold exact_or_overflow. destruct (in_intb z) eqn:E.
  - left. split; [now apply in_intb_spec|reflexivity].
  - right. split; [|reflexivity]. intros H. apply in_intb_spec in H. congruence.
Qed.

Lemma wrep_tagw w : wrep w = tagw w.
Proof. unfold wrep, tagw, sgn63. destruct (w <? two62); lia. Qed.

Lemma as_signed_sgn63 w : as_signed w = sgn63 w.
Proof. unfold as_signed, sgn63. change (2^62) with two62. change (2^63) with two63. reflexivity. Qed.

(** *** C01 *)

Theorem C01_add_exact : forall x y, in_int x -> in_int y ->
  exact_or_overflow (SMLADDINT (rep x) (rep y)) (x + y).
Proof. intros. apply eoo, add_spec; assumption. Qed.

Theorem C01_sub_exact : forall x y, in_int x -> in_int y ->
  exact_or_overflow (SMLSUBINT (rep x) (rep y)) (x - y).
Proof. intros. apply eoo, sub_spec; assumption. Qed.

Theorem C01_neg_exact : forall x, in_int x ->
  exact_or_overflow (SMLNEGINT (rep x)) (- x).
Proof. intros. apply eoo, neg_spec; assumption. Qed.

Theorem C01_succ_exact : forall x, in_int x ->
  exact_or_overflow (SMLSUCCINT (rep x)) (x + 1).
Proof. intros. apply eoo, succ_spec; assumption. Qed.

Theorem C01_pred_exact : forall x, in_int x ->
  exact_or_overflow (SMLPREDINT (rep x)) (x - 1).
Proof. intros. apply eoo, pred_spec; assumption. Qed.

(** The full statement for multiplication,
      forall x y, in_int x -> in_int y -> exact_or_overflow (SMLMULINT (rep x) (rep y)) (x * y),
    is false: 2^31 * ~2^31 = ~2^62 is an ML integer, but Overflow is raised. *)
Theorem C01_mul_refuted : exists x y, in_int x /\ in_int y /\ in_int (x * y) /\
  SMLMULINT (rep x) (rep y) = Raise Overflow.
Proof.
  exists 2147483648, (-2147483648). unfold in_int, two62. repeat split; try lia.
Qed.

(** Outside of these two operand pairs, multiplication is exact. *)
Theorem C01_mul_partial : forall x y, in_int x -> in_int y ->
  (x, y) <> (2^31, - 2^31) -> (x, y) <> (- 2^31, 2^31) ->
  exact_or_overflow (SMLMULINT (rep x) (rep y)) (x * y).
Proof.
  intros x y Hx Hy H1 H2. apply eoo, mul_spec; try assumption.
  - intros [-> ->]. now apply H1.
  - intros [-> ->]. now apply H2.
Qed.

Example C01_example : in_int 4611686018427387903 /\ in_int 1 /\
  SMLADDINT (rep 4611686018427387903) (rep 1) = Raise Overflow /\
  SMLADDINT (rep 4611686018427387902) (rep 1) = Ret (rep 4611686018427387903) /\
  SMLMULINT (rep (-3037000499)) (rep 1518500249) = Ret (rep (-3037000499 * 1518500249)).
Proof. unfold in_int, two62. repeat split; try lia; reflexivity. Qed.

(** *** C02 *)

(** [div] and [mod]: the quotient [q] and remainder [r] with x = y*q + r where [r] is 0 or
    has the sign of [y] and |r| < |y|. *)
Definition floor_division (x y q r : Z) : Prop :=
  x = y * q + r /\ (0 <= r < y \/ y < r <= 0).
(** [quot] and [rem]: x = y*q + r where [r] is 0 or has the sign of [x] and |r| < |y|. *)
Definition trunc_division (x y q r : Z) : Prop :=
  x = y * q + r /\ Z.abs r < Z.abs y /\ 0 <= r * x.

Theorem C02_div_mod : forall x y, in_int x -> in_int y -> y <> 0 ->
  exists q r, floor_division x y q r /\
    exact_or_overflow (SMLDIVINT (rep x) (rep y)) q /\
    SMLMODINT (rep x) (rep y) = Ret (rep r).
Proof.
  intros x y Hx Hy H0. exists (x / y), (x mod y). split; [|split].
  - split; [apply Z.div_mod; assumption|].
    destruct (Z.lt_ge_cases 0 y); [left; apply Z.mod_pos_bound; lia|right; apply Z.mod_neg_bound; lia].
  - apply eoo, div_spec; assumption.
  - apply mod_spec; assumption.
Qed.

Theorem C02_quot_rem : forall x y, in_int x -> in_int y -> y <> 0 ->
  exists q r, trunc_division x y q r /\
    exact_or_overflow (SMLQUOTINT (rep x) (rep y)) q /\
    SMLREMINT (rep x) (rep y) = Ret (rep r).
Proof.
  intros x y Hx Hy H0. exists (Z.quot x y), (Z.rem x y). split; [|split].
  - split; [apply Z.quot_rem'|]. split; [apply Z.rem_bound_abs; assumption|].
    apply Z.rem_sign_mul; assumption.
  - apply eoo, quot_spec; assumption.
  - apply rem_spec; assumption.
Qed.

(** floor and truncated division are unique, so the two theorems pin down the results *)
Theorem C02_floor_unique : forall x y q r q' r',
  floor_division x y q r -> floor_division x y q' r' -> q = q' /\ r = r'.
Proof.
  unfold floor_division. intros x y q r q' r' [-> H] [E H'].
  assert (q = q') by nia. subst. split; [reflexivity|lia].
Qed.

(** Overflow is raised by div and quot only for minInt by ~1 *)
Theorem C02_div_overflow : forall x y, in_int x -> in_int y ->
  SMLDIVINT (rep x) (rep y) = Raise Overflow <-> x = - 2^62 /\ y = -1.
Proof.
  intros x y Hx Hy. split.
  - destruct (Z.eq_dec y 0) as [->|H0]; [discriminate|].
    unfold rep. rewrite div_spec by assumption.
    destruct (in_intb (x / y)) eqn:E; [discriminate|]. intros _.
    assert (~ in_int (x/y)) as Hn by (intros H; apply in_intb_spec in H; congruence).
    change (2^62) with 4611686018427387904.
    unfold in_int, two62 in *.
    destruct (Z.eq_dec y (-1)) as [->|]. { split; lia. }
    exfalso. apply Hn. clear E Hn.
    destruct (Z.lt_ge_cases 0 y).
    + split; [apply Z.div_le_lower_bound|apply Z.div_lt_upper_bound]; nia.
    + rewrite <- (Z.div_opp_opp x y) by lia.
      split; [apply Z.div_le_lower_bound|apply Z.div_lt_upper_bound]; nia.
  - intros [-> ->]. reflexivity.
Qed.

Theorem C02_div_by_zero : forall x, in_int x ->
  SMLDIVINT (rep x) (rep 0) = Raise Div /\ SMLMODINT (rep x) (rep 0) = Raise Div /\
  SMLQUOTINT (rep x) (rep 0) = Raise Div /\ SMLREMINT (rep x) (rep 0) = Raise Div.
Proof. intros x Hx. repeat split; reflexivity. Qed.

Example C02_example :
  SMLDIVINT (rep (-7)) (rep 2) = Ret (rep (-4)) /\ SMLMODINT (rep (-7)) (rep 2) = Ret (rep 1) /\
  SMLQUOTINT (rep (-7)) (rep 2) = Ret (rep (-3)) /\ SMLREMINT (rep (-7)) (rep 2) = Ret (rep (-1)) /\
  SMLDIVINT (rep (- 2^62)) (rep (-1)) = Raise Overflow.
Proof. repeat split. Qed.

(** *** C03 *)

Theorem C03_word_arith : forall v w, word_range v -> word_range w ->
  ADDINT (wrep v) (wrep w) = Ret (wrep ((v + w) mod 2^63)) /\
  SUBINT (wrep v) (wrep w) = Ret (wrep ((v - w) mod 2^63)) /\
  MULINT (wrep v) (wrep w) = Ret (wrep ((v * w) mod 2^63)) /\
  (w <> 0 -> DIVINT (wrep v) (wrep w) = Ret (wrep (v / w))) /\
  (w <> 0 -> MODINT (wrep v) (wrep w) = Ret (wrep (v mod w))) /\
  DIVINT (wrep v) (wrep 0) = Raise Div /\ MODINT (wrep v) (wrep 0) = Raise Div.
Proof.
  intros v w Hv Hw. rewrite !wrep_tagw.
  repeat split; intros; rewrite ?wrep_tagw;
    eauto using w_add, w_sub, w_mul, w_div, w_mod.
Qed.

Theorem C03_word_bits : forall v w, word_range v -> word_range w ->
  ANDINT (wrep v) (wrep w) = Ret (wrep (Z.land v w)) /\
  ORINT (wrep v) (wrep w) = Ret (wrep (Z.lor v w)) /\
  XORINT (wrep v) (wrep w) = Ret (wrep (Z.lxor v w)) /\
  word_notb (wrep v) = Ret (wrep (2^63 - 1 - v)).
Proof.
  intros v w Hv Hw. rewrite !wrep_tagw.
  repeat split; eauto using w_and, w_or, w_xor, w_not.
Qed.

Theorem C03_word_shifts : forall w k, word_range w -> word_range k ->
  word_shl (wrep w) (wrep k) = Ret (wrep ((w * 2^k) mod 2^63)) /\
  word_shr (wrep w) (wrep k) = Ret (wrep (w / 2^k)) /\
  word_asr (wrep w) (wrep k) = Ret (wrep ((as_signed w / 2^k) mod 2^63)).
Proof.
  intros w k Hw Hk. rewrite !wrep_tagw. 
  split; [now apply w_shl|]. split; [now apply w_shr|]. rewrite as_signed_sgn63. now apply w_asr.
Qed.

Theorem C03_word_compare : forall v w, word_range v -> word_range w ->
  LTUNSIGN (wrep v) (wrep w) = (v <? w) /\ GTUNSIGN (wrep v) (wrep w) = (v >? w) /\
  LEUNSIGN (wrep v) (wrep w) = (v <=? w) /\ GEUNSIGN (wrep v) (wrep w) = (v >=? w) /\
  EQUNSIGN (wrep v) (wrep w) = (v =? w).
Proof.
  intros v w Hv Hw. rewrite !wrep_tagw.
  repeat split; [apply w_lt|apply w_gt|apply w_le|apply w_ge|apply w_eq]; assumption.
Qed.

Theorem C03_word_toInt : forall w, word_range w ->
  exact_or_overflow (word_toInt (wrep w)) w.
Proof.
  intros w Hw. rewrite wrep_tagw, w_toInt by assumption. unfold exact_or_overflow, rep.
  destruct (Z.ltb_spec w two62).
  - left. split; [|reflexivity]. unfold in_int, word_range, two62 in *. lia.
  - right. split; [|reflexivity]. unfold in_int. lia.
Qed.

(** Full statement of negation: [word_neg (wrep w) = Ret (wrep ((- w) mod 2^63))] for all [w].
    False at w = 2^62, where Word.~ raises Overflow. *)
Theorem C03_word_neg_refuted : exists w, word_range w /\ word_neg (wrep w) = Raise Overflow.
Proof. exists (2^62). split; [unfold word_range; lia|reflexivity]. Qed.

Theorem C03_word_neg_partial : forall w, word_range w -> w <> 2^62 ->
  word_neg (wrep w) = Ret (wrep ((- w) mod 2^63)).
Proof. intros w Hw Hne. rewrite !wrep_tagw. now apply w_neg. Qed.

Example C03_example : word_range (2^63 - 1) /\
  ADDINT (wrep (2^63 - 1)) (wrep 2) = Ret (wrep 1) /\
  MULINT (wrep (2^62)) (wrep 3) = Ret (wrep (2^62)) /\
  word_shl (wrep 3) (wrep 62) = Ret (wrep (2^62)) /\
  word_asr (wrep (2^63 - 4)) (wrep 1) = Ret (wrep (2^63 - 2)) /\
  word_shr (wrep 5) (wrep (2^63 - 1)) = Ret (wrep 0).
Proof. unfold word_range. repeat split; try lia; reflexivity. Qed.

Print Assumptions C01_add_exact.
Print Assumptions C01_mul_partial.
Print Assumptions C01_mul_refuted.
Print Assumptions C02_div_mod.
Print Assumptions C02_quot_rem.
Print Assumptions C02_div_overflow.
Print Assumptions C03_word_arith.
Print Assumptions C03_word_bits.
Print Assumptions C03_word_shifts.
Print Assumptions C03_word_compare.
Print Assumptions C03_word_neg_partial.
