(** C53: Word8 is arithmetic modulo 256 *)
From Verif Require Import Base Arith_Model Arith_Proofs Arith_WordProofs Arith_Props.
From Verif Require Import Scan_Model Scan_Spec Scan_Proofs Scan_Proofs2 Scan_Proofs3 Scan_Proofs4 Scan_Props Word8_Model Word8_Scan.

(** ** Specification *)
Definition byte (b : Z) : Prop := 0 <= b < 256.
(** the tagged representation of a byte *)
Definition brep (b : Z) : Z := 2 * b + 1.
(** the two's complement reading of a byte *)
Definition signed8 (b : Z) : Z := if b <? 128 then b else b - 256.

(** ** Proofs *)
Lemma brep_tagw b : byte b -> brep b = tagw b.
Proof. unfold byte, brep, tagw, sgn63, two62. intros H. destruct (Z.ltb_spec b 4611686018427387904); lia. Qed.
Lemma byte_word b : byte b -> is_word b.
Proof. unfold byte, is_word, two63. lia. Qed.
Lemma byte_mod z : byte (z mod 256).
Proof. unfold byte. lia. Qed.
Lemma norm_ok v : is_word v -> norm (tagw v) = Ret (brep (v mod 256)).
Proof.
  intros H. unfold norm. change (lit 255) with (tagw 255). rewrite w_and by (try assumption; unfold is_word, two63; lia).
  change 255 with (Z.ones 8). rewrite (Z.land_ones v 8) by lia. change (2 ^ 8) with 256. now rewrite brep_tagw by apply byte_mod.
Qed.
Lemma norm_mod z : norm (tagw (z mod two63)) = Ret (brep (z mod 256)).
Proof. rewrite norm_ok by apply mod63_word. f_equal. f_equal. unfold two63. lia. Qed.

(** a statement about all bytes, by cases *)
Lemma all_bytes (P : Z -> bool) : forallb P (map Z.of_nat (seq 0 256)) = true -> forall b, byte b -> P b = true.
Proof.
  intros H b Hb. rewrite forallb_forall in H. apply H. apply in_map_iff. exists (Z.to_nat b). unfold byte in Hb.
  split; [lia|]. apply in_seq. lia.
Qed.

(** +, -, *, div, mod and ~ are exact modulo 256 *)
Theorem C53_arith : forall v w, byte v -> byte w ->
  b_add (brep v) (brep w) = Ret (brep ((v + w) mod 256)) /\
  b_sub (brep v) (brep w) = Ret (brep ((v - w) mod 256)) /\
  b_mul (brep v) (brep w) = Ret (brep ((v * w) mod 256)) /\
  (w <> 0 -> b_div (brep v) (brep w) = Ret (brep (v / w)) /\ b_mod (brep v) (brep w) = Ret (brep (v mod w))) /\
  b_div (brep v) (brep 0) = Raise Div /\ b_mod (brep v) (brep 0) = Raise Div /\
  b_neg (brep v) = Ret (brep ((- v) mod 256)).
Proof.
  intros v w Hv Hw. pose proof (byte_word v Hv) as Wv. pose proof (byte_word w Hw) as Ww. rewrite (brep_tagw v), (brep_tagw w) by assumption.
  split; [unfold b_add; rewrite w_add by assumption; cbn [bind]; apply norm_mod|].
  split; [unfold b_sub; rewrite w_sub by assumption; cbn [bind]; apply norm_mod|].
  split; [unfold b_mul; rewrite w_mul by assumption; cbn [bind]; apply norm_mod|].
  split; [|split; [apply w_div0|split; [apply w_mod0|]]].
  - intros N. unfold b_div, b_mod. rewrite w_div, w_mod by assumption.
    assert (byte (v / w)) by (unfold byte in *; split; [apply Z.div_pos; lia|apply Z.div_lt_upper_bound; nia]).
    assert (byte (v mod w)) by (unfold byte in *; pose proof (Z.mod_pos_bound v w ltac:(lia)); lia).
    now rewrite !brep_tagw.
  - unfold b_neg, b_fromInt. change (SMLNEGINT (tagw v)) with (word_neg (tagw v)). rewrite w_neg by (try assumption; unfold byte, two62 in *; lia).
    apply norm_mod.
Qed.

(** andb, orb, xorb and notb are bitwise *)
Lemma lor_byte a b : byte a -> byte b -> byte (Z.lor a b) /\ byte (Z.lxor a b) /\ byte (Z.land a b).
Proof.
  intros Ha Hb. unfold byte in *.
  assert (X : forall z, 0 <= z -> Z.shiftr z 8 = 0 -> 0 <= z < 256).
  { intros z P E. rewrite Z.shiftr_div_pow2 in E by lia. change (2 ^ 8) with 256 in E. lia. }
  assert (Sa : Z.shiftr a 8 = 0) by (rewrite Z.shiftr_div_pow2 by lia; change (2 ^ 8) with 256; lia).
  assert (Sb : Z.shiftr b 8 = 0) by (rewrite Z.shiftr_div_pow2 by lia; change (2 ^ 8) with 256; lia).
  split; [|split].
  - apply X; [apply Z.lor_nonneg; lia|]. now rewrite Z.shiftr_lor, Sa, Sb.
  - apply X; [apply Z.lxor_nonneg; lia|]. now rewrite Z.shiftr_lxor, Sa, Sb.
  - apply X; [apply Z.land_nonneg; lia|]. now rewrite Z.shiftr_land, Sa, Sb.
Qed.
Theorem C53_bits : forall v w, byte v -> byte w ->
  b_andb (brep v) (brep w) = Ret (brep (Z.land v w)) /\
  b_orb (brep v) (brep w) = Ret (brep (Z.lor v w)) /\
  b_xorb (brep v) (brep w) = Ret (brep (Z.lxor v w)) /\
  b_notb (brep v) = Ret (brep (255 - v)).
Proof.
  intros v w Hv Hw. pose proof (byte_word v Hv) as Wv. pose proof (byte_word w Hw) as Ww. destruct (lor_byte v w Hv Hw) as (B1 & B2 & B3).
  rewrite (brep_tagw (Z.land v w)), (brep_tagw (Z.lor v w)), (brep_tagw (Z.lxor v w)), (brep_tagw v), (brep_tagw w) by assumption.
  split; [now apply w_and|]. split; [now apply w_or|]. split; [now apply w_xor|].
  unfold b_notb. change (XORINT (tagw v) (lit (-1))) with (word_notb (tagw v)). rewrite w_not by assumption. cbn [bind].
  rewrite norm_ok by (unfold is_word, two63 in *; lia). f_equal. f_equal. unfold byte, two63 in *. lia.
Qed.

Lemma b_count k : is_word k -> b_count_out (tagw k) = (8 <=? k).
Proof.
  unfold b_count_out, GEINT, LTINT, lit, tagw, sgn63, is_word, two62, two63.
  intros. destruct (Z.ltb_spec k 4611686018427387904); lia.
Qed.
Lemma pow_8_le k : 8 <= k -> exists m, 2 ^ k = 256 * m /\ 0 < m.
Proof. intros H. exists (2 ^ (k - 8)). split; [|apply Z.pow_pos_nonneg; lia]. change 256 with (2 ^ 8). rewrite <- Z.pow_add_r by lia. f_equal. lia. Qed.
Lemma ext_sign v : byte v -> 128 <= v -> ORINT (tagw v) (lit (-256)) = Ret (tagw (v + two63 - 256)).
Proof.
  intros Hv H. change (lit (-256)) with (tagw (two63 - 256)). rewrite w_or by (try (now apply byte_word); unfold is_word, two63; lia).
  f_equal. f_equal. apply Z.eqb_eq. clear H. revert v Hv. apply all_bytes. vm_compute. reflexivity.
Qed.
Lemma lt128 v : byte v -> LTINT (tagw v) (lit 128) = (v <? 128).
Proof. intros H. rewrite <- brep_tagw by assumption. unfold LTINT, brep, lit. lia. Qed.

Lemma pow2_pos k : is_word k -> 0 < 2 ^ k.
Proof. intros H. apply Z.pow_pos_nonneg; unfold is_word in H; lia. Qed.
Lemma in_count k : is_word k -> k < 8 -> word_count_out (tagw k) = false.
Proof. intros H L. rewrite count_out by assumption. lia. Qed.
Lemma shl_ok w k : is_word w -> is_word k -> k < 8 -> SHIFTLEFTINT (tagw w) (tagw k) = Ret (tagw ((w * 2 ^ k) mod two63)).
Proof. intros Hw Hk L. rewrite <- w_shl by assumption. unfold word_shl. now rewrite in_count by assumption. Qed.
Lemma shr_ok w k : is_word w -> is_word k -> k < 8 -> SHIFTRIGHTINTUNSIGNED (tagw w) (tagw k) = Ret (tagw (w / 2 ^ k)).
Proof. intros Hw Hk L. rewrite <- w_shr by assumption. unfold word_shr. now rewrite in_count by assumption. Qed.
Lemma asr_ok w k : is_word w -> is_word k -> k < 8 -> SHIFTRIGHTINTSIGNED (tagw w) (tagw k) = Ret (tagw ((sgn63 w / 2 ^ k) mod two63)).
Proof. intros Hw Hk L. rewrite <- w_asr by assumption. unfold word_asr. now rewrite in_count by assumption. Qed.
Lemma div_byte w k : byte w -> is_word k -> byte (w / 2 ^ k).
Proof.
  intros Hw Hk. pose proof (pow2_pos k Hk) as P. unfold byte in *. split; [apply Z.div_pos; lia|apply Z.div_lt_upper_bound; nia].
Qed.
Lemma lit0 : lit 0 = brep 0. Proof. reflexivity. Qed.
Lemma shift_out w k : byte w -> 8 <= k -> (w * 2 ^ k) mod 256 = 0 /\ w / 2 ^ k = 0 /\ (128 <= w -> (w - 256) / 2 ^ k = -1).
Proof.
  intros Hw L. destruct (pow_8_le k L) as (m & -> & Hm). unfold byte in Hw. split; [|split].
  - replace (w * (256 * m)) with (w * m * 256) by lia. apply Z.mod_mul. lia.
  - apply Z.div_small. nia.
  - intros G. symmetry. apply Z.div_unique with (r := w - 256 + 256 * m); lia.
Qed.
Lemma b_shl_ok w k : byte w -> is_word k -> b_shl (tagw w) (tagw k) = Ret (brep ((w * 2 ^ k) mod 256)).
Proof.
  intros Hw Hk. unfold b_shl. rewrite b_count by assumption. destruct (Z.leb_spec 8 k) as [L|L].
  - destruct (shift_out w k Hw L) as [-> _]. now rewrite lit0.
  - rewrite shl_ok by (auto; now apply byte_word). cbn [bind]. apply norm_mod.
Qed.
Lemma b_shr_ok w k : byte w -> is_word k -> b_shr (tagw w) (tagw k) = Ret (brep (w / 2 ^ k)).
Proof.
  intros Hw Hk. unfold b_shr. rewrite b_count by assumption. destruct (Z.leb_spec 8 k) as [L|L].
  - destruct (shift_out w k Hw L) as [_ [-> _]]. now rewrite lit0.
  - rewrite shr_ok by (auto; now apply byte_word). now rewrite brep_tagw by now apply div_byte.
Qed.
Lemma norm_m1 : norm (lit (-1)) = Ret (brep ((-1) mod 256)). Proof. reflexivity. Qed.
Lemma sgn_ext w : byte w -> 128 <= w -> sgn63 (w + two63 - 256) = w - 256 /\ is_word (w + two63 - 256).
Proof.
  intros Hw L. unfold sgn63, is_word, byte, two62, two63 in *. destruct (Z.ltb_spec (w + 9223372036854775808 - 256) 4611686018427387904); lia.
Qed.
Lemma b_asr_ok w k : byte w -> is_word k -> b_asr (tagw w) (tagw k) = Ret (brep ((signed8 w / 2 ^ k) mod 256)).
Proof.
  intros Hw Hk. unfold b_asr, signed8. rewrite lt128 by assumption. destruct (Z.ltb_spec w 128) as [L|L].
  - rewrite (Z.mod_small (w / 2 ^ k)) by (now apply div_byte). now apply b_shr_ok.
  - rewrite b_count by assumption. destruct (Z.leb_spec 8 k) as [G|G].
    + destruct (shift_out w k Hw G) as [_ [_ E]]. rewrite E by assumption. apply norm_m1.
    + rewrite ext_sign by assumption. cbn [bind]. destruct (sgn_ext w Hw L) as [E W]. rewrite asr_ok by assumption. cbn [bind]. rewrite E. apply norm_mod.
Qed.
(** <<, >> and ~>>, for every shift count *)
Theorem C53_shifts : forall w k, byte w -> word_range k ->
  b_shl (brep w) (wrep k) = Ret (brep ((w * 2 ^ k) mod 256)) /\
  b_shr (brep w) (wrep k) = Ret (brep (w / 2 ^ k)) /\
  b_asr (brep w) (wrep k) = Ret (brep ((signed8 w / 2 ^ k) mod 256)).
Proof.
  intros w k Hw Hk. assert (Wk : is_word k) by (unfold is_word, word_range, two63 in *; lia). rewrite wrep_tagw, (brep_tagw w) by assumption.
  split; [now apply b_shl_ok|]. split; [now apply b_shr_ok|now apply b_asr_ok].
Qed.

(** conversions: from any integer or word, modulo 256; to integers and words, unsigned or signed *)
Theorem C53_conversions : forall i w b, in_int i -> word_range w -> byte b ->
  b_fromInt (rep i) = Ret (brep (i mod 256)) /\
  b_fromLarge (wrep w) = Ret (brep (w mod 256)) /\
  brep b = rep b /\ brep b = wrep b /\
  b_toIntX (brep b) = Ret (rep (signed8 b)) /\
  b_toLargeX (brep b) = Ret (wrep (signed8 b mod 2 ^ 63)).
Proof.
  intros i w b Hi Hw Hb. split; [|split; [|split; [reflexivity|split]]].
  - unfold b_fromInt, rep. rewrite <- (tagw_mod i) by assumption. apply norm_mod.
  - rewrite wrep_tagw. now apply norm_ok.
  - rewrite wrep_tagw. now apply brep_tagw.
  - assert (X : (if LTINT (brep b) (lit 128) then Ret (brep b) else ORINT (brep b) (lit (-256))) = Ret (rep (signed8 b))).
    { unfold signed8. rewrite brep_tagw by assumption. rewrite lt128 by assumption. destruct (Z.ltb_spec b 128) as [L|L].
      - rewrite <- brep_tagw by assumption. reflexivity.
      - rewrite ext_sign by assumption. f_equal. unfold tagw, sgn63, rep, byte, two62, two63 in *.
        destruct (Z.ltb_spec (b + 9223372036854775808 - 256) 4611686018427387904); lia. }
    split; [exact X|]. unfold b_toLargeX. rewrite X. f_equal. rewrite wrep_tagw. change (2 ^ 63) with two63. symmetry.
    unfold rep. apply tagw_mod. unfold signed8, in_int, byte, two62 in *. destruct (b <? 128); lia.
Qed.

Theorem C53_compare : forall v w, byte v -> byte w ->
  LTUNSIGN (brep v) (brep w) = (v <? w) /\ GTUNSIGN (brep v) (brep w) = (v >? w) /\
  LEUNSIGN (brep v) (brep w) = (v <=? w) /\ GEUNSIGN (brep v) (brep w) = (v >=? w) /\
  EQUNSIGN (brep v) (brep w) = (v =? w) /\ b_compare (brep v) (brep w) = (v ?= w) /\
  b_min (brep v) (brep w) = brep (Z.min v w) /\ b_max (brep v) (brep w) = brep (Z.max v w).
Proof.
  intros v w Hv Hw. pose proof (byte_word v Hv) as Wv. pose proof (byte_word w Hw) as Ww. unfold b_compare, b_min, b_max. rewrite (brep_tagw v), (brep_tagw w) by assumption.
  rewrite w_lt, w_gt, w_le, w_ge, w_eq by assumption. repeat (split; [reflexivity|]). rewrite Z.gtb_ltb. split; [|split].
  - destruct (Z.ltb_spec v w), (Z.ltb_spec w v), (Z.compare_spec v w); auto; lia.
  - destruct (Z.ltb_spec w v); rewrite <- brep_tagw by assumption; f_equal; lia.
  - destruct (Z.ltb_spec w v); rewrite <- brep_tagw by assumption; f_equal; lia.
Qed.

(** ** Text *)
Theorem C53_scan : forall (S : Type) (getc : S -> option (Z * S)) src l r fuel,
  contents getc src l -> (length l < fuel)%nat ->
  (exists p rest v, longest_numeral (word_numeral r) l p rest v /\
     ((v < 256 /\ exists s, b_scan getc r fuel src = Ret (Some (brep v, s)) /\ reads getc src p s /\ contents getc s rest) \/
      (256 <= v /\ b_scan getc r fuel src = Raise Overflow))) \/
  (no_numeral (word_numeral r) l /\ b_scan getc r fuel src = Ret None).
Proof.
  intros S getc src l r fuel C Hf.
  pose proof (b_scan_sim getc (at_ getc src l) (at_step getc src l) r fuel src l (at_start getc src l C)) as Sim.
  destruct (b_scan_list r l fuel Hf) as [(p & rest & v & L & E)|(N & E)]; rewrite E in Sim.
  - left. exists p, rest, v. split; [exact L|]. unfold chk8 in Sim. destruct (Z.ltb_spec v 256) as [B|B].
    + left. split; [exact B|]. destruct (b_scan getc r fuel src) as [[[v1 s1]|]| | |]; cbn in Sim; try easy.
      destruct Sim as [-> A]. exists s1. split; [|split; [|apply A]].
      * rewrite Val_long_int; [reflexivity|]. assert (0 <= v) by (destruct L as (_ & (? & ? & ds & _ & _ & _ & _ & D & ->) & _); now apply value_nonneg). apply in_int_small. lia.
      * apply (at_reads getc src l p s1 rest); [apply L|exact A].
    + right. split; [exact B|]. destruct (b_scan getc r fuel src) as [[[v1 s1]|]| | |]; cbn in Sim; try easy. now subst.
  - right. split; [exact N|]. destruct (b_scan getc r fuel src) as [[[v1 s1]|]| | |]; cbn in Sim; easy.
Qed.

Theorem C53_fmt : forall r b, byte b ->
  exists ds, canonical r b ds /\ b_fmt r (brep b) = Ret ds /\ (r = HEX -> b_toString (brep b) = Ret ds).
Proof.
  intros r b Hb. assert (I : in_int b) by (apply in_int_small; unfold byte in Hb; lia).
  destruct (C04_fmt r b I) as (ds & Cn & E). rewrite Z.abs_eq in Cn by (unfold byte in Hb; lia). exists ds. split; [exact Cn|].
  assert (X : b_fmt r (brep b) = Ret ds).
  { unfold int_fmt, conv in E. destruct (Z.ltb_spec b 0) as [L|L]; [unfold byte in Hb; lia|]. unfold b_fmt, b_conv.
    replace (Long_val (brep b)) with b by (symmetry; apply Long_val_odd). exact E. }
  split; [exact X|]. intros ->. exact X.
Qed.

Theorem C53_roundtrip : forall r b text, byte b -> b_fmt r (brep b) = Ret text ->
  forall (S : Type) (getc : S -> option (Z * S)) src fuel, contents getc src text -> (length text < fuel)%nat ->
  exists s, b_scan getc r fuel src = Ret (Some (brep b, s)) /\ reads getc src text s /\ getc s = None.
Proof.
  intros r w text Hw Ef S getc src fuel C Hf.
  destruct (C53_fmt r w Hw) as (ds & Cn & E & _). rewrite E in Ef. injection Ef as Ef.
  assert (Num : word_numeral r text w).
  { exists [], [], ds. pose proof Cn as (_ & Ne & V & _).
    split; [now symmetry|]. split; [constructor|]. split; [now left|]. split; [assumption|].
    split; [now apply canonical_digits in Cn|now symmetry]. }
  destruct (C53_scan S getc src text r fuel C Hf) as [(p & rest & v & (El & Np & Mx) & K)|(N & _)].
  - assert (rest = []) as ->.
    { specialize (Mx text [] w ltac:(now rewrite app_nil_r) Num). rewrite El, app_length in Mx.
      destruct rest; [reflexivity|cbn in Mx; lia]. }
    rewrite app_nil_r in El. subst p. assert (v = w) as -> by (eapply word_numeral_unique; eauto).
    destruct K as [(_ & s & E1 & R1 & e & R2 & Ge)|(B & _)]; [|unfold byte in Hw; lia].
    exists s. split; [exact E1|]. split; [exact R1|]. inversion R2; subst. exact Ge.
  - exfalso. apply (N text [] w); [now rewrite app_nil_r|exact Num].
Qed.

Theorem C53_fromString : forall s,
  (exists p rest v, longest_numeral (word_numeral HEX) s p rest v /\
     b_fromString s = if v <? 256 then Ret (Some (brep v)) else Raise Overflow) \/
  (no_numeral (word_numeral HEX) s /\ b_fromString s = Ret None).
Proof.
  intros s. unfold b_fromString, scanString.
  destruct (C53_scan Z (string_getc s) 0 s HEX (S (length s)) (string_contents [] s) ltac:(lia))
    as [(p & rest & v & L & [(B & s1 & E & _)|(B & E)])|(N & E)].
  - left. exists p, rest, v. split; [exact L|]. rewrite E. destruct (Z.ltb_spec v 256); [reflexivity|lia].
  - left. exists p, rest, v. split; [exact L|]. rewrite E. destruct (Z.ltb_spec v 256); [lia|reflexivity].
  - right. split; [exact N|]. now rewrite E.
Qed.

(** ** Examples *)
Example C53_arith_example : byte 200 /\ byte 100 /\
  b_add (brep 200) (brep 100) = Ret (brep 44) /\ b_sub (brep 100) (brep 200) = Ret (brep 156) /\
  b_mul (brep 200) (brep 100) = Ret (brep 32) /\ b_neg (brep 1) = Ret (brep 255).
Proof. unfold byte. repeat split; try lia; reflexivity. Qed.
Example C53_bits_example : byte 200 /\ byte 100 /\ b_xorb (brep 200) (brep 100) = Ret (brep 172) /\ b_notb (brep 200) = Ret (brep 55).
Proof. unfold byte. repeat split; try lia; reflexivity. Qed.
Example C53_shifts_example : byte 200 /\ word_range 3 /\ word_range (2 ^ 63 - 1) /\ b_shl (brep 200) (wrep 3) = Ret (brep 64) /\
  b_asr (brep 200) (wrep 3) = Ret (brep 249) /\ b_asr (brep 200) (wrep (2 ^ 63 - 1)) = Ret (brep 255).
Proof. unfold byte, word_range. repeat split; try lia; reflexivity. Qed.
Example C53_conversions_example : in_int (-1) /\ word_range (2 ^ 63 - 1) /\ byte 200 /\
  b_fromInt (rep (-1)) = Ret (brep 255) /\ b_toIntX (brep 200) = Ret (rep (-56)).
Proof. unfold in_int, byte, word_range, two62. repeat split; try lia; reflexivity. Qed.
Example C53_compare_example : byte 200 /\ byte 100 /\ b_compare (brep 200) (brep 100) = Gt.
Proof. unfold byte. repeat split; try lia; reflexivity. Qed.
(* "0wxFF;" and "256" *)
Example C53_scan_example : contents (string_getc [48; 119; 120; 70; 70; 59]) 0 [48; 119; 120; 70; 70; 59] /\
  b_scan (string_getc [48; 119; 120; 70; 70; 59]) HEX 7 0 = Ret (Some (brep 255, 5)) /\
  b_scan (string_getc [50; 53; 54]) DEC 4 0 = Raise Overflow /\
  b_fmt BIN (brep 5) = Ret [49; 48; 49] /\ b_scan (string_getc [49; 48; 49]) BIN 4 0 = Ret (Some (brep 5, 3)).
Proof. split; [exact (string_contents [] [48; 119; 120; 70; 70; 59])|]. repeat split; reflexivity. Qed.

Print Assumptions C53_arith.
Print Assumptions C53_bits.
Print Assumptions C53_shifts.
Print Assumptions C53_conversions.
Print Assumptions C53_compare.
Print Assumptions C53_scan.
Print Assumptions C53_fmt.
Print Assumptions C53_roundtrip.
Print Assumptions C53_fromString.
