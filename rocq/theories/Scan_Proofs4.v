(** Proofs about number formatting and literals. *)
From Verif Require Import Base Arith_Model Arith_Proofs Arith_WordProofs Scan_Model Scan_Spec Scan_Proofs Scan_Proofs2.

Lemma idiv_eq x y : in_int x -> in_int y -> y <> 0 ->
  idiv x y = if in_intb (x / y) then Ret (x / y) else Raise Overflow.
Proof. intros. unfold idiv. rewrite !Val_long_int, div_spec by assumption. apply unbox_if. Qed.
Lemma imod_eq x y : in_int x -> in_int y -> y <> 0 -> imod x y = Ret (x mod y).
Proof.
  intros. unfold imod. rewrite !Val_long_int, mod_spec by assumption. cbn [unbox bind].
  now rewrite Long_val_odd.
Qed.

(** the character of a digit value *)
Definition dchar (d : Z) : Z := if d <? 10 then d + 48 else d + 55.

Lemma prhex_eq d : 0 <= d < 16 -> prhex d = Ret (dchar d).
Proof.
  intros H. unfold prhex, dchar. destruct (Z.ltb_spec d 10);
    rewrite iadd_eq by (apply in_int_small; lia); rewrite in_intb_yes by (apply in_int_small; lia);
    cbn [bind]; unfold chr; (destruct (_ || _) eqn:E; [lia|reflexivity]).
Qed.

Lemma pow2_S f : 2 ^ Z.of_nat (S f) = 2 * 2 ^ Z.of_nat f.
Proof. rewrite Nat2Z.inj_succ, Z.pow_succ_r by lia. reflexivity. Qed.

Lemma div_half n b : 2 <= b -> 0 <= n -> 0 <= n / b /\ 2 * (n / b) <= n.
Proof.
  intros Hb Hn. split; [apply Z.div_pos; lia|].
  pose proof (Z.mul_div_le n b ltac:(lia)). assert (0 <= n / b) by (apply Z.div_pos; lia). nia.
Qed.

Lemma conv_h_eq b : 2 <= b <= 16 -> forall f n acc, 0 <= n -> in_int n -> n < 2 ^ Z.of_nat (S f) ->
  conv_h (S f) b (n / b) (dchar (n mod b) :: acc) = Ret (digits_acc (S f) b n acc).
Proof.
  intros Hb. induction f as [|f IH]; intros n acc Hn Hi Hf;
    destruct (div_half n b ltac:(lia) Hn) as [Hq1 Hq2];
    pose proof (Z.div_mod n b ltac:(lia)) as DM; pose proof (Z.mod_pos_bound n b ltac:(lia)) as MB.
  - assert (n / b = 0) as Hq0 by (change (2 ^ Z.of_nat 1) with 2 in Hf; lia).
    cbn [conv_h digits_acc]. rewrite Hq0. cbn [Z.eqb].
    unfold dchar. destruct (n <? b); reflexivity.
  - change (digits_acc (S (S f)) b n acc)
      with (if n <? b then dchar (n mod b) :: acc else digits_acc (S f) b (n / b) (dchar (n mod b) :: acc)).
    change (conv_h (S (S f)) b (n / b) (dchar (n mod b) :: acc))
      with (if n / b =? 0 then Ret (dchar (n mod b) :: acc) else
             do q <- idiv (n / b) b; do m <- imod (n / b) b; do c <- prhex m;
             conv_h (S f) b q (c :: dchar (n mod b) :: acc)).
    assert (Hqi : in_int (n / b)) by (unfold in_int, two62 in *; lia).
    destruct (Z.ltb_spec n b) as [L|L].
    + rewrite Z.div_small by lia. reflexivity.
    + assert (1 <= n / b) as Hq3 by (apply Z.div_le_lower_bound; lia).
      destruct (Z.eqb_spec (n / b) 0); [lia|].
      rewrite idiv_eq by (try assumption; try lia; apply in_int_small; lia).
      destruct (div_half (n / b) b ltac:(lia) ltac:(lia)) as [Hr1 Hr2].
      rewrite in_intb_yes by (unfold in_int, two62 in *; lia). cbn [bind].
      rewrite imod_eq by (try assumption; try lia; apply in_int_small; lia). cbn [bind].
      pose proof (Z.mod_pos_bound (n / b) b ltac:(lia)).
      rewrite prhex_eq by lia. cbn [bind]. apply IH; try assumption.
      rewrite (pow2_S (S f)) in Hf. lia.
Qed.

Lemma conv_nonneg r i : in_int i -> 0 <= i -> int_fmt r i = Ret (digits_acc 64 (base r) i []).
Proof.
  intros Hi Hn. unfold int_fmt, conv. rewrite factor_base. pose proof (base_pos r) as Hb.
  destruct (Z.ltb_spec i 0); [lia|].
  destruct (div_half i (base r) ltac:(lia) Hn) as [Hq1 Hq2].
  rewrite idiv_eq by (try assumption; try lia; apply in_int_small; lia).
  rewrite in_intb_yes by (unfold in_int, two62 in *; lia). cbn [bind].
  rewrite imod_eq by (try assumption; try lia; apply in_int_small; lia). cbn [bind].
  pose proof (Z.mod_pos_bound i (base r) ltac:(lia)).
  rewrite prhex_eq by lia. cbn [bind].
  apply conv_h_eq; try assumption.
  change (2 ^ Z.of_nat 64) with two64. unfold in_int, two62, two64 in *. lia.
Qed.

Lemma negdiv i b : 0 < b -> i / (- b) = (- i) / b /\ - (i mod (- b)) = (- i) mod b.
Proof.
  intros Hb. pose proof (Z.div_opp_opp (- i) b ltac:(lia)) as E1. pose proof (Z.mod_opp_opp (- i) b ltac:(lia)) as E2.
  rewrite Z.opp_involutive in E1, E2. rewrite E1, E2. split; [reflexivity|lia].
Qed.

Lemma conv_neg r i : in_int i -> i < 0 -> int_fmt r i = Ret (126 :: digits_acc 64 (base r) (- i) []).
Proof.
  intros Hi Hn. unfold int_fmt, conv. rewrite factor_base. pose proof (base_pos r) as Hb.
  destruct (Z.ltb_spec i 0); [|lia].
  rewrite ineg_eq by (apply in_int_small; lia). rewrite in_intb_yes by (apply in_int_small; lia). cbn [bind].
  rewrite imod_eq by (try assumption; try lia; apply in_int_small; lia). cbn [bind].
  destruct (negdiv i (base r) ltac:(lia)) as [Eq Em].
  pose proof (Z.mod_pos_bound (- i) (base r) ltac:(lia)).
  rewrite ineg_eq by (apply in_int_small; lia). rewrite in_intb_yes by (apply in_int_small; lia). cbn [bind].
  destruct (div_half (- i) (base r) ltac:(lia) ltac:(lia)) as [Hq1 Hq2].
  rewrite idiv_eq by (try assumption; try lia; apply in_int_small; lia).
  rewrite Eq, in_intb_yes by (unfold in_int, two62 in *; lia). cbn [bind].
  rewrite Em, prhex_eq by lia. cbn [bind].
  (* the least integer has no ML opposite: its quotient does *)
  assert (Goal1 : conv_h 64 (base r) (- i / base r) [dchar (- i mod base r)] = Ret (digits_acc 64 (base r) (- i) [])).
  { set (n := - i) in *. destruct (Z.ltb_spec n (base r)).
    - change (digits_acc 64 (base r) n []) with
        (if n <? base r then [dchar (n mod base r)] else digits_acc 63 (base r) (n / base r) [dchar (n mod base r)]).
      destruct (Z.ltb_spec n (base r)); [|lia]. rewrite Z.div_small by lia. reflexivity.
    - change (digits_acc 64 (base r) n []) with
        (if n <? base r then [dchar (n mod base r)] else digits_acc 63 (base r) (n / base r) [dchar (n mod base r)]).
      destruct (Z.ltb_spec n (base r)); [lia|].
      assert (1 <= n / base r) as Hq3 by (apply Z.div_le_lower_bound; lia).
      change (conv_h 64 (base r) (n / base r) [dchar (n mod base r)])
        with (if n / base r =? 0 then Ret [dchar (n mod base r)] else
             do q <- idiv (n / base r) (base r); do m <- imod (n / base r) (base r); do c <- prhex m;
             conv_h 63 (base r) q (c :: [dchar (n mod base r)])).
      destruct (Z.eqb_spec (n / base r) 0); [lia|].
      assert (in_int (n / base r)) by (unfold in_int, two62 in *; lia).
      rewrite idiv_eq by (try assumption; try lia; apply in_int_small; lia).
      destruct (div_half (n / base r) (base r) ltac:(lia) ltac:(lia)) as [Hr1 Hr2].
      rewrite in_intb_yes by (unfold in_int, two62 in *; lia). cbn [bind].
      rewrite imod_eq by (try assumption; try lia; apply in_int_small; lia). cbn [bind].
      pose proof (Z.mod_pos_bound (n / base r) (base r) ltac:(lia)).
      rewrite prhex_eq by lia. cbn [bind]. apply conv_h_eq; try assumption.
      change (2 ^ Z.of_nat 63) with two63. unfold in_int, two62, two63 in *. lia. }
  rewrite Goal1. reflexivity.
Qed.

(** *** Words *)
Lemma Long_val_tagw n : 0 <= n < 1000 -> Long_val (tagw n) = n.
Proof. intros. rewrite <- lit_tagw by lia. apply Long_val_odd. Qed.
Lemma w_prhex_eq d : 0 <= d < 16 -> w_prhex (tagw d) = Ret (dchar d).
Proof.
  intros H. unfold w_prhex, dchar.
  assert (LTINT (tagw d) (lit 10) = (d <? 10)) as ->.
  { rewrite <- lit_tagw by lia. unfold LTINT, lit. destruct (Z.ltb_spec d 10); lia. }
  rewrite !lit_tagw by lia.
  destruct (Z.ltb_spec d 10); rewrite w_add by (apply is_word_small; lia); rewrite mod_word_small by lia;
    cbn [bind]; rewrite Long_val_tagw by lia; unfold chr; (destruct (_ || _) eqn:E; [lia|reflexivity]).
Qed.
Lemma eq0_tagw n : is_word n -> EQINT (tagw n) (lit 0) = (n =? 0).
Proof.
  intros H. unfold EQINT, lit, tagw, sgn63, is_word, two62, two63 in *.
  destruct (Z.ltb_spec n 4611686018427387904); lia.
Qed.
Lemma w_conv_h_eq b : 2 <= b <= 16 -> forall f n acc, is_word n -> n < 2 ^ Z.of_nat (S f) ->
  w_conv_h (S f) (tagw b) (tagw (n / b)) (dchar (n mod b) :: acc) = Ret (digits_acc (S f) b n acc).
Proof.
  intros Hb. induction f as [|f IH]; intros n acc Hn Hf;
    assert (Hn0 : 0 <= n) by (unfold is_word in Hn; lia);
    destruct (div_half n b ltac:(lia) Hn0) as [Hq1 Hq2];
    pose proof (Z.div_mod n b ltac:(lia)) as DM; pose proof (Z.mod_pos_bound n b ltac:(lia)) as MB.
  - assert (n / b = 0) as Hq0 by (change (2 ^ Z.of_nat 1) with 2 in Hf; lia).
    cbn [w_conv_h digits_acc]. rewrite Hq0. rewrite eq0_tagw by (apply is_word_small; lia). cbn [Z.eqb].
    unfold dchar. destruct (n <? b); reflexivity.
  - change (digits_acc (S (S f)) b n acc)
      with (if n <? b then dchar (n mod b) :: acc else digits_acc (S f) b (n / b) (dchar (n mod b) :: acc)).
    change (w_conv_h (S (S f)) (tagw b) (tagw (n / b)) (dchar (n mod b) :: acc))
      with (if EQINT (tagw (n / b)) (lit 0) then Ret (dchar (n mod b) :: acc) else
             do q <- DIVINT (tagw (n / b)) (tagw b); do m <- MODINT (tagw (n / b)) (tagw b); do c <- w_prhex m;
             w_conv_h (S f) (tagw b) q (c :: dchar (n mod b) :: acc)).
    assert (Hqi : is_word (n / b)) by (unfold is_word in *; lia).
    rewrite eq0_tagw by assumption.
    destruct (Z.ltb_spec n b) as [L|L].
    + rewrite Z.div_small by lia. reflexivity.
    + assert (1 <= n / b) as Hq3 by (apply Z.div_le_lower_bound; lia).
      destruct (Z.eqb_spec (n / b) 0); [lia|].
      rewrite w_div by (try assumption; try lia; apply is_word_small; lia). cbn [bind].
      rewrite w_mod by (try assumption; try lia; apply is_word_small; lia). cbn [bind].
      pose proof (Z.mod_pos_bound (n / b) b ltac:(lia)).
      rewrite w_prhex_eq by lia. cbn [bind]. apply IH; try assumption.
      rewrite (pow2_S (S f)) in Hf. lia.
Qed.
Lemma word_fmt_eq r w : is_word w -> word_fmt r (tagw w) = Ret (digits_acc 64 (base r) w []).
Proof.
  intros Hw. unfold word_fmt, w_conv. rewrite factor_base. pose proof (base_pos r) as Hb.
  rewrite lit_tagw by lia.
  rewrite w_div by (try assumption; try lia; apply is_word_small; lia). cbn [bind].
  rewrite w_mod by (try assumption; try lia; apply is_word_small; lia). cbn [bind].
  pose proof (Z.mod_pos_bound w (base r) ltac:(lia)).
  rewrite w_prhex_eq by lia. cbn [bind].
  apply w_conv_h_eq; try assumption.
  change (2 ^ Z.of_nat 64) with two64. unfold is_word, two63, two64 in *. lia.
Qed.

(** *** The digits are canonical *)
Lemma dchar_upper r d : 0 <= d < base r -> upper_digit r (dchar d) /\ dval (dchar d) = d /\ (dchar d = 48 -> d = 0).
Proof.
  intros H. pose proof (base_pos r). unfold upper_digit, digit, dval, dchar, digit_value.
  destruct (Z.ltb_spec d 10).
  - destruct (_ && _) eqn:E; [|lia]. repeat split; try lia. exists (d + 48 - 48). split; [reflexivity|lia].
  - destruct (_ && _) eqn:E; [lia|]. destruct (_ && _) eqn:E2 in |- *; [|lia].
    repeat split; try lia. eexists. split; [reflexivity|lia].
Qed.
Lemma digits_acc_spec r f : forall n acc, 0 <= n -> n < 2 ^ Z.of_nat f ->
  exists ds, digits_acc (S f) (base r) n acc = ds ++ acc /\ canonical r n ds.
Proof.
  pose proof (base_pos r) as Hb.
  assert (Step : forall g n acc, digits_acc (S g) (base r) n acc =
     if n <? base r then dchar (n mod base r) :: acc else digits_acc g (base r) (n / base r) (dchar (n mod base r) :: acc))
    by reflexivity.
  assert (Small : forall n, 0 <= n < base r -> canonical r n [dchar (n mod base r)]).
  { intros n H. rewrite Z.mod_small by lia. destruct (dchar_upper r n H) as (U & V & W).
    split; [|split; [|split]]; [now constructor|easy| |].
    - unfold value. cbn [fold_left]. lia.
    - cbn [hd]. now intros ->. }
  induction f as [|f IH]; intros n acc Hn Hf.
  - change (2 ^ Z.of_nat 0) with 1 in Hf. rewrite Step. destruct (Z.ltb_spec n (base r)); [|lia].
    exists [dchar (n mod base r)]. split; [reflexivity|]. apply Small. lia.
  - rewrite Step. destruct (Z.ltb_spec n (base r)) as [L|L].
    + exists [dchar (n mod base r)]. split; [reflexivity|]. apply Small. lia.
    + rewrite pow2_S in Hf. destruct (div_half n (base r) ltac:(lia) Hn) as [Hq1 Hq2].
      destruct (IH (n / base r) (dchar (n mod base r) :: acc) Hq1 ltac:(lia)) as (ds & E & (U & Ne & V & Z0)).
      exists (ds ++ [dchar (n mod base r)]). split; [rewrite E, <- app_assoc; reflexivity|].
      pose proof (Z.mod_pos_bound n (base r) ltac:(lia)) as MB.
      destruct (dchar_upper r (n mod base r) MB) as (U' & V' & _).
      split; [|split; [|split]].
      * apply Forall_app. split; [assumption|]. now constructor.
      * now destruct ds.
      * rewrite value_app. unfold valueF. cbn [fold_left]. rewrite V, V'.
        pose proof (Z.div_mod n (base r) ltac:(lia)). lia.
      * assert (1 <= n / base r) as Hq3 by (apply Z.div_le_lower_bound; lia).
        destruct ds as [|d ds]; [easy|]. cbn [hd app] in *. intros H. specialize (Z0 H).
        rewrite Z0 in V. exfalso. unfold value, dval in V. cbn in V. lia.
Qed.
Lemma digits64 r n : 0 <= n < two63 -> canonical r n (digits_acc 64 (base r) n []).
Proof.
  intros H. destruct (digits_acc_spec r 63 n [] ltac:(lia)) as (ds & E & C).
  - change (2 ^ Z.of_nat 63) with two63. lia.
  - rewrite app_nil_r in E. now rewrite E.
Qed.

(** *** mkSMLMinus keeps digits *)
Lemma mkSMLMinus_digits ds : Forall (upper_digit DEC) ds -> mkSMLMinus_loop ds false = ds.
Proof.
  induction 1 as [|c ds (D & H) U IH]; [reflexivity|]. cbn [mkSMLMinus_loop].
  destruct (Z.eqb_spec c 43); [lia|]. destruct (Z.eqb_spec c 45); [lia|].
  destruct (Z.eqb_spec c 101); [lia|]. destruct (Z.eqb_spec c 48); cbn [negb]; now rewrite IH, ?e.
Qed.

(** *** Literals *)
Lemma scan_loop_spec dig r max : (r = DEC \/ r = HEX) -> 0 < max <= two64 ->
  dig 0 = None -> (forall c, digit r c -> dig c = Some (dval c)) ->
  forall ds res, Forall (digit r) ds -> 0 <= res < max ->
  scan_loop dig (base r) max ds res
  = if valueF r res ds <? max then Ret (valueF r res ds) else Raise FailExn.
Proof.
  intros Hr Hm D0 Dd. induction ds as [|c ds IH]; intros res D Hres.
  - cbn [scan_loop cchar valueF fold_left]. rewrite D0. cbn [Z.eqb negb]. destruct (Z.ltb_spec res max); [reflexivity|lia].
  - inversion D as [|? ? Dc D']; subst. cbn [scan_loop cchar]. rewrite (Dd c Dc).
    pose proof (dval_range r c Dc) as Hv. cbn [valueF fold_left]. fold (valueF r (res * base r + dval c) ds).
    assert (((res >? max / base r) || ((res =? max / base r) && (max mod base r <=? dval c)))
            = (max <=? res * base r + dval c)) as ->.
    { destruct Hr as [-> | ->]; cbn [base] in *; lia. }
    pose proof (base_pos r).
    destruct (Z.leb_spec max (res * base r + dval c)) as [G|G].
    + pose proof (valueF_ge r ds (res * base r + dval c) ltac:(nia) D').
      destruct (Z.ltb_spec (valueF r (res * base r + dval c) ds) max); [lia|reflexivity].
    + rewrite u64_id by (unfold two64 in *; nia).
      replace (base r * res + dval c) with (res * base r + dval c) by lia. apply IH; [assumption|nia].
Qed.

Lemma dec_digit_spec c : digit DEC c -> dec_digit c = Some (dval c).
Proof.
  intros (v & E & L). unfold dec_digit, dval. rewrite E. unfold digit_value in E.
  destruct ((48 <=? c) && (c <=? 57)); [now injection E as <-|].
  destruct (_ && _) eqn:E1 in E; [injection E as <-; cbn in L; lia|].
  destruct (_ && _) eqn:E2 in E; [injection E as <-; cbn in L; lia|discriminate].
Qed.
Lemma hex_digit_spec c : digit HEX c -> hex_digit c = Some (dval c).
Proof.
  intros D. pose proof (digit_char HEX c D) as H. unfold hex_digit, toupper, dval, digit_value.
  destruct ((97 <=? c) && (c <=? 122)) eqn:E0.
  - destruct ((48 <=? c - 32) && (c - 32 <=? 57)) eqn:E1; [lia|].
    destruct ((65 <=? c - 32) && (c - 32 <=? 70)) eqn:E2; [|lia].
    destruct ((48 <=? c) && (c <=? 57)) eqn:E3; [lia|].
    destruct ((65 <=? c) && (c <=? 70)) eqn:E4; [lia|].
    destruct ((97 <=? c) && (c <=? 102)) eqn:E5; [f_equal; lia|lia].
  - destruct ((48 <=? c) && (c <=? 57)) eqn:E3; [reflexivity|].
    destruct ((65 <=? c) && (c <=? 70)) eqn:E4; [f_equal; lia|lia].
Qed.
Lemma scandec_spec ds max : 0 < max <= two64 -> Forall (digit DEC) ds ->
  scandec ds max = if value DEC ds <? max then Ret (value DEC ds) else Raise FailExn.
Proof.
  intros. unfold scandec. apply (scan_loop_spec dec_digit DEC max (or_introl eq_refl)); try assumption; try lia.
  - reflexivity.
  - exact dec_digit_spec.
Qed.
Lemma scanhex_spec ds max : 0 < max <= two64 -> Forall (digit HEX) ds ->
  scanhex ds max = if value HEX ds <? max then Ret (value HEX ds) else Raise FailExn.
Proof.
  intros. unfold scanhex. apply (scan_loop_spec hex_digit HEX max (or_intror eq_refl)); try assumption; try lia.
  - reflexivity.
  - exact hex_digit_spec.
Qed.
Lemma value_nonneg r ds : Forall (digit r) ds -> 0 <= value r ds.
Proof. intros. apply valueF_ge; [lia|assumption]. Qed.

Lemma boxed_iff t : in_long t -> (Long_val (Val_long t) =? t) = in_intb t.
Proof.
  intros H. pose proof (box_checked_spec t H) as B. unfold box_checked in B.
  destruct (in_intb t), (Long_val (Val_long t) =? t); cbn [negb] in B; congruence.
Qed.
Lemma int_literal_spec s n : s = 1 \/ s = -1 -> 0 <= n ->
  (do n <- (if n <? Min_long_u then Ret n else Raise FailExn); int_literal s n)
  = if in_intb (s * n) then Ret (2 * (s * n) + 1) else Raise FailExn.
Proof.
  intros Hs Hn. assert (EM : Min_long_u = 13835058055282163712) by reflexivity. rewrite EM.
  destruct (Z.ltb_spec n 13835058055282163712) as [L|L]; cbn [bind].
  - unfold int_literal.
    assert (s64 (u64 (u64 s * n)) = s64 (s * n)) as ->.
    { rewrite s64_u64. apply s64_congr. unfold u64. now rewrite Zmult_mod_idemp_l. }
    rewrite boxed_iff by apply s64_range.
    assert (in_intb (s64 (s * n)) = in_intb (s * n)) as ->.
    { unfold in_intb, s64, two62, two63, two64. destruct Hs as [-> | ->]; lia. }
    destruct (in_intb (s * n)) eqn:E; cbn [negb]; [|reflexivity].
    apply in_intb_spec in E.
    rewrite s64_id by (unfold in_int, in_long, two62, two63 in *; lia). now rewrite Val_long_int.
  - rewrite in_intb_no; [reflexivity|]. unfold in_int, two62. lia.
Qed.
Lemma word_literal_spec n : 0 <= n ->
  (do n <- (if n <? u64 (2 * Min_long_u) then Ret n else Raise FailExn); Ret (Val_long (s64 n)))
  = if n <? two63 then Ret (tagw n) else Raise FailExn.
Proof.
  intros Hn. assert (EM : u64 (2 * Min_long_u) = two63) by reflexivity. rewrite EM.
  destruct (Z.ltb_spec n two63) as [L|L]; cbn [bind]; [|reflexivity].
  rewrite s64_id by (unfold in_long, two63 in *; lia). unfold Val_long.
  f_equal. replace (n * 2) with (2 * n) by lia.
  unfold s64, tagw, sgn63, two62, two63, two64 in *.
  destruct (Z.ltb_spec n 4611686018427387904); lia.
Qed.
