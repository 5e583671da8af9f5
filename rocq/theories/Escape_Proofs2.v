(** Proofs about escapes, continued: C escapes and printing. *)
From Verif Require Import Base ArrayLib Arith_Model Arith_Proofs Buffer_Model Buffer_Props Substring_Spec Substring_Proofs Substring_Proofs2.
From Verif Require Scan_Model Scan_Spec Scan_Proofs Scan_Proofs3.
From Verif Require Import Substring_Model Escape_Model Escape_Spec Escape_Proofs.

(** *** C escapes *)
Definition failed {A} (r : outcome A) : Prop := r = Raise BadEscape \/ r = Raise Overflow.
Definition c_reads (t : list Z) (i : Z) (r : outcome (Z * Z)) : Prop :=
  (exists e rest c, t = e ++ rest /\ c_char e rest c /\ r = Ret (c, i + zlen e)) \/ ((forall e rest c, t = e ++ rest -> ~ c_char e rest c) /\ failed r).
Lemma hexval_eq c : hex_digit c -> hexval c = Scan_Spec.dval c /\ 0 <= hexval c <= 15.
Proof.
  intros H. pose proof (Scan_Proofs.dval_range _ _ H) as R. cbn [Scan_Spec.base] in R. apply hex_digit_iff in H. unfold isHexDigit in H.
  cut (hexval c = Scan_Spec.dval c); [lia|]. unfold hexval, Scan_Spec.dval, Scan_Spec.digit_value.
  destruct ((48 <=? c) && (c <=? 57)) eqn:E1; [reflexivity|]. destruct ((65 <=? c) && (c <=? 70)) eqn:E2.
  - rewrite Z.mod_small by lia. lia.
  - destruct ((97 <=? c) && (c <=? 102)) eqn:E3; [|lia]. replace (c - 55) with (c - 97 + 10 + 1 * 32) by lia. rewrite Z_mod_plus_full, Z.mod_small by lia. reflexivity.
Qed.
Lemma imul_16 x : in_int x -> Scan_Model.imul x 16 = if in_intb (x * 16) then Ret (x * 16) else Raise Overflow.
Proof.
  intros H. unfold Scan_Model.imul. rewrite !Val_long_int, mul_spec by (assumption || lia || (apply Scan_Proofs.in_int_small; lia)). apply Scan_Proofs.unbox_if.
Qed.
Lemma fromHex_ok fuel : forall ds rest pre i code, i = zlen pre -> (length (ds ++ rest) < fuel)%nat -> Forall hex_digit ds -> (forall d r, rest = d :: r -> ~ hex_digit d) -> 0 <= code -> in_int code ->
  let v := Scan_Proofs.valueF Scan_Model.HEX code ds in
  (v <= 255 -> fromHex fuel (pre ++ ds ++ rest) i code = Ret (v, i + zlen ds)) /\ (255 < v -> failed (fromHex fuel (pre ++ ds ++ rest) i code)).
Proof.
  induction fuel as [|fuel IH]; intros ds rest pre i code Hi Hf D St C0 Ci; [lia|]. cbn zeta. cbn [fromHex]. rewrite (getc_at pre _ i Hi). cbn [bind]. destruct ds as [|d ds].
  - cbn [app]. change (Scan_Proofs.valueF Scan_Model.HEX code []) with code.
    assert (E : match rest with [] => do c <- chr code; Ret (c, i) | c :: _ => if isHexDigit c then do m <- Scan_Model.imul code 16; do code <- Scan_Model.iadd m (hexval c); fromHex fuel (pre ++ rest) (i + 1) code else do c <- chr code; Ret (c, i) end
       = do c <- chr code; Ret (c, i)).
    { destruct rest as [|d r]; [reflexivity|]. specialize (St _ _ eq_refl). rewrite hex_digit_iff in St. apply not_true_is_false in St. now rewrite St. }
    destruct rest as [|d r]; cbn [app] in *.
    + rewrite chr_ok by assumption. destruct (Z.leb_spec code 255); split; intros; try lia; [cbn [bind]; do 2 f_equal; rewrite zl_nil; lia|now left].
    + rewrite E. rewrite chr_ok by assumption. destruct (Z.leb_spec code 255); split; intros; try lia; [cbn [bind]; do 2 f_equal; rewrite zl_nil; lia|now left].
  - apply Forall_cons_iff in D as (D & Ds). cbn [app]. pose proof D as D'. apply hex_digit_iff in D'. rewrite D'. destruct (hexval_eq d D) as (Hd & Hr).
    change (Scan_Proofs.valueF Scan_Model.HEX code (d :: ds)) with (Scan_Proofs.valueF Scan_Model.HEX (code * 16 + Scan_Spec.dval d) ds). rewrite <- Hd.
    pose proof (Scan_Proofs.valueF_ge Scan_Model.HEX ds (code * 16 + hexval d) ltac:(lia) Ds) as Ge. set (v := Scan_Proofs.valueF _ _ _) in *.
    rewrite imul_16 by assumption. destruct (in_intb (code * 16)) eqn:E1; cbn [bind].
    + apply in_intb_spec in E1. rewrite Scan_Proofs.iadd_eq by (assumption || (apply Scan_Proofs.in_int_small; lia)). destruct (in_intb (code * 16 + hexval d)) eqn:E2; cbn [bind].
      * apply in_intb_spec in E2. rewrite (app_cons_assoc pre d). destruct (IH ds rest (pre ++ [d]) (i + 1) (code * 16 + hexval d)) as (A & B); auto; try lia.
        { rewrite zlen_snoc. lia. } { cbn [app length] in Hf. lia. }
        subst v. split; intros H; [rewrite A by assumption; rewrite zlen_cons; do 2 f_equal; lia|now apply B].
      * split; intros H; [|now right]. exfalso. assert (in_int (code * 16 + hexval d)) by (apply Scan_Proofs.in_int_small; lia). apply in_intb_spec in H0. congruence.
    + split; intros H; [|now right]. exfalso. assert (in_int (code * 16)) by (apply Scan_Proofs.in_int_small; lia). apply in_intb_spec in H0. congruence.
Qed.
Definition simple_c : list (Z * Z) := [(110, 10); (114, 13); (116, 9); (118, 11); (98, 8); (102, 12); (97, 7); (92, 92); (63, 63); (39, 39); (34, 34)].
Lemma c_char_inv e rest c : c_char e rest c ->
  (exists x, e = [x] /\ In (x, c) simple_c) \/
  (Forall oct_digit e /\ (1 <= length e <= 3)%nat /\ (length e = 3%nat \/ forall d r, rest = d :: r -> ~ oct_digit d) /\ oct_value e <= 255 /\ c = oct_value e) \/
  (exists ds, e = 120 :: ds /\ Forall hex_digit ds /\ ds <> [] /\ (forall d r, rest = d :: r -> ~ hex_digit d) /\ hex_value ds <= 255 /\ c = hex_value ds).
Proof. destruct 1; [left|right; left|right; right]; eauto 10. Qed.
Lemma simple_c_facts x v : In (x, v) simple_c -> x <> 120 /\ ~ oct_digit x.
Proof. rewrite oct_digit_iff. unfold simple_c. cbn [In]. intros H. repeat (destruct H as [[= <- _]|H]; [lia|]). destruct H. Qed.
Lemma hex_rest_unique ds rest ds' rest' : Forall hex_digit ds -> Forall hex_digit ds' -> (forall d r, rest = d :: r -> ~ hex_digit d) -> (forall d r, rest' = d :: r -> ~ hex_digit d) ->
  ds ++ rest = ds' ++ rest' -> ds = ds' /\ rest = rest'.
Proof.
  intros D D' S S' E. rewrite Forall_forall in D, D'. apply (longest_prefix_unique isHexDigit); try assumption; split.
  - intros z H. now apply hex_digit_iff, D.
  - intros z r H. apply not_true_is_false. rewrite <- hex_digit_iff. now apply (S _ r).
  - intros z H. now apply hex_digit_iff, D'.
  - intros z r H. apply not_true_is_false. rewrite <- hex_digit_iff. now apply (S' _ r).
Qed.
Lemma oct_unique ds : forall n rest ds' rest', Forall oct_digit ds -> Forall oct_digit ds' -> (length ds <= n)%nat -> (length ds' <= n)%nat ->
  (length ds = n \/ forall d r, rest = d :: r -> ~ oct_digit d) -> (length ds' = n \/ forall d r, rest' = d :: r -> ~ oct_digit d) ->
  ds ++ rest = ds' ++ rest' -> ds = ds' /\ rest = rest'.
Proof.
  induction ds as [|d ds IH]; intros n rest ds' rest' D D' L L' S S' E.
  - destruct ds' as [|d' ds']; [now split|]. cbn [app length] in *. destruct S as [S|S]; [lia|]. apply Forall_cons_iff in D' as (D' & _). destruct (S _ _ E D').
  - destruct ds' as [|d' ds'].
    + cbn [app length] in *. destruct S' as [S'|S']; [lia|]. apply Forall_cons_iff in D as (D & _). destruct (S' _ _ (eq_sym E) D).
    + injection E as <- E. apply Forall_cons_iff in D as (_ & D). apply Forall_cons_iff in D' as (_ & D'). cbn [length] in *. destruct n as [|n]; [lia|].
      destruct (IH n rest ds' rest') as (-> & ->); auto; try lia; [destruct S; [left; lia|now right]|destruct S'; [left; lia|now right]].
Qed.
Lemma c_char_unique e rest c e' rest' c' : c_char e rest c -> c_char e' rest' c' -> e ++ rest = e' ++ rest' -> e = e' /\ rest = rest' /\ c = c'.
Proof.
  intros M M' E. apply c_char_inv in M. apply c_char_inv in M'.
  assert (P : forall x v ds, In (x, v) simple_c -> Forall oct_digit ds -> (1 <= length ds)%nat -> forall r, x :: r = ds ++ rest -> False).
  { intros x v ds H D L r Q. destruct ds as [|d ds]; [cbn in L; lia|]. injection Q as <- _. apply Forall_cons_iff in D as (D & _). now apply (simple_c_facts _ _ H). }
  destruct M as [(x & -> & H)|[(D & L & S & V & ->)|(ds & -> & D & L & S & V & ->)]]; destruct M' as [(x' & -> & H')|[(D' & L' & S' & V' & ->)|(ds' & -> & D' & L' & S' & V' & ->)]].
  - injection E as <- <-. split; [reflexivity|split; [reflexivity|]]. unfold simple_c in H, H'. cbn [In] in H, H'.
    repeat (destruct H as [[= <- <-]|H]; [repeat (destruct H' as [[= <-]|H']; [reflexivity|]); repeat (destruct H' as [H'|H']; [try discriminate H'; congruence|]); destruct H'|]). destruct H.
  - destruct e' as [|d ds]; [cbn in L'; lia|]. injection E as <- _. apply Forall_cons_iff in D' as (D & _). exfalso. now apply (simple_c_facts _ _ H).
  - injection E as E _. exfalso. destruct (simple_c_facts _ _ H). congruence.
  - destruct e as [|d ds]; [cbn in L; lia|]. injection E as -> _. apply Forall_cons_iff in D as (D & _). exfalso. now apply (simple_c_facts _ _ H').
  - destruct (oct_unique e 3 rest e' rest') as (-> & ->); auto; lia.
  - destruct e as [|d ds]; [cbn in L; lia|]. injection E as -> _. apply Forall_cons_iff in D as (D & _). apply oct_digit_iff in D. lia.
  - injection E as E _. exfalso. destruct (simple_c_facts _ _ H'). congruence.
  - destruct e' as [|d ds']; [cbn in L'; lia|]. injection E as <- _. apply Forall_cons_iff in D' as (D' & _). apply oct_digit_iff in D'. lia.
  - injection E as E. destruct (hex_rest_unique ds rest ds' rest') as (-> & ->); auto.
Qed.
Lemma c_char_no_nil e rest c : c_char e rest c -> 1 <= zlen e.
Proof. intros M. apply c_char_inv in M as [(x & -> & _)|[(_ & L & _)|(ds & -> & _)]]; unfold zlen; cbn [length]; lia. Qed.
Lemma oct_dec c : (48 <=? c) && (c <=? 55) = true <-> oct_digit c.
Proof. rewrite oct_digit_iff. lia. Qed.
Lemma oct_value_eq ds : Forall oct_digit ds -> oct_value ds = fold_left (fun a c => a * 8 + (c - 48)) ds 0.
Proof.
  unfold oct_value, Scan_Spec.value. cbn [Scan_Spec.base]. generalize 0. induction ds as [|d ds IH]; intros a D; [reflexivity|]. apply Forall_cons_iff in D as (D & Ds).
  cbn [fold_left]. apply oct_digit_iff in D. rewrite dval_digit by lia. now apply IH.
Qed.
Lemma c_octal_intro ds rest i : Forall oct_digit ds -> (1 <= length ds <= 3)%nat -> (length ds = 3%nat \/ forall d r, rest = d :: r -> ~ oct_digit d) ->
  forall code, code = fold_left (fun a c => a * 8 + (c - 48)) ds 0 -> forall src, src = i + zlen ds ->
  c_reads (ds ++ rest) i (do c <- chr code; Ret (c, src)).
Proof.
  intros D L S code -> src ->. rewrite <- oct_value_eq by assumption.
  assert (Hpos : 0 <= oct_value ds). { rewrite oct_value_eq by assumption. destruct ds as [|a [|b [|c [|]]]]; cbn [length] in L; try lia; repeat (apply Forall_cons_iff in D as (? & D)); repeat match goal with H : oct_digit _ |- _ => apply oct_digit_iff in H end; cbn [fold_left]; lia. }
  rewrite chr_ok by assumption. destruct (Z.leb_spec (oct_value ds) 255) as [H1|H1]; cbn [bind].
  - left. exists ds, rest, (oct_value ds). split; [reflexivity|]. split; [now constructor|reflexivity].
  - right. split; [|now left]. intros e rest' c E M. apply c_char_inv in M as [(x & -> & H)|[(D' & L' & S' & V' & ->)|(ds' & -> & _)]].
    + destruct ds as [|d ds]; [cbn in L; lia|]. injection E as <- _. apply Forall_cons_iff in D as (D & _). now apply (simple_c_facts _ _ H).
    + destruct (oct_unique ds 3 rest e rest') as (-> & ->); auto; lia.
    + destruct ds as [|d ds]; [cbn in L; lia|]. injection E as -> _. apply Forall_cons_iff in D as (D & _). apply oct_digit_iff in D. lia.
Qed.
Lemma fromOct_ok d t pre i src : oct_digit d -> i = zlen pre -> src = i + 1 -> c_reads (d :: t) i (fromOct ((pre ++ [d]) ++ t) src (decval d)).
Proof.
  intros D Hi Hs. unfold fromOct, octalOpt, decval. rewrite (getc_at (pre ++ [d]) t) by (rewrite zlen_snoc; lia). cbn [bind].
  destruct t as [|d2 t].
  { apply (c_octal_intro [d] []); auto; cbn [length fold_left]; try lia. right. discriminate. }
  destruct ((48 <=? d2) && (d2 <=? 55)) eqn:E2.
  2:{ apply (c_octal_intro [d] (d2 :: t)); auto; cbn [length fold_left]; try lia. right. intros x r [= <- _] H. apply oct_dec in H. congruence. }
  apply oct_dec in E2. rewrite (app_cons_assoc _ d2 t). rewrite (getc_at _ t) by (rewrite !zlen_snoc; lia). cbn [bind]. destruct t as [|d3 t].
  { apply (c_octal_intro [d; d2] []); auto; cbn [length fold_left]; try lia; [right; discriminate|unfold zlen; cbn [length]; lia]. }
  destruct ((48 <=? d3) && (d3 <=? 55)) eqn:E3.
  2:{ apply (c_octal_intro [d; d2] (d3 :: t)); auto; cbn [length fold_left]; try lia; [|unfold zlen; cbn [length]; lia]. right. intros x r [= <- _] H. apply oct_dec in H. congruence. }
  apply oct_dec in E3. apply (c_octal_intro [d; d2; d3] t); auto; cbn [length fold_left]; try lia. unfold zlen; cbn [length]; lia.
Qed.
Lemma cescape_ok t pre i : i = zlen pre -> c_reads t i (fromCescape' (pre ++ t) i).
Proof.
  intros Hi. unfold fromCescape'. rewrite (getc_at pre t i Hi). cbn [bind]. destruct t as [|c t].
  { right. split; [|now left]. intros e rest c E M. apply c_char_no_nil in M. symmetry in E. apply app_eq_nil in E as (-> & _). rewrite zl_nil in M. lia. }
  assert (One : forall v, In (c, v) simple_c -> c_reads (c :: t) i (Ret (v, i + 1))).
  { intros v H. left. exists [c], t, v. split; [reflexivity|]. split; [now constructor|reflexivity]. }
  unfold simple_c in One. cbn [In] in One.
  destruct (Z.eqb_spec c 110) as [->|N1]; [apply One; tauto|]. destruct (Z.eqb_spec c 114) as [->|N2]; [apply One; tauto|].
  destruct (Z.eqb_spec c 116) as [->|N3]; [apply One; tauto|]. destruct (Z.eqb_spec c 118) as [->|N4]; [apply One; tauto|].
  destruct (Z.eqb_spec c 98) as [->|N5]; [apply One; tauto|]. destruct (Z.eqb_spec c 102) as [->|N6]; [apply One; tauto|].
  destruct (Z.eqb_spec c 97) as [->|N7]; [apply One; tauto|]. destruct (Z.eqb_spec c 92) as [->|N8]; [apply One; tauto|].
  destruct (Z.eqb_spec c 63) as [->|N9]; [apply One; tauto|]. destruct (Z.eqb_spec c 39) as [->|N10]; [apply One; tauto|].
  destruct (Z.eqb_spec c 34) as [->|N11]; [apply One; tauto|]. clear One.
  assert (NS : forall v, ~ In (c, v) simple_c).
  { intros v H. unfold simple_c in H. cbn [In] in H. repeat (destruct H as [[= <- _]|H]; [congruence|]). destruct H. }
  destruct (Z.eqb_spec c 120) as [->|N12].
  - rewrite (app_cons_assoc pre 120 t), (getc_at (pre ++ [120]) t) by (rewrite zlen_snoc; lia). cbn [bind].
    assert (NO : forall ds r, Forall oct_digit ds -> (1 <= length ds)%nat -> 120 :: t = ds ++ r -> False).
    { intros ds r D L E. destruct ds as [|d ds]; [cbn in L; lia|]. injection E as <- _. apply Forall_cons_iff in D as (D & _). apply oct_digit_iff in D. lia. }
    destruct t as [|d t].
    + right. split; [|now left]. intros e rest c E M. apply c_char_inv in M as [(x & -> & H)|[(D & L & _)|(ds & -> & _ & N & _)]].
      * injection E as <- _. exact (NS _ H).
      * exact (NO e rest D ltac:(lia) E).
      * destruct ds; [congruence|discriminate].
    + destruct (isHexDigit d) eqn:Ed.
      * apply hex_digit_iff in Ed. destruct (Scan_Proofs.split_digits Scan_Model.HEX t) as (ds & rest & -> & D & St). fold hex_digit in D.
        assert (St' : forall x r, rest = x :: r -> ~ hex_digit x) by (intros x r ->; exact St).
        destruct (hexval_eq d Ed) as (Hd & Hr). rewrite (app_cons_assoc _ d).
        destruct (fromHex_ok (S (length (((pre ++ [120]) ++ [d]) ++ ds ++ rest))) ds rest ((pre ++ [120]) ++ [d]) (i + 1 + 1) (hexval d)) as (A & B); auto; try lia.
        { rewrite !zlen_snoc. lia. } { rewrite !app_length; lia. } { apply Scan_Proofs.in_int_small. lia. }
        rewrite Hd in *. change (Scan_Proofs.valueF Scan_Model.HEX (Scan_Spec.dval d) ds) with (hex_value (d :: ds)) in *.
        destruct (Z_le_gt_dec (hex_value (d :: ds)) 255) as [V|V].
        -- rewrite A by assumption. left. exists (120 :: d :: ds), rest, (hex_value (d :: ds)). split; [reflexivity|]. split; [constructor; auto; discriminate|]. rewrite !zlen_cons. do 2 f_equal. lia.
        -- right. split; [|apply B; lia]. intros e rest' c E M. apply c_char_inv in M as [(x & -> & H)|[(D' & L & _)|(ds' & -> & D' & N & S' & V' & _)]].
           ++ injection E as <- _. exact (NS _ H).
           ++ exact (NO e rest' D' ltac:(lia) E).
           ++ injection E as E. destruct (hex_rest_unique (d :: ds) rest ds' rest') as (<- & _); auto.
      * right. split; [|now left]. intros e rest c E M. apply c_char_inv in M as [(x & -> & H)|[(D & L & _)|(ds & -> & D & N & _)]].
        -- injection E as <- _. exact (NS _ H).
        -- exact (NO e rest D ltac:(lia) E).
        -- destruct ds as [|d' ds]; [congruence|]. injection E as <- _. apply Forall_cons_iff in D as (D & _). apply hex_digit_iff in D. congruence.
  - unfold isOctDigit. destruct ((48 <=? c) && (c <=? 55)) eqn:Ec.
    + apply oct_dec in Ec. rewrite (app_cons_assoc pre c t). now apply fromOct_ok.
    + right. split; [|now left]. intros e rest c' E M. apply c_char_inv in M as [(x & -> & H)|[(D & L & _)|(ds & -> & _)]].
      * injection E as <- _. exact (NS _ H).
      * destruct e as [|d ds]; [cbn in L; lia|]. injection E as <- _. apply Forall_cons_iff in D as (D & _). apply oct_dec in D. congruence.
      * injection E as E _. congruence.
Qed.
Lemma c_text_inv x t r : c_text (x :: t) r ->
  (x <> 92 /\ exists r', r = x :: r' /\ c_text t r') \/ (x = 92 /\ exists e c t' r', t = e ++ t' /\ r = c :: r' /\ c_char e t' c /\ c_text t' r').
Proof. inversion 1; subst; [left; eauto|right; eauto 10]. Qed.
Lemma c_text_unique t r : c_text t r -> forall r', c_text t r' -> r = r'.
Proof.
  induction 1 as [|c t r N M IH|e c t r M Mt IH]; intros r' Q.
  - now inversion Q.
  - apply c_text_inv in Q as [(_ & r2 & -> & Q)|(Q & _)]; [now rewrite (IH _ Q)|congruence].
  - apply c_text_inv in Q as [(Q & _)|(_ & e' & c' & t' & r2 & E & -> & Q & Q')]; [congruence|].
    destruct (c_char_unique _ _ _ _ _ _ M Q E) as (_ & <- & ->). now rewrite (IH _ Q').
Qed.
Lemma addchar_ok junk d r len c max : max = zlen (d ++ r) -> len = zlen d -> 1 <= max -> zlen d < lim ->
  exists max' r', addchar junk max (d ++ r) len c = Ret (max', (d ++ [c]) ++ r') /\ max' = zlen ((d ++ [c]) ++ r') /\ 1 <= max' /\ (max' <= max \/ max' = 2 * max /\ max = zlen d).
Proof.
  intros Hm Hl Hmax Hd. unfold addchar. rewrite Z.geb_leb. rewrite zlen_app in Hm. pose proof (zlen_nonneg r). destruct (Z.leb_spec max len).
  - assert (r = []) as -> by (destruct r; [reflexivity|rewrite zlen_cons in *; pose proof (zlen_nonneg r); lia]). rewrite zl_nil in Hm. rewrite app_nil_r.
    unfold lim in *. rewrite Scan_Proofs.imul_eq, Scan_Proofs.in_intb_yes by ((unfold in_int, two62; lia) || lia). cbn [bind].
    destruct (@cut_at Z (create_ junk (2 * max)) max max) as (x & y & E & Lx & Ly); try lia. { rewrite zlen_create_Z by lia. lia. }
    rewrite (blit_into d 0 max _ [] x y); [|rewrite Hm, Z.add_0_r; apply valid_full|unfold lim; lia|assumption|assumption|reflexivity]. cbn [bind app].
    replace (text (d, 0, max)) with d by (rewrite Hm, Z.add_0_r; symmetry; apply text_full).
    destruct y as [|q y]; [rewrite zl_nil in Ly; lia|]. rewrite (update_mid d q c y len Hl). cbn [bind]. exists (2 * max), y. rewrite <- app_assoc. split; [reflexivity|].
    cbn [app]. rewrite zlen_app, zlen_cons in *. lia.
  - cbn [bind]. destruct r as [|q r]; [rewrite zl_nil in Hm; lia|]. rewrite update_mid by assumption. cbn [bind]. exists max, r. rewrite <- app_assoc. split; [reflexivity|].
    cbn [app]. rewrite zlen_app, zlen_cons in *. lia.
Qed.
Lemma fromCString_h_ok junk fuel : forall t pre i d r max len, i = zlen pre -> (length t < fuel)%nat -> zlen d + zlen t < lim -> len = zlen d -> max = zlen (d ++ r) -> 1 <= max ->
  (exists cs, c_text t cs /\ fromCString_h fuel junk (pre ++ t) max (d ++ r) len i = Ret (d ++ cs)) \/
  ((forall cs, ~ c_text t cs) /\ failed (fromCString_h fuel junk (pre ++ t) max (d ++ r) len i)).
Proof.
  induction fuel as [|fuel IH]; intros t pre i d r max len Hi Hf Hs Hl Hm Hmax; [lia|]. cbn [fromCString_h]. rewrite (getc_at pre t i Hi). cbn [bind]. pose proof (zlen_nonneg d) as Zd. destruct t as [|c t].
  - left. exists []. split; [constructor|]. rewrite zl_nil in Hs. rewrite (blit_into (d ++ r) 0 len _ [] (create_ junk len) []).
    + cbn [app]. rewrite !app_nil_r. f_equal. apply (text_at [] d r); auto.
    + rewrite Hl. cbn [valid]. rewrite zlen_app. pose proof (zlen_nonneg r). lia.
    + lia.
    + now rewrite app_nil_r.
    + apply zlen_create_Z. lia.
    + reflexivity.
  - rewrite zlen_cons in Hs. cbn [length] in Hf. pose proof (zlen_nonneg t) as Zt.
    destruct (Z.eqb_spec c 92) as [->|N].
    + rewrite (app_cons_assoc pre 92 t). destruct (cescape_ok t (pre ++ [92]) (i + 1)) as [(e & rest & c & -> & M & R)|(M & F)]; [rewrite zlen_snoc; lia| |].
      * rewrite R. cbn [bind]. destruct (addchar_ok junk d r len c max) as (max' & r' & -> & H1 & H2 & H3); auto; try lia. cbn [bind].
        pose proof (c_char_no_nil _ _ _ M) as Ne. rewrite zlen_app in Hs. rewrite app_length in Hf. rewrite (app_assoc (pre ++ [92]) e rest). pose proof (zlen_nonneg rest).
        destruct (IH rest ((pre ++ [92]) ++ e) (i + 1 + zlen e) (d ++ [c]) r' max' (len + 1)) as [(cs & Q & R')|(Q & R')]; auto.
        -- rewrite zlen_app, zlen_snoc. lia.
        -- lia.
        -- rewrite zlen_snoc. lia.
        -- rewrite zlen_snoc. lia.

        -- left. exists (c :: cs). split; [now constructor|]. rewrite R', <- app_assoc. reflexivity.
        -- right. split; [|exact R']. intros cs Q'. apply c_text_inv in Q' as [(Q' & _)|(_ & e' & c' & t' & r2 & E & -> & Q' & Q2)]; [congruence|].
           destruct (c_char_unique _ _ _ _ _ _ M Q' E) as (_ & <- & _). exact (Q _ Q2).
      * right. split; [|destruct F as [-> | ->]; [now left|now right]]. intros cs Q'. apply c_text_inv in Q' as [(Q' & _)|(_ & e' & c' & t' & r2 & E & -> & Q' & Q2)]; [congruence|]. exact (M _ _ _ E Q').
    + cbn [bind]. destruct (addchar_ok junk d r len c max) as (max' & r' & -> & H1 & H2 & H3); auto; try lia. cbn [bind]. rewrite (app_cons_assoc pre c t).
      destruct (IH t (pre ++ [c]) (i + 1) (d ++ [c]) r' max' (len + 1)) as [(cs & Q & R')|(Q & R')]; auto.
      * rewrite zlen_snoc. lia.
      * lia.
      * rewrite zlen_snoc. lia.
      * rewrite zlen_snoc. lia.

      * left. exists (c :: cs). split; [now constructor|]. rewrite R', <- app_assoc. reflexivity.
      * right. split; [|exact R']. intros cs Q'. apply c_text_inv in Q' as [(_ & r2 & -> & Q2)|(Q' & _)]; [exact (Q _ Q2)|congruence].
Qed.
