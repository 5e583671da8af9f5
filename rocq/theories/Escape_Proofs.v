(** Proofs about escapes. *)
From Verif Require Import Base ArrayLib Arith_Model Arith_Proofs Buffer_Model Buffer_Props Substring_Spec Substring_Proofs Substring_Proofs2.
From Verif Require Scan_Model Scan_Spec Scan_Proofs Scan_Proofs3.
From Verif Require Import Substring_Model Escape_Model Escape_Spec.

Lemma getc_at pre t i : i = zlen pre -> getc (pre ++ t) i = Ret (match t with [] => None | c :: _ => Some (c, i + 1) end).
Proof.
  intros ->. unfold getc. rewrite zlen_app. destruct t as [|c t].
  - rewrite zl_nil. destruct (Z.ltb_spec (zlen pre) (zlen pre + 0)); [lia|reflexivity].
  - rewrite zlen_cons. pose proof (zlen_nonneg t). destruct (Z.ltb_spec (zlen pre) (zlen pre + (1 + zlen t))); [|lia]. now rewrite sub_mid.
Qed.
Lemma dec_digit_iff c : dec_digit c <-> 48 <= c <= 57.
Proof. unfold dec_digit. rewrite <- Scan_Proofs.digit_dec. unfold Scan_Model.radix_digit, Scan_Model.isDigit. lia. Qed.
Lemma oct_digit_iff c : oct_digit c <-> 48 <= c <= 55.
Proof. unfold oct_digit. rewrite <- Scan_Proofs.digit_dec. unfold Scan_Model.radix_digit. lia. Qed.
Lemma hex_digit_iff c : hex_digit c <-> isHexDigit c = true.
Proof. unfold hex_digit. rewrite <- Scan_Proofs.digit_dec. reflexivity. Qed.
Lemma dval_digit c : 48 <= c <= 57 -> Scan_Spec.dval c = c - 48.
Proof. intros H. unfold Scan_Spec.dval, Scan_Spec.digit_value. destruct (Z.leb_spec 48 c); [|lia]. destruct (Z.leb_spec c 57); [|lia]. reflexivity. Qed.
Lemma chr_ok v : 0 <= v -> chr v = if v <=? 255 then Ret v else Raise BadEscape.
Proof. intros H. unfold chr. destruct (Z.ltb_spec v 0); [lia|]. rewrite Z.gtb_ltb. destruct (Z.ltb_spec 255 v), (Z.leb_spec v 255); try lia; reflexivity. Qed.

(** *** ML escapes *)
Definition ml_skip (e : list Z) (c : Z) : Prop :=
  exists ws, Forall Scan_Spec.space ws /\ ((c <> 92 /\ e = ws ++ [92; c]) \/ exists e', ml_char e' c /\ e = ws ++ 92 :: 92 :: e').
Definition simple_ml : list (Z * Z) := [(97, 7); (98, 8); (116, 9); (110, 10); (114, 13); (118, 11); (102, 12); (34, 34); (92, 92)].
Definition ml_cases (x : Z) (e : list Z) (c : Z) : Prop :=
  (e = [] /\ In (x, c) simple_ml) \/
  (x = 94 /\ exists k, e = [k] /\ 64 <= k <= 95 /\ c = k - 64) \/
  (exists d2 d3, e = [d2; d3] /\ dec_digit x /\ dec_digit d2 /\ dec_digit d3 /\ dec_value [x; d2; d3] <= 255 /\ c = dec_value [x; d2; d3]) \/
  (In x [32; 9; 10] /\ ml_skip e c).
Lemma ml_char_inv e c : ml_char e c -> exists x e', e = x :: e' /\ ml_cases x e' c.
Proof.
  destruct 1; try (do 2 eexists; split; [reflexivity|]; left; split; [reflexivity|]; unfold simple_ml; cbn [In]; tauto).
  - do 2 eexists; split; [reflexivity|]. right; left. split; [reflexivity|]. eauto.
  - do 2 eexists; split; [reflexivity|]. right; right; left. exists d2, d3. auto 10.
  - do 2 eexists; split; [reflexivity|]. right; right; right. split; [assumption|]. exists ws. auto.
  - do 2 eexists; split; [reflexivity|]. right; right; right. split; [assumption|]. exists ws. eauto.
Qed.
Lemma ml_char_intro x e c : ml_cases x e c -> ml_char (x :: e) c.
Proof.
  intros [(-> & H)|[(-> & k & -> & H & ->)|[(d2 & d3 & -> & H1 & H2 & H3 & H4 & ->)|(H & ws & W & [(N & ->)|(e' & M & ->)])]]].
  - unfold simple_ml in H. cbn [In] in H. repeat (destruct H as [[= <- <-]|H]; [constructor|]). destruct H.
  - now constructor.
  - now constructor.
  - now constructor.
  - now apply ml_gap_escape.
Qed.
(** what is read from [t] at position i *)
Definition reads_as (R : list Z -> Z -> Prop) (t : list Z) (i : Z) (r : outcome (option (Z * Z))) : Prop :=
  (exists e rest c, t = e ++ rest /\ R e c /\ r = Ret (Some (c, i + zlen e))) \/ ((forall e rest c, t = e ++ rest -> ~ R e c) /\ r = Ret None).
Lemma space_cases c : Scan_Spec.space c <-> (c =? 32) || ((9 <=? c) && (c <=? 13)) = true.
Proof. rewrite <- Scan_Proofs3.space_dec. reflexivity. Qed.
Lemma space92 ws : Forall Scan_Spec.space ws -> ~ In 92 ws.
Proof. intros H I. rewrite Forall_forall in H. specialize (H _ I). cbn in H. lia. Qed.
Lemma dec3 d1 d2 d3 : 48 <= d1 <= 57 -> 48 <= d2 <= 57 -> 48 <= d3 <= 57 -> dec_value [d1; d2; d3] = ((d1 - 48) * 10 + (d2 - 48)) * 10 + (d3 - 48).
Proof. intros. unfold dec_value, Scan_Spec.value. cbn [fold_left Scan_Spec.base]. rewrite !dval_digit by assumption. lia. Qed.
Lemma from3Dec_ok t pre i : i = zlen pre ->
  from3Dec (pre ++ t) i 0 = match t with
    | d1 :: d2 :: d3 :: _ => if (48 <=? d1) && (d1 <=? 57) && ((48 <=? d2) && (d2 <=? 57)) && ((48 <=? d3) && (d3 <=? 57)) && (dec_value [d1; d2; d3] <=? 255)
                             then Ret (dec_value [d1; d2; d3], i + 3) else Raise BadEscape
    | _ => Raise BadEscape
    end.
Proof.
  intros Hi. unfold from3Dec, decimal. rewrite (getc_at pre t i Hi). cbn [bind]. destruct t as [|d1 t]; [reflexivity|].
  destruct ((48 <=? d1) && (d1 <=? 57)) eqn:E1; [|destruct t as [|d2 [|d3 t]]; reflexivity].
  rewrite (app_cons_assoc pre d1 t). rewrite (getc_at (pre ++ [d1]) t) by (rewrite zlen_snoc; lia). cbn [bind]. destruct t as [|d2 t]; [reflexivity|].
  destruct ((48 <=? d2) && (d2 <=? 57)) eqn:E2; [|destruct t; reflexivity].
  rewrite (app_cons_assoc _ d2 t). rewrite (getc_at _ t) by (rewrite !zlen_snoc; lia). cbn [bind]. destruct t as [|d3 t]; [reflexivity|].
  destruct ((48 <=? d3) && (d3 <=? 57)) eqn:E3; [|reflexivity]. cbn [andb].
  assert (D : ((0 * 10 + d1 - 48) * 10 + d2 - 48) * 10 + d3 - 48 = dec_value [d1; d2; d3]) by (rewrite dec3 by lia; lia).
  rewrite D. rewrite chr_ok by (rewrite dec3 by lia; lia). destruct (dec_value [d1; d2; d3] <=? 255); [|reflexivity]. cbn [bind]. do 2 f_equal. lia.
Qed.
Lemma mlescape_ok fuel : forall t pre i, i = zlen pre -> (length t < fuel)%nat ->
  reads_as ml_char t i (fromMLescape_ fuel false (pre ++ t) i) /\ reads_as ml_skip t i (fromMLescape_ fuel true (pre ++ t) i).
Proof.
  induction fuel as [|fuel IH]; intros t pre i Hi Hf; [lia|].
  assert (Skip : reads_as ml_skip t i (fromMLescape_ (S fuel) true (pre ++ t) i)).
  { cbn [fromMLescape_]. rewrite (getc_at pre t i Hi). cbn [bind]. destruct t as [|c t].
    - right. split; [|reflexivity]. intros e rest c E (ws & W & [(_ & ->)|(e' & _ & ->)]); destruct ws; discriminate.
    - destruct (Z.eqb_spec c 92) as [->|N].
      + rewrite (app_cons_assoc pre 92 t), (getc_at (pre ++ [92]) t) by (rewrite zlen_snoc; lia). cbn [bind]. destruct t as [|c2 t].
        * right. split; [|reflexivity]. intros e rest c E (ws & W & [(_ & ->)|(e' & _ & ->)]); destruct ws as [|w [|w' ws]]; discriminate.
        * assert (W0 : forall ws u v, Forall Scan_Spec.space ws -> 92 :: u = ws ++ 92 :: v -> ws = [] /\ u = v).
          { intros ws u v W E. destruct ws as [|w ws]; [injection E as <-; now split|]. injection E as <- _. destruct (space92 _ W (or_introl eq_refl)). }
          destruct (Z.eqb_spec c2 92) as [->|N2].
          -- rewrite (app_cons_assoc _ 92 t). destruct (IH t ((pre ++ [92]) ++ [92]) (i + 1 + 1)) as (H & _); [rewrite !zlen_snoc; lia|cbn [length] in Hf; lia|].
             destruct H as [(e & rest & c & E & M & R)|(M & R)]; rewrite R.
             ++ left. exists (92 :: 92 :: e), rest, c. split; [now rewrite E|]. split; [exists []; split; [constructor|]; right; eauto|]. rewrite !zlen_cons. do 3 f_equal. lia.
             ++ right. split; [|reflexivity]. intros e rest c E (ws & W & [(N & ->)|(e' & M' & ->)]); rewrite <- app_assoc in E.
                ** destruct (W0 _ _ _ W E) as (-> & Q). injection Q as Q _. congruence.
                ** destruct (W0 _ _ _ W E) as (-> & Q). injection Q as Q. exact (M _ _ _ Q M').
          -- left. exists [92; c2], t, c2. split; [reflexivity|]. split; [exists []; split; [constructor|]; left; now split|]. cbn [zlen length]. do 3 f_equal. unfold zlen. cbn [length]. lia.
      + destruct ((c =? 32) || (9 <=? c) && (c <=? 13)) eqn:Es.
        * apply space_cases in Es. rewrite (app_cons_assoc pre c t). destruct (IH t (pre ++ [c]) (i + 1)) as (_ & H); [rewrite !zlen_snoc; lia|cbn [length] in Hf; lia|].
          destruct H as [(e & rest & c' & E & (ws & W & M) & R)|(M & R)]; rewrite R.
          -- left. exists (c :: e), rest, c'. split; [now rewrite E|]. split; [|rewrite zlen_cons; do 3 f_equal; lia].
             exists (c :: ws). split; [now constructor|]. destruct M as [(N' & ->)|(e' & M & ->)]; [left|right; exists e']; now split.
          -- right. split; [|reflexivity]. intros e rest c' E (ws & W & Q). destruct ws as [|w ws].
             ++ destruct Q as [(_ & ->)|(e' & _ & ->)]; injection E as E _; congruence.
             ++ apply Forall_cons_iff in W as (_ & W). destruct Q as [(N' & ->)|(e' & M' & ->)]; injection E as <- E; apply (M _ _ c' E); exists ws; eauto.
        * right. split; [|reflexivity]. intros e rest c' E (ws & W & Q). destruct ws as [|w ws].
          -- destruct Q as [(_ & ->)|(e' & _ & ->)]; injection E as E _; congruence.
          -- apply Forall_cons_iff in W as (W & _). apply space_cases in W. destruct Q as [(N' & ->)|(e' & M' & ->)]; injection E as <- E; congruence. }
  split; [|exact Skip]. clear Skip. cbn [fromMLescape_]. rewrite (getc_at pre t i Hi). cbn [bind]. destruct t as [|c t].
  { right. split; [|reflexivity]. intros e rest c E M. apply ml_char_inv in M as (x & e' & -> & _). discriminate. }
  (* one-letter escapes *)
  assert (One : forall v, In (c, v) simple_ml -> reads_as ml_char (c :: t) i (Ret (Some (v, i + 1)))).
  { intros v H. left. exists [c], t, v. split; [reflexivity|]. split; [apply ml_char_intro; left; now split|reflexivity]. }
  unfold simple_ml in One. cbn [In] in One.
  destruct (Z.eqb_spec c 97) as [->|N1]; [apply One; tauto|]. destruct (Z.eqb_spec c 98) as [->|N2]; [apply One; tauto|].
  destruct (Z.eqb_spec c 116) as [->|N3]; [apply One; tauto|]. destruct (Z.eqb_spec c 110) as [->|N4]; [apply One; tauto|].
  destruct (Z.eqb_spec c 114) as [->|N5]; [apply One; tauto|]. destruct (Z.eqb_spec c 118) as [->|N6]; [apply One; tauto|].
  destruct (Z.eqb_spec c 102) as [->|N7]; [apply One; tauto|]. destruct (Z.eqb_spec c 34) as [->|N8]; [apply One; tauto|].
  destruct (Z.eqb_spec c 92) as [->|N9]; [apply One; tauto|]. clear One.
  assert (NS : forall v, ~ In (c, v) simple_ml).
  { intros v H. unfold simple_ml in H. cbn [In] in H. repeat (destruct H as [[= <- _]|H]; [congruence|]). destruct H. }
  (* gaps *)
  assert (Gap : In c [32; 9; 10] -> reads_as ml_char (c :: t) i (fromMLescape_ fuel true (pre ++ c :: t) (i + 1))).
  { intros Hc. rewrite (app_cons_assoc pre c t). destruct (IH t (pre ++ [c]) (i + 1)) as (_ & H); [rewrite !zlen_snoc; lia|cbn [length] in Hf; lia|].
    destruct H as [(e & rest & c' & E & M & R)|(M & R)]; rewrite R.
    - left. exists (c :: e), rest, c'. split; [now rewrite E|]. split; [apply ml_char_intro; do 3 right; now split|rewrite zlen_cons; do 3 f_equal; lia].
    - right. split; [|reflexivity]. intros e rest c' E Q. apply ml_char_inv in Q as (x & e' & -> & Q). injection E as <- E.
      destruct Q as [(_ & Q)|[(-> & _)|[(d2 & d3 & _ & D & _)|(_ & Q)]]].
      + exact (NS _ Q).
      + cbn in Hc. lia.
      + apply dec_digit_iff in D. cbn in Hc. lia.
      + exact (M _ _ _ E Q). }
  cbn [In] in Gap. destruct (Z.eqb_spec c 32) as [->|N10]; [apply Gap; tauto|]. destruct (Z.eqb_spec c 10) as [->|N11]; [apply Gap; tauto|].
  destruct (Z.eqb_spec c 9) as [->|N12]; [apply Gap; tauto|]. clear Gap.
  assert (NG : ~ In c [32; 9; 10]) by (cbn [In]; intuition congruence).
  destruct (Z.eqb_spec c 94) as [->|N13].
  - rewrite (app_cons_assoc pre 94 t), (getc_at (pre ++ [94]) t) by (rewrite zlen_snoc; lia). cbn [bind].
    assert (Inv : forall e rest c, 94 :: t = e ++ rest -> ml_char e c -> exists k r, t = k :: r /\ 64 <= k <= 95).
    { intros e rest c E M. apply ml_char_inv in M as (x & e' & -> & Q). injection E as <- E.
      destruct Q as [(_ & Q)|[(_ & k & -> & K & _)|[(d2 & d3 & _ & D & _)|(Q & _)]]].
      - destruct (NS _ Q).
      - exists k, rest. now split.
      - apply dec_digit_iff in D. lia.
      - now destruct NG. }
    destruct t as [|k t].
    + right. split; [|reflexivity]. intros e rest c E M. destruct (Inv e rest c E M) as (k & r & Q & _). discriminate.
    + destruct ((64 <=? k) && (k <=? 95)) eqn:K.
      * left. exists [94; k], t, (k - 64). split; [reflexivity|]. split; [constructor; lia|]. do 3 f_equal. unfold zlen. cbn [length]. lia.
      * right. split; [|reflexivity]. intros e rest c E M. destruct (Inv e rest c E M) as (k' & r & Q & H). injection Q as <- _. lia.
  - rewrite from3Dec_ok by assumption.
    assert (Inv : forall e rest c', c :: t = e ++ rest -> ml_char e c' -> exists d2 d3 r, t = d2 :: d3 :: r /\ 48 <= c <= 57 /\ 48 <= d2 <= 57 /\ 48 <= d3 <= 57 /\ dec_value [c; d2; d3] <= 255).
    { intros e rest c' E M. apply ml_char_inv in M as (x & e' & -> & Q). injection E as <- E.
      destruct Q as [(_ & Q)|[(-> & _)|[(d2 & d3 & -> & D & D2 & D3 & V & _)|(Q & _)]]].
      - destruct (NS _ Q).
      - congruence.
      - apply dec_digit_iff in D, D2, D3. exists d2, d3, rest. auto.
      - now destruct NG. }
    destruct t as [|d2 [|d3 t]]; try (right; split; [|reflexivity]; intros e rest c' E M; destruct (Inv e rest c' E M) as (? & ? & ? & Q & _); discriminate).
    destruct ((48 <=? c) && (c <=? 57) && ((48 <=? d2) && (d2 <=? 57)) && ((48 <=? d3) && (d3 <=? 57)) && (dec_value [c; d2; d3] <=? 255)) eqn:K; cbn [handle_bad].
    + left. exists [c; d2; d3], t, (dec_value [c; d2; d3]). split; [reflexivity|]. split; [|reflexivity]. constructor; try (apply dec_digit_iff; lia). lia.
    + right. split; [|reflexivity]. intros e rest c' E M. destruct (Inv e rest c' E M) as (? & ? & ? & Q & H). injection Q as <- <- _. lia.
Qed.
(** ML escapes are uniquely decodable *)
Lemma ml_char_unique e c : ml_char e c -> forall r e' c' r', ml_char e' c' -> e ++ r = e' ++ r' -> e = e' /\ c = c' /\ r = r'.
Proof.
  intros M r e' c' r' M' E.
  (* both are what fromMLescape reads from e ++ r; prove by induction on the length *)
  revert e c M r e' c' r' M' E.
  assert (K : forall n e c r e' c' r', (length e < n)%nat -> ml_char e c -> ml_char e' c' -> e ++ r = e' ++ r' -> e = e' /\ c = c' /\ r = r').
  { induction n as [|n IH]; intros e c r e' c' r' Hn M M' E; [lia|].
    apply ml_char_inv in M as (x & a & -> & Q). apply ml_char_inv in M' as (x' & a' & -> & Q'). injection E as <- E.
    assert (F1 : forall v, In (x, v) simple_ml -> ~ dec_digit x /\ x <> 94 /\ ~ In x [32; 9; 10]).
    { intros v H. rewrite dec_digit_iff. unfold simple_ml in H. cbn [In] in *. repeat (destruct H as [[= <- _]|H]; [lia|]). destruct H. }
    assert (F2 : dec_digit x -> x <> 94 /\ ~ In x [32; 9; 10]) by (rewrite dec_digit_iff; cbn [In]; lia).
    assert (F3 : x = 94 -> ~ In x [32; 9; 10]) by (intros ->; cbn [In]; lia).
    assert (F4 : forall v v', In (x, v) simple_ml -> In (x, v') simple_ml -> v = v').
    { intros v v' H H'. unfold simple_ml in H, H'. cbn [In] in H, H'.
      repeat (destruct H as [[= <- <-]|H]; [repeat (destruct H' as [[= <-]|H']; [reflexivity|]); repeat (destruct H' as [H'|H']; [try discriminate H'; congruence|]); destruct H'|]). destruct H. }
    destruct Q as [(-> & Q)|[(X & k & -> & K & ->)|[(d2 & d3 & -> & D & D2 & D3 & V & ->)|(G & S)]]];
    destruct Q' as [(-> & Q')|[(X' & k' & -> & K' & ->)|[(d2' & d3' & -> & D' & D2' & D3' & V' & ->)|(G' & S')]]];
      try (destruct (F1 _ Q) as (P1 & P2 & P3); tauto); try (destruct (F1 _ Q') as (P1 & P2 & P3); tauto); try (destruct (F2 D) as (P1 & P2); tauto); try (destruct (F2 D') as (P1 & P2); tauto); try (destruct (F3 X); assumption); try (destruct (F3 X'); assumption).
    - cbn [app] in E. rewrite (F4 _ _ Q Q'). auto.
    - injection E as -> ->. auto.
    - injection E as -> -> ->. auto.
    - destruct S as (ws & W & S). destruct S' as (ws' & W' & S').
      assert (U : forall u v, ws ++ 92 :: u = ws' ++ 92 :: v -> ws = ws' /\ u = v).
      { intros u v H. assert (L : ws = ws' /\ 92 :: u = 92 :: v).
        { apply (longest_prefix_unique (fun z => negb (z =? 92))); try assumption; split.
          - intros z Hz. destruct (Z.eqb_spec z 92) as [->|]; [destruct (space92 _ W Hz)|reflexivity].
          - intros z b [= <- _]. reflexivity.
          - intros z Hz. destruct (Z.eqb_spec z 92) as [->|]; [destruct (space92 _ W' Hz)|reflexivity].
          - intros z b [= <- _]. reflexivity. }
        destruct L as (-> & L). injection L as ->. now split. }
      destruct S as [(Nc & ->)|(b & M & ->)]; destruct S' as [(Nc' & ->)|(b' & M' & ->)]; rewrite <- !app_assoc in E; cbn [app] in E; destruct (U _ _ E) as (-> & R).
      + injection R as -> ->. auto.
      + injection R as R _. congruence.
      + injection R as R _. congruence.
      + injection R as R. destruct (IH b c r b' c' r') as (-> & -> & ->); auto. cbn [length] in Hn. rewrite app_length in Hn. cbn [length] in Hn. lia. }
  intros e c M r e' c' r' M' E. apply (K (S (length e)) e c r e' c' r'); auto.
Qed.
Lemma ml_char_no_nil e c : ml_char e c -> e <> [].
Proof. intros M. apply ml_char_inv in M as (x & e' & -> & _). discriminate. Qed.

Lemma ml_text_inv x t r : ml_text (x :: t) r ->
  (x <> 92 /\ exists r', r = x :: r' /\ ml_text t r') \/ (x = 92 /\ exists e c t' r', t = e ++ t' /\ r = c :: r' /\ ml_char e c /\ ml_text t' r').
Proof. inversion 1; subst; [left; eauto|right; eauto 10]. Qed.
Lemma fromString_h_ok junk fuel : forall t pre i res, i = zlen pre -> (length t < fuel)%nat -> zlen pre + zlen t <= maxSize -> zlen res <= zlen pre ->
  (exists r, ml_text t r /\ fromString_h fuel junk (pre ++ t) i res = Ret (Some (rev res ++ r))) \/
  ((forall r, ~ ml_text t r) /\ fromString_h fuel junk (pre ++ t) i res = Ret None).
Proof.
  induction fuel as [|fuel IH]; intros t pre i res Hi Hf Hs Hr; [lia|]. cbn [fromString_h]. rewrite (getc_at pre t i Hi). cbn [bind]. destruct t as [|c t].
  - left. exists []. split; [constructor|]. rewrite implode_ok, zlen_rev. rewrite zl_nil in Hs. destruct (Z.leb_spec (zlen res) maxSize); [|lia]. cbn [bind]. now rewrite app_nil_r.
  - rewrite (app_cons_assoc pre c t). rewrite zlen_cons in Hs. cbn [length] in Hf. destruct (Z.eqb_spec c 92) as [->|N].
    + unfold fromMLescape. destruct (mlescape_ok (S (length ((pre ++ [92]) ++ t))) t (pre ++ [92]) (i + 1)) as (H & _); [rewrite zlen_snoc; lia|rewrite app_length; lia|].
      destruct H as [(e & rest & c & E & M & R)|(M & R)]; rewrite R; cbn [bind].
      * subst t. pose proof (ml_char_no_nil _ _ M) as Ne. assert (1 <= zlen e) by (destruct e as [|z e]; [congruence|rewrite zlen_cons; pose proof (zlen_nonneg e); lia]).
        rewrite zlen_app in Hs. rewrite app_length in Hf. rewrite (app_assoc (pre ++ [92]) e rest).
        destruct (IH rest ((pre ++ [92]) ++ e) (i + 1 + zlen e) (c :: res)) as [(r & M' & R')|(M' & R')].
        -- rewrite zlen_app, zlen_snoc. lia.
        -- lia.
        -- rewrite zlen_app, zlen_snoc. lia.
        -- rewrite zlen_cons, zlen_app, zlen_snoc. lia.
        -- left. exists (c :: r). split; [now constructor|]. rewrite R'. cbn [rev]. now rewrite <- app_assoc.
        -- right. split; [|exact R']. intros r Q. apply ml_text_inv in Q as [(Q & _)|(_ & e' & c' & t' & r' & E & -> & Q & Q')]; [congruence|].
           destruct (ml_char_unique _ _ M rest e' c' t' Q E) as (-> & -> & ->). exact (M' _ Q').
      * right. split; [|reflexivity]. intros r Q. apply ml_text_inv in Q as [(Q & _)|(_ & e' & c' & t' & r' & E & -> & Q & Q')]; [congruence|]. exact (M _ _ _ E Q).
    + destruct (IH t (pre ++ [c]) (i + 1) (c :: res)) as [(r & M & R)|(M & R)].
      * rewrite zlen_snoc. lia.
      * lia.
      * rewrite zlen_snoc. lia.
      * rewrite zlen_cons, zlen_snoc. lia.
      * left. exists (c :: r). split; [now constructor|]. rewrite R. cbn [rev]. now rewrite <- app_assoc.
      * right. split; [|exact R]. intros r Q. apply ml_text_inv in Q as [(_ & r' & -> & Q)|(Q & _)]; [exact (M _ Q)|congruence].
Qed.
Lemma ml_text_unique t r : ml_text t r -> forall r', ml_text t r' -> r = r'.
Proof.
  induction 1 as [|c t r N M IH|e c t r M Mt IH]; intros r' Q.
  - now inversion Q.
  - apply ml_text_inv in Q as [(_ & r2 & -> & Q)|(Q & _)]; [now rewrite (IH _ Q)|congruence].
  - apply ml_text_inv in Q as [(Q & _)|(_ & e' & c' & t' & r2 & E & -> & Q & Q')]; [congruence|].
    destruct (ml_char_unique _ _ M t e' c' t' Q E) as (_ & -> & <-). now rewrite (IH _ Q').
Qed.
Lemma ml_text_len t r : ml_text t r -> zlen r <= zlen t.
Proof. induction 1; rewrite ?zlen_cons, ?zlen_app; try lia. pose proof (zlen_nonneg e). lia. Qed.
