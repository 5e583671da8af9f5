(** Proofs for C51: integer and word constants, and that the lexer always returns. *)
From Coq Require Import String.
From Verif Require Import Base ArrayLib Lex_Model Lex_Spec Token_Model Token_Spec Token_Proofs Token_String Token_Scan Token_Comment Token_Token.
From Verif Require Import Arith_Props Scan_Model Scan_Spec Scan_Props Token_Number_Spec.
Close Scope string_scope.
Open Scope list_scope.
Open Scope Z_scope.

Lemma in_digits c : In c digits <-> digit DEC c.
Proof.
  unfold digits. rewrite in_char_class. unfold digit, digit_value. cbn [base]. split.
  - intros H. exists (c - 48). replace ((48 <=? c) && (c <=? 57)) with true by lia. split; [reflexivity|lia].
  - intros (v & E & Hv). destruct ((48 <=? c) && (c <=? 57)) eqn:E1; [lia|].
    destruct ((65 <=? c) && (c <=? 70)) eqn:E2; [injection E as <-; lia|].
    destruct ((97 <=? c) && (c <=? 102)) eqn:E3; [injection E as <-; lia|discriminate].
Qed.
Lemma in_hexdigits c : In c hexdigits <-> digit HEX c.
Proof.
  unfold hexdigits. rewrite !in_app_iff, !in_char_class. unfold digit, digit_value. cbn [base]. split.
  - intros H. destruct ((48 <=? c) && (c <=? 57)) eqn:E1; [eexists; split; [reflexivity|lia]|].
    destruct ((65 <=? c) && (c <=? 70)) eqn:E2; [eexists; split; [reflexivity|lia]|].
    destruct ((97 <=? c) && (c <=? 102)) eqn:E3; [eexists; split; [reflexivity|lia]|lia].
  - intros (v & E & Hv). destruct ((48 <=? c) && (c <=? 57)) eqn:E1; [lia|].
    destruct ((65 <=? c) && (c <=? 70)) eqn:E2; [lia|]. destruct ((97 <=? c) && (c <=? 102)) eqn:E3; [lia|discriminate].
Qed.
Lemma forall_digits ds : Forall (fun c => In c digits) ds <-> Forall (digit DEC) ds.
Proof. split; apply Forall_impl; intros c; apply in_digits. Qed.
Lemma forall_hexdigits ds : Forall (fun c => In c hexdigits) ds <-> Forall (digit HEX) ds.
Proof. split; apply Forall_impl; intros c; apply in_hexdigits. Qed.

(** ** The words of the rules *)
Definition number_word (i : nat) (w : list Z) : Prop :=
  match i with
  | 4%nat => w = [48]
  | 5%nat => exists c, w = [c] /\ 49 <= c <= 57
  | 6%nat => exists ds, w = 48 :: ds /\ ds <> [] /\ Forall (digit DEC) ds
  | 7%nat => exists c ds, w = c :: ds /\ 49 <= c <= 57 /\ ds <> [] /\ Forall (digit DEC) ds
  | 8%nat => exists ds, w = 126 :: ds /\ ds <> [] /\ Forall (digit DEC) ds
  | 9%nat => exists sg ds, w = sg ++ [48; 120] ++ ds /\ (sg = [] \/ sg = [126]) /\ ds <> [] /\ Forall (digit HEX) ds
  | 10%nat => exists ds, w = [48; 119] ++ ds /\ ds <> [] /\ Forall (digit DEC) ds
  | 11%nat => exists ds, w = [48; 119; 120] ++ ds /\ ds <> [] /\ Forall (digit HEX) ds
  | _ => True
  end.
Definition number_re (i : nat) : re := match nth_error TokenN_rules i with Some (r, _) => r | None => Epsilon end.
Lemma pre_digits c w : matches [] (Sequence (one c) (plus (Characters digits))) w <-> exists ds, w = c :: ds /\ ds <> [] /\ Forall (digit DEC) ds.
Proof.
  rewrite seq_words. split.
  - intros (w1 & w2 & -> & H1 & H2). apply one_words in H1 as ->. apply plus_words in H2 as [H2 H3]. apply forall_digits in H3. exists w2. auto.
  - intros (ds & -> & H2 & H3). exists [c], ds. split; [auto|]. split; [now apply one_words|]. apply plus_words. split; [auto|]. now apply forall_digits.
Qed.
Lemma three_words a b c w : matches [] (Sequence (Sequence (one a) (one b)) (one c)) w <-> w = [a; b; c].
Proof.
  rewrite seq_words. split.
  - intros (w1 & w2 & -> & H1 & H2). apply two_words in H1 as ->. apply one_words in H2 as ->. reflexivity.
  - intros ->. exists [a; b], [c]. split; [auto|]. split; [now apply two_words|now apply one_words].
Qed.
Lemma number_words i w : (4 <= i <= 11)%nat -> (matches [] (number_re i) w <-> number_word i w).
Proof.
  intros Hi. assert (i = 4 \/ i = 5 \/ i = 6 \/ i = 7 \/ i = 8 \/ i = 9 \/ i = 10 \/ i = 11)%nat as H by lia. clear Hi.
  destruct H as [-> |[-> |[-> |[-> |[-> |[-> |[-> | -> ]]]]]]]; cbn [number_word].
  - apply (one_words [] 48).
  - change (number_re 5) with (Characters (char_class 49 57)). rewrite chars_words. setoid_rewrite in_char_class. reflexivity.
  - apply (pre_digits 48).
  - change (number_re 7) with (Sequence (Characters (char_class 49 57)) (plus (Characters digits))). rewrite seq_words. split.
    + intros (w1 & w2 & -> & H1 & H2). apply chars_words in H1 as (c & -> & H1). apply in_char_class in H1. apply plus_words in H2 as [H2 H3]. apply forall_digits in H3. exists c, w2. auto.
    + intros (c & ds & -> & H1 & H2 & H3). exists [c], ds. split; [auto|]. split; [apply chars_words; exists c; split; [auto|now apply in_char_class]|]. apply plus_words. split; [auto|]. now apply forall_digits.
  - apply (pre_digits 126).
  - change (number_re 9) with (Sequence (Sequence (maybe (one 126)) (Sequence (one 48) (one 120))) (plus (Characters hexdigits))). rewrite seq_words. split.
    + intros (w1 & w2 & -> & H1 & H2). apply seq_words in H1 as (w3 & w4 & -> & H3 & H4). apply two_words in H4 as ->.
      unfold maybe in H3. apply plus_words in H2 as [H2 H5]. apply forall_hexdigits in H5. exists w3, w2. split; [now rewrite <- app_assoc|]. split; [|auto].
      apply alt_words in H3. rewrite eps_words, one_words in H3. tauto.
    + intros (sg & ds & -> & H1 & H2 & H3). exists (sg ++ [48; 120]), ds. split; [now rewrite <- app_assoc|]. split.
      * apply seq_words. exists sg, [48; 120]. split; [auto|]. split; [|now apply two_words]. unfold maybe. apply alt_words. rewrite eps_words, one_words. tauto.
      * apply plus_words. split; [auto|]. now apply forall_hexdigits.
  - change (number_re 10) with (Sequence (Sequence (one 48) (one 119)) (plus (Characters digits))). rewrite seq_words. split.
    + intros (w1 & w2 & -> & H1 & H2). apply two_words in H1 as ->. apply plus_words in H2 as [H2 H3]. apply forall_digits in H3. exists w2. auto.
    + intros (ds & -> & H2 & H3). exists [48; 119], ds. split; [auto|]. split; [now apply two_words|]. apply plus_words. split; [auto|]. now apply forall_digits.
  - assert (E : exists r3, number_re 11 = Sequence r3 (plus (Characters hexdigits)) /\ forall w, matches [] r3 w <-> w = [48; 119; 120]).
    { exists (Sequence (one 48) (Sequence (one 119) (one 120))). split; [reflexivity|]. intros v. rewrite (seq_words [] (one 48)). split.
      - intros (w1 & w2 & -> & H1 & H2). apply (one_words [] 48) in H1 as ->. apply (two_words [] 119 120) in H2 as ->. reflexivity.
      - intros ->. exists [48], [119; 120]. split; [auto|]. split; [now apply one_words|now apply (two_words [] 119 120)]. }
    destruct E as (r3 & -> & E). rewrite seq_words. split.
    + intros (w1 & w2 & -> & H1 & H2). apply E in H1 as ->. apply plus_words in H2 as [H2 H3]. apply forall_hexdigits in H3. exists w2. auto.
    + intros (ds & -> & H2 & H3). exists [48; 119; 120], ds. split; [auto|]. split; [now apply E|]. apply plus_words. split; [auto|]. now apply forall_hexdigits.
Qed.

(** ** Steps *)
Definition number_charb (c : Z) : bool :=
  (48 <=? c) && (c <=? 57) || (65 <=? c) && (c <=? 70) || (97 <=? c) && (c <=? 102) || existsb (Z.eqb c) [119; 120; 46; 126].
Lemma number_charb_ok c : number_charb c = true -> number_char c.
Proof. unfold number_charb, number_char. cbn [existsb In]. intros H. repeat (apply orb_prop in H as [H|H]; try lia). Qed.
Definition number_starts : list Z := [48; 49; 50; 51; 52; 53; 54; 55; 56; 57; 126].
Lemma number_cands c j r : In c number_starts -> In (j, r) (cands 0 TokenN_rules c) ->
  (4 <= j <= 12)%nat /\ r = number_re j /\ forallb number_charb (concat (classes r)) = true.
Proof.
  assert (A : forallb (fun c => forallb (fun jr => (4 <=? fst jr)%nat && (fst jr <=? 12)%nat && forallb number_charb (concat (classes (snd jr))))
                (cands 0 TokenN_rules c)) number_starts = true) by (vm_compute; reflexivity).
  assert (B : forall k rules j r c, In (j, r) (cands k rules c) -> exists loc, (k <= j)%nat /\ nth_error rules (j - k) = Some (r, loc)).
  { intros k rules. revert k. induction rules as [|[r0 loc0] rules IH]; intros k j' r' c' H; [destruct H|]. cbn [cands] in H.
    apply in_app_iff in H as [H|H].
    - destruct (existsb _ _); [|destruct H]. destruct H as [E|[]]. injection E as -> ->. exists loc0. rewrite Nat.sub_diag. split; [lia|reflexivity].
    - destruct (IH _ _ _ _ H) as (loc & H1 & H2). exists loc. split; [lia|]. replace (j' - k)%nat with (S (j' - S k)) by lia. exact H2. }
  intros Hc H. rewrite forallb_forall in A. specialize (A c Hc). rewrite forallb_forall in A. specialize (A _ H). cbn [fst snd] in A.
  apply andb_prop in A as [A1 A2]. apply andb_prop in A1 as [A0 A1]. apply Nat.leb_le in A0, A1. split; [auto|]. split; [|exact A2].
  destruct (B _ _ _ _ _ H) as (loc & _ & E). rewrite Nat.sub_0_r in E. unfold number_re. now rewrite E.
Qed.
Lemma number_step s p i r l l' c0 t : nth_error TokenN_rules i = Some (r, Location l l') -> (4 <= i <= 11)%nat -> In c0 number_starts ->
  prefix s p (length (c0 :: t)) = c0 :: t -> number_word i (c0 :: t) ->
  (forall j, (4 <= j < i)%nat -> ~ number_word j (c0 :: t)) -> ~ number_char (s (p + zlen (c0 :: t))) ->
  step TokenN_rules s p l (length (c0 :: t)).
Proof.
  intros E Hi Hc EP M B L. apply (step_intro TokenN_rules s p i r l l' c0 t E EP).
  - apply number_words in M; [|exact Hi]. unfold number_re in M. now rewrite E in M.
  - intros j r' HI Hj M'. destruct (number_cands _ _ _ Hc HI) as (H1 & -> & _). apply number_words in M'; [|lia]. apply (B j); [lia|exact M'].
  - intros j r' c w HI Ec M'. destruct (number_cands _ _ _ Hc HI) as (_ & _ & H3). rewrite forallb_forall in H3.
    apply L. rewrite Ec. apply number_charb_ok, H3. apply alphabet_word in M'. rewrite Forall_forall in M'. apply M'.
    right. apply in_app_iff. right. left. reflexivity.
Qed.

Lemma digit_range c : digit DEC c <-> 48 <= c <= 57.
Proof. rewrite <- in_digits. apply in_char_class. Qed.
Lemma digit_start c : digit DEC c -> In c number_starts.
Proof. rewrite digit_range. unfold number_starts. intros H. cbn [In]. lia. Qed.

(** the line of an integer constant *)
Lemma int_step s p t v : int_constant t v -> prefix s p (length t) = t -> ~ number_char (s (p + zlen t)) ->
  exists l, step TokenN_rules s p l (length t) /\
    ((l = 242 /\ v = 0) \/
     (In l [243; 244; 248; 252] /\ (in_int v -> sml_int_of_string t = Ret (rep v)) /\ (~ in_int v -> sml_int_of_string t = Raise FailExn /\ l <> 243)) \/
     (l = 256 /\ (in_int v -> sml_int_of_hex t = Ret (rep v)) /\ (~ in_int v -> sml_int_of_hex t = Raise FailExn))).
Proof.
  intros H HS HC. destruct H as [sg sv ds Hm Hd HD|sg sv ds Hm Hd HD].
  - destruct (proj1 (C04_literals sg sv ds Hm) HD) as [L1 L2]. destruct Hm as [[-> ->]|[-> ->]]; cbn [app] in *.
    + destruct ds as [|c ds]; [congruence|]. inversion HD as [|x y Hc HD' E]; subst x y. pose proof (digit_start _ Hc) as St. apply digit_range in Hc.
      destruct (Z.eq_dec c 48) as [->|N].
      * destruct ds as [|c2 ds].
        -- exists 242. split; [|left; auto]. eapply (number_step s p 4); eauto; [reflexivity|lia|reflexivity|]. intros j Hj; lia.
        -- exists 244. split.
           ++ eapply (number_step s p 6); eauto; [reflexivity|lia| |].
              ** exists (c2 :: ds). split; [auto|]. split; [discriminate|auto].
              ** intros j Hj Hw. assert (j = 4 \/ j = 5)%nat as [-> | ->] by lia; [discriminate|]. now destruct Hw as (x & [=] & _).
           ++ right. left. split; [cbn; auto|]. split; [exact L1|]. intros N. split; [auto|discriminate].
      * destruct ds as [|c2 ds].
        -- exists 243. split.
           ++ eapply (number_step s p 5); eauto; [reflexivity|lia| |].
              ** exists c. split; [auto|lia].
              ** intros j Hj Hw. assert (j = 4)%nat as -> by lia. cbn in Hw. congruence.
           ++ right. left. split; [cbn; auto|]. split; [exact L1|]. intros NI. destruct NI. unfold value. cbn [fold_left base].
              unfold dval, digit_value. replace ((48 <=? c) && (c <=? 57)) with true by lia. unfold in_int, two62. lia.
        -- exists 248. split.
           ++ eapply (number_step s p 7); eauto; [reflexivity|lia| |].
              ** exists c, (c2 :: ds). split; [auto|]. split; [lia|]. split; [discriminate|auto].
              ** intros j Hj Hw. assert (j = 4 \/ j = 5 \/ j = 6)%nat as [-> |[-> | ->]] by lia; [discriminate| |].
                 --- now destruct Hw as (x & [=] & _).
                 --- destruct Hw as (x & [= X _] & _). congruence.
           ++ right. left. split; [cbn; auto|]. split; [exact L1|]. intros NI. split; [auto|discriminate].
    + exists 252. split.
      * eapply (number_step s p 8); eauto; [reflexivity|lia|cbn; tauto| |].
        -- exists ds. auto.
        -- intros j Hj Hw. assert (j = 4 \/ j = 5 \/ j = 6 \/ j = 7)%nat as [-> |[-> |[-> | ->]]] by lia; [discriminate| | |].
           ++ destruct Hw as (x & [= X _] & Hx). lia.
           ++ destruct Hw as (x & [=] & _).
           ++ destruct Hw as (x & y & [= X _] & Hx & _). lia.
      * right. left. split; [cbn; auto|]. split; [exact L1|]. intros NI. split; [auto|discriminate].
  - destruct (proj2 (C04_literals sg sv ds Hm) HD) as [L1 L2]. exists 256. split; [|right; right; auto].
    assert (W : number_word 9 (sg ++ [48; 120] ++ ds)) by (exists sg, ds; destruct Hm as [[-> _]|[-> _]]; auto).
    assert (NX : ~ digit DEC 120) by (rewrite digit_range; lia).
    destruct Hm as [[-> ->]|[-> ->]]; cbn [app] in *.
    + eapply (number_step s p 9); eauto; [reflexivity|lia|cbn; tauto|].
      intros j Hj Hw. assert (j = 4 \/ j = 5 \/ j = 6 \/ j = 7 \/ j = 8)%nat as [-> |[-> |[-> |[-> | ->]]]] by lia.
      * discriminate.
      * now destruct Hw as (x & [=] & _).
      * destruct Hw as (x & [= <-] & _ & Hx). inversion Hx; subst. auto.
      * destruct Hw as (x & y & [= <- <-] & Hx & _). lia.
      * destruct Hw as (x & [=] & _).
    + eapply (number_step s p 9); eauto; [reflexivity|lia|cbn; tauto|].
      intros j Hj Hw. assert (j = 4 \/ j = 5 \/ j = 6 \/ j = 7 \/ j = 8)%nat as [-> |[-> |[-> |[-> | ->]]]] by lia.
      * discriminate.
      * now destruct Hw as (x & [=] & _).
      * destruct Hw as (x & [=] & _).
      * destruct Hw as (x & y & [= <- <-] & Hx & _). lia.
      * destruct Hw as (x & [= <-] & _ & Hx). inversion Hx as [|? ? ? Hy]; subst. inversion Hy; subst. auto.
Qed.

Lemma word_step s p t v : word_constant t v -> prefix s p (length t) = t -> ~ number_char (s (p + zlen t)) ->
  (step TokenN_rules s p 260 (length t) /\ (word_range v -> sml_word_of_dec t = Ret (wrep v)) /\ (~ word_range v -> sml_word_of_dec t = Raise FailExn)) \/
  (step TokenN_rules s p 264 (length t) /\ (word_range v -> sml_word_of_hex t = Ret (wrep v)) /\ (~ word_range v -> sml_word_of_hex t = Raise FailExn)).
Proof.
  assert (NX : ~ digit DEC 120) by (rewrite digit_range; lia). assert (NW : ~ digit DEC 119) by (rewrite digit_range; lia).
  assert (EARLY : forall t j, (4 <= j < 10)%nat -> ~ number_word j (48 :: 119 :: t)).
  { intros u j Hj Hw. assert (j = 4 \/ j = 5 \/ j = 6 \/ j = 7 \/ j = 8 \/ j = 9)%nat as [-> |[-> |[-> |[-> |[-> | ->]]]]] by lia.
    - discriminate.
    - now destruct Hw as (x & [=] & _).
    - destruct Hw as (x & [= <-] & _ & Hx). inversion Hx; subst. auto.
    - destruct Hw as (x & y & [= <- <-] & Hx & _). lia.
    - destruct Hw as (x & [=] & _).
    - destruct Hw as (sg & y & E & [-> | ->] & _); discriminate. }
  intros H HS HC. destruct H as [ds Hd HD|ds Hd HD]; destruct (C05_literals ds) as [LD LH].
  - left. split; [|exact (LD HD)]. cbn [app] in *. eapply (number_step s p 10); [reflexivity|lia|cbn; tauto|exact HS| | |exact HC].
    + exists ds. auto.
    + intros j Hj. apply EARLY. lia.
  - right. split; [|exact (LH HD)]. cbn [app] in *. eapply (number_step s p 11); [reflexivity|lia|cbn; tauto|exact HS| | |exact HC].
    + exists ds. auto.
    + intros j Hj Hw. destruct (Nat.eq_dec j 10) as [->|N]; [|revert Hw; apply EARLY; lia].
      destruct Hw as (x & [= <-] & _ & Hx). inversion Hx; subst. auto.
Qed.

(** the integer a token stands for *)
Definition int_token (tok : token) : option Z :=
  match tok with ZDIGIT n | NZDIGIT n | ZPOSINT2 n | NZPOSINT2 n | NEGINT n => Some n | _ => None end.

Section Numbers.
  Variables (d : dfa) (src : list Z).
  Hypothesis (HG : generated d) (HB : is_bytes src).
  Notation s := (source src).

  Lemma TokenN_int t v p b : int_constant t v -> 0 <= p -> p + zlen t <= zlen src -> prefix s p (length t) = t ->
    ~ number_char (s (p + zlen t)) ->
    exists F, forall fuel, (F <= fuel)%nat ->
      (in_int v -> exists tok, int_token tok = Some (rep v) /\ TokenN d s fuel p b = Ret (Fine (tok, p, p + zlen t, b))) /\
      (~ in_int v -> TokenN d s fuel p b = Ret (Error TooLarge p (p + zlen t))).
  Proof.
    intros HI Hp HE HS HC. pose proof (zlen_nonneg t). destruct (int_step s p t v HI HS HC) as (l & ST & HL).
    destruct (token_known d src HG HB p l (length t) ltac:(lia) ST) as [F HF]. exists (S F). intros fuel Hf. destruct fuel as [|fuel]; [lia|].
    cbn [TokenN]. rewrite HF by lia. cbn [bind]. change (Z.of_nat (length t)) with (zlen t).
    replace (Z.to_nat (p + zlen t - p)) with (length t) by (unfold zlen; lia). rewrite HS.
    destruct HL as [(-> & ->)|[(HL & L1 & L2)|(-> & L1 & L2)]].
    - cbn [Z.eqb Pos.eqb]. split; [|intros N; destruct N; unfold in_int, two62; lia]. intros _. eexists. split; [|reflexivity]. reflexivity.
    - destruct HL as [<-|[<-|[<-|[<-|[]]]]]; cbn [Z.eqb Pos.eqb].
      + split; [|intros N; now destruct (L2 N)]. intros HV. rewrite (L1 HV). eexists. split; [|reflexivity]. reflexivity.
      + split; intros HV; [rewrite (L1 HV); eexists; split; [|reflexivity]; reflexivity|]. now rewrite (proj1 (L2 HV)).
      + split; intros HV; [rewrite (L1 HV); eexists; split; [|reflexivity]; reflexivity|]. now rewrite (proj1 (L2 HV)).
      + split; intros HV; [rewrite (L1 HV); eexists; split; [|reflexivity]; reflexivity|]. now rewrite (proj1 (L2 HV)).
    - cbn [Z.eqb Pos.eqb]. split; intros HV; [rewrite (L1 HV); eexists; split; [|reflexivity]; reflexivity|]. now rewrite (L2 HV).
  Qed.
  Lemma TokenN_word t v p b : word_constant t v -> 0 <= p -> p + zlen t <= zlen src -> prefix s p (length t) = t ->
    ~ number_char (s (p + zlen t)) ->
    exists F, forall fuel, (F <= fuel)%nat ->
      (word_range v -> TokenN d s fuel p b = Ret (Fine (WORD (wrep v), p, p + zlen t, b))) /\
      (~ word_range v -> TokenN d s fuel p b = Ret (Error TooLarge p (p + zlen t))).
  Proof.
    intros HI Hp HE HS HC. pose proof (zlen_nonneg t).
    destruct (word_step s p t v HI HS HC) as [(ST & L1 & L2)|(ST & L1 & L2)];
      destruct (token_known d src HG HB p _ (length t) ltac:(lia) ST) as [F HF]; exists (S F); intros fuel Hf; (destruct fuel as [|fuel]; [lia|]);
      cbn [TokenN]; rewrite HF by lia; cbn [bind]; change (Z.of_nat (length t)) with (zlen t);
      replace (Z.to_nat (p + zlen t - p)) with (length t) by (unfold zlen; lia); rewrite HS; cbn [Z.eqb Pos.eqb];
      (split; intros HV; [rewrite (L1 HV); reflexivity|rewrite (L2 HV); reflexivity]).
  Qed.

  Hypothesis HM : 2 * zlen src <= maxLen.

  Lemma constant_total o mk p q b : (exists n, o = Ret n) \/ o = Raise FailExn -> exists r, constant o mk p q b = Ret r.
  Proof. intros [[n ->]| ->]; cbn; eauto. Qed.

  Lemma TokenId_total p b : 0 <= p <= zlen src -> s p <> 0 -> exists F r, forall fuel, (F <= fuel)%nat -> TokenId d s fuel p b = Ret r.
  Proof.
    intros Hp N0. pose proof (source_bytes src HB p) as Hs.
    destruct (call_step d src HG HB "TokenId" TokenId_rules p in_tokenid Hp) as (l & n & F & _ & _ & H3).
    - exists 2%nat. eexists _, _, 1, []. split; [reflexivity|]. apply chars_words. exists 1. split; [auto|]. unfold all_chars. apply in_char_class. lia.
    - exists 2%nat, 1%nat. eexists _, _. split; [reflexivity|]. apply chars_words. exists (s p). split; [auto|]. unfold all_chars. apply in_char_class. lia.
    - exists F. unfold TokenId. destruct (l =? 314) eqn:E1; [|destruct (l =? 318) eqn:E2];
        (eexists; intros fuel Hf; rewrite H3 by lia; cbn [bind]; rewrite E1, ?E2; reflexivity).
  Qed.

  Lemma TokenN_total : forall p b, buffer_ok b -> 0 <= p <= zlen src ->
    exists F r, forall fuel, (F <= fuel)%nat -> TokenN d s fuel p b = Ret r.
  Proof.
    intros p. remember (Z.to_nat (zlen src - p)) as k eqn:Ek. revert p Ek.
    induction k as [k IH] using lt_wf_ind. intros p Ek b Hb Hp.
    destruct (token_call d src HG HB p Hp) as (l & n & F & HS & Hn & Hin & Hid & _ & HC).
    assert (GO : forall g, (forall fuel, (F <= fuel)%nat -> TokenN d s (S fuel) p b = g fuel) ->
               (exists F r, forall fuel, (F <= fuel)%nat -> g fuel = Ret r) -> exists F r, forall fuel, (F <= fuel)%nat -> TokenN d s fuel p b = Ret r).
    { intros g H1 (F2 & r & H2). exists (S (Nat.max F F2)), r. intros fuel Hf. destruct fuel as [|fuel]; [lia|]. rewrite H1, H2 by lia. reflexivity. }
    assert (RET : forall r : result (token * Z * Z * sbuf), exists F r0, forall fuel : nat, (F <= fuel)%nat -> Ret r = Ret r0) by (intros r; exists O, r; auto).
    assert (CON : forall o mk q, (exists m, o = Ret m) \/ o = Raise FailExn ->
               exists F r, forall fuel : nat, (F <= fuel)%nat -> constant o mk p q b = Ret r).
    { intros o mk q H. destruct (constant_total o mk p q b H) as [r E]. exists O, r. auto. }
    pose proof (step_line _ _ _ _ HS) as HL. unfold all_lines in HL.
    pose proof (zlen_nonneg src) as ZN.
    repeat (destruct HL as [<-|HL]; [
      eapply GO; [intros fuel Hf; cbn [TokenN]; rewrite HC by lia; cbn [bind Z.eqb Pos.eqb]; reflexivity|];
      try apply RET; try (apply CON; auto using int_of_string_total, int_of_hex_total, word_of_dec_total, word_of_hex_total)|]).
    - specialize (Hin ltac:(discriminate)). specialize (Hn ltac:(discriminate)). apply (IH (Z.to_nat (zlen src - (p + Z.of_nat n)))); auto; lia.
    - specialize (Hin ltac:(discriminate)). specialize (Hn ltac:(discriminate)).
      destruct (Comment_total d src HG HB p (p + Z.of_nat n) 1 ltac:(lia)) as (F1 & r & H1 & H2). destruct r as [q|m p1 p2].
      + destruct (IH (Z.to_nat (zlen src - q)) ltac:(lia) q eq_refl b Hb ltac:(lia)) as (F2 & r & H3).
        exists (Nat.max F1 F2), r. intros fuel Hf. rewrite H1 by lia. cbn [bind]. apply H3. lia.
      + exists F1, (Error m p1 p2). intros fuel Hf. rewrite H1 by lia. reflexivity.
    - pose proof (line_word _ _ _ _ _ HS eq_refl) as M. apply chars_words in M as (c & M & Hc). apply in_char_class in Hc.
      pose proof (word_prefix_length _ _ _ _ M) as ->. replace (Z.to_nat (p + Z.of_nat (length [c]) - p)) with 1%nat by (cbn [length]; lia). cbn [length] in M. rewrite M.
      destruct (proj1 (C04_literals [] 1 [c] ltac:(auto)) ltac:(constructor; [apply digit_range; lia|constructor])) as [L1 _].
      cbn [app] in L1. rewrite L1; [cbn [bind]; apply RET|]. unfold value. cbn [fold_left base].
      unfold dval, digit_value. replace ((48 <=? c) && (c <=? 57)) with true by lia. unfold in_int, two62. lia.
    - specialize (Hin ltac:(discriminate)). specialize (Hn ltac:(discriminate)).
      destruct (String_total d src HG HB HM p (p + Z.of_nat n) _ [] (reset_ok b Hb) ltac:(change (zlen (@nil Z)) with 0; lia) ltac:(lia)) as (F1 & r & H1).
      destruct r as [[q1 b1]|m p1 p2].
      + pose proof (H1 F1 (le_n _)) as HR. apply (String_returns d src HG HB HM p F1 _ _ []) in HR; [|now apply reset_ok|change (zlen (@nil Z)) with 0; lia|lia].
        destruct HR as (text & v & _ & _ & _ & _ & B5). cbn [app] in B5. destruct (get_ok _ _ B5) as (b2 & E4 & _).
        exists F1, (Fine (STRING v, p, q1, b2)). intros fuel Hf. unfold Token_Model.scanString. rewrite H1 by lia. cbn [bind]. rewrite E4. reflexivity.
      + exists F1, (Error m p1 p2). intros fuel Hf. unfold Token_Model.scanString. rewrite H1 by lia. reflexivity.
    - specialize (Hin ltac:(discriminate)). specialize (Hn ltac:(discriminate)).
      destruct (String_total d src HG HB HM p (p + Z.of_nat n) _ [] (reset_ok b Hb) ltac:(change (zlen (@nil Z)) with 0; lia) ltac:(lia)) as (F1 & r & H1).
      destruct r as [[q1 b1]|m p1 p2].
      + pose proof (H1 F1 (le_n _)) as HR. apply (String_returns d src HG HB HM p F1 _ _ []) in HR; [|now apply reset_ok|change (zlen (@nil Z)) with 0; lia|lia].
        destruct HR as (text & v & _ & _ & _ & _ & B5). cbn [app] in B5. destruct (get_ok _ _ B5) as (b2 & E4 & _).
        exists F1, (match v with [c] => Fine (CHAR c, p, q1, b2) | _ => Error IllFormedChar p q1 end). intros fuel Hf. unfold Token_Model.scanString.
        rewrite H1 by lia. cbn [bind]. rewrite E4. cbn [bind]. destruct v as [|c [|]]; reflexivity.
      + exists F1, (Error m p1 p2). intros fuel Hf. unfold Token_Model.scanString. rewrite H1 by lia. reflexivity.
    - destruct (Hid eq_refl) as [-> N0]. change (Z.of_nat 0) with 0. rewrite Z.add_0_r. now apply TokenId_total.
    - destruct HL.
  Qed.
End Numbers.
