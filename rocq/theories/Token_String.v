(** Proofs for C51: string constants. *)
From Coq Require Import String.
From Verif Require Import Base ArrayLib Lex_Model Lex_Spec Token_Model Token_Spec Token_Proofs.
Close Scope string_scope.
Open Scope list_scope.
Open Scope Z_scope.

Definition isdigit (c : Z) : Prop := 48 <= c <= 57.
Definition ishex (c : Z) : Prop := 48 <= c <= 57 \/ 97 <= c <= 102 \/ 65 <= c <= 70.
Lemma in_digits c : In c digits <-> isdigit c.
Proof. apply in_char_class. Qed.
Lemma in_hexdigits c : In c hexdigits <-> ishex c.
Proof. unfold hexdigits, ishex. rewrite !in_app_iff, !in_char_class. tauto. Qed.

(** the rules in plain words *)
Definition String_word (i : nat) (w : list Z) : Prop :=
  match i with
  | 0%nat => w = [34]
  | 1%nat => exists e, w = [92; e] /\ In e [92; 34; 97; 98; 116; 110; 118; 102; 114]
  | 2%nat => exists g, w = 92 :: g ++ [92] /\ g <> [] /\ Forall (fun c => In c gapchars) g
  | 3%nat => exists c, w = [92; 94; c] /\ 64 <= c <= 95
  | 4%nat => exists a b c, w = [92; a; b; c] /\ isdigit a /\ isdigit b /\ isdigit c
  | 5%nat => exists a b c e, w = [92; 117; a; b; c; e] /\ ishex a /\ ishex b /\ ishex c /\ ishex e
  | 6%nat => w = [92]
  | 7%nat => w = [0] \/ w = [26]
  | 8%nat => w = [10] \/ w = [13]
  | 9%nat => exists c, w = [c] /\ (1 <= c <= 26 \/ c = 127 \/ c = 255)
  | 10%nat => exists c, w = [c] /\ 1 <= c <= 255
  | _ => False
  end.

Lemma rule_word rules i w r l : nth_error rules i = Some (r, l) -> (rule_matches [] rules i w <-> matches [] r w).
Proof.
  intros H. unfold rule_matches. split.
  - intros (r' & l' & E & M). congruence.
  - intros M. eauto.
Qed.

Ltac words := repeat first [setoid_rewrite plus_words | setoid_rewrite seq_words | setoid_rewrite alt_words | setoid_rewrite one_words
  | setoid_rewrite chars_words | setoid_rewrite eps_words].

Lemma String_words i w : rule_matches [] String_rules i w <-> String_word i w.
Proof.
  destruct i as [|[|[|[|[|[|[|[|[|[|[|i]]]]]]]]]]]; (erewrite rule_word by reflexivity) || idtac; cbn [String_word].
  - apply one_words.
  - words. split.
    + intros (w1 & w2 & -> & -> & (c & -> & H)). exists c. auto.
    + intros (e & -> & H). exists [92], [e]. split; [auto|]. split; [auto|]. eauto.
  - words. split.
    + intros (w1 & w2 & -> & (w3 & w4 & -> & -> & H1 & H2) & ->). exists w4. split; [|auto]. cbn. reflexivity.
    + intros (g & -> & H). exists (92 :: g), [92]. split; [auto|]. split; [|auto]. exists [92], g. auto.
  - words. split.
    + intros (w1 & w2 & -> & (w3 & w4 & -> & -> & ->) & (c & -> & H)). exists c. split; [auto|]. now apply in_char_class.
    + intros (c & -> & H). exists [92; 94], [c]. split; [auto|]. split; [exists [92], [94]; auto|].
      exists c. split; [auto|]. now apply in_char_class.
  - words. split.
    + intros (w1 & w2 & -> & (w3 & w4 & -> & (w5 & w6 & -> & -> & (a & -> & Ha)) & (b & -> & Hb)) & (c & -> & Hc)).
      exists a, b, c. rewrite <- !in_digits. auto.
    + intros (a & b & c & -> & H). rewrite <- !in_digits in H. exists [92; a; b], [c]. split; [auto|].
      split; [|exists c; tauto]. exists [92; a], [b]. split; [auto|]. split; [|exists b; tauto].
      exists [92], [a]. split; [auto|]. split; [auto|]. exists a. tauto.
  - change (str _) with (Sequence (one 92) (one 117)). words. split.
    + intros (w1 & w2 & -> & (w3 & w4 & -> & (w5 & w6 & -> & (w7 & w8 & -> & (x & y & -> & -> & ->) & (a & -> & Ha)) & (b & -> & Hb)) & (c & -> & Hc)) & (e & -> & He)).
      exists a, b, c, e. rewrite <- !in_hexdigits. split; [reflexivity|auto].
    + intros (a & b & c & e & -> & H). rewrite <- !in_hexdigits in H.
      exists [92; 117; a; b; c], [e]. split; [auto|]. split; [|exists e; tauto].
      exists [92; 117; a; b], [c]. split; [auto|]. split; [|exists c; tauto].
      exists [92; 117; a], [b]. split; [auto|]. split; [|exists b; tauto].
      exists [92; 117], [a]. split; [auto|]. split; [|exists a; tauto]. exists [92], [117]. auto.
  - apply one_words.
  - unfold eof. words. tauto.
  - words. cbn [In]. split.
    + intros (c & -> & [<-|[<-|[]]]); auto.
    + intros [-> | ->]; [exists 10|exists 13]; auto.
  - words. setoid_rewrite in_app_iff. setoid_rewrite in_char_class. cbn [In]. split.
    + intros (c & -> & H). exists c. split; [auto|]. intuition lia.
    + intros (c & -> & H). exists c. split; [auto|]. intuition lia.
  - unfold any, all_chars. words. setoid_rewrite in_char_class. tauto.
  - split; [|tauto]. intros (r & l & E & _). destruct i; discriminate.
Qed.

(** every word has a character *)
Lemma String_word_length i w : String_word i w -> (1 <= length w)%nat.
Proof.
  destruct i as [|[|[|[|[|[|[|[|[|[|[|i]]]]]]]]]]]; cbn [String_word]; try tauto.
  - intros ->. auto.
  - intros (e & -> & _). cbn. lia.
  - intros (g & -> & _). cbn. lia.
  - intros (c & -> & _). cbn. lia.
  - intros (a & b & c & -> & _). cbn. lia.
  - intros (a & b & c & e & -> & _). cbn. lia.
  - intros ->. auto.
  - intros [-> | ->]; auto.
  - intros [-> | ->]; auto.
  - intros (c & -> & _). auto.
  - intros (c & -> & _). auto.
Qed.

(** words beginning with a character other than a backslash *)
Lemma String_word_plain i c w : c <> 92 -> String_word i (c :: w) -> w = [].
Proof.
  intros N. destruct i as [|[|[|[|[|[|[|[|[|[|[|i]]]]]]]]]]]; cbn [String_word]; try tauto.
  - congruence.
  - intros (e & E & _). congruence.
  - intros (g & E & _). congruence.
  - intros (x & E & _). congruence.
  - intros (a & b & x & E & _). congruence.
  - intros (a & b & x & e & E & _). congruence.
  - congruence.
  - intros [E|E]; congruence.
  - intros [E|E]; congruence.
  - intros (x & E & _). congruence.
  - intros (x & E & _). congruence.
Qed.
Lemma gapchars_not c : In c gapchars -> c = 32 \/ c = 9 \/ c = 10 \/ c = 13.
Proof. cbn. intuition. Qed.
(** words beginning with a backslash and another character, which tells the rule *)
Lemma String_word_escape i c w : String_word i (92 :: c :: w) ->
  (i = 1%nat /\ w = [] /\ In c [92; 34; 97; 98; 116; 110; 118; 102; 114]) \/
  (i = 2%nat /\ In c gapchars /\ exists g, w = g ++ [92] /\ Forall (fun c => In c gapchars) g) \/
  (i = 3%nat /\ c = 94 /\ exists x, w = [x]) \/
  (i = 4%nat /\ isdigit c /\ exists x y, w = [x; y]) \/
  (i = 5%nat /\ c = 117 /\ length w = 4%nat).
Proof.
  destruct i as [|[|[|[|[|[|[|[|[|[|[|i]]]]]]]]]]]; cbn [String_word]; try tauto.
  - discriminate.
  - intros (e & [= <- ->] & H). left. auto.
  - intros (g & E & N & F). right. left. destruct F as [|x g Hx F]; [congruence|]. cbn in E. injection E as -> ->.
    split; [auto|]. split; [auto|]. eauto.
  - intros (x & [= -> ->] & _). right. right. left. eauto.
  - intros (a & b & x & [= -> ->] & H & _). right. right. right. left. split; [auto|]. split; [auto|]. eauto.
  - intros (a & b & x & e & [= -> ->] & _). right. right. right. right. auto.
  - discriminate.
  - intros [H|H]; discriminate.
  - intros [H|H]; discriminate.
  - intros (x & [=] & _).
  - intros (x & [=] & _).
Qed.

(** ** Items are the words that are selected *)

(** the line of the rule of an item *)
Inductive item_line : list Z -> list Z -> Z -> Prop :=
| il_plain c : mosml_plain c -> item_line [c] [c] 395
| il_escape e c : In (e, c) escapes -> item_line [92; e] [c] 361
| il_gap f : f <> [] -> Forall mosml_formatting f -> item_line (92 :: f ++ [92]) [] 364
| il_control c : 64 <= c <= 95 -> item_line [92; 94; c] [c - 64] 366
| il_decimal x1 x2 x3 c1 c2 c3 : digit x1 c1 -> digit x2 c2 -> digit x3 c3 -> 100 * x1 + 10 * x2 + x3 <= 255 ->
    item_line [92; c1; c2; c3] [100 * x1 + 10 * x2 + x3] 370
| il_hexadecimal x1 x2 x3 x4 c1 c2 c3 c4 : hexdigit x1 c1 -> hexdigit x2 c2 -> hexdigit x3 c3 -> hexdigit x4 c4 ->
    4096 * x1 + 256 * x2 + 16 * x3 + x4 <= 255 ->
    item_line [92; 117; c1; c2; c3; c4] [4096 * x1 + 256 * x2 + 16 * x3 + x4] 378.
Lemma item_has_line t v : item mosml_plain mosml_formatting t v -> exists l, item_line t v l.
Proof. intros H. destruct H; eexists; econstructor; eassumption. Qed.

Lemma prefix_cons s p n : prefix s p (S n) = s p :: prefix s (p + 1) n.
Proof. reflexivity. Qed.
Lemma prefix_longer s p t n : prefix s p (length t) = t -> (length t < n)%nat ->
  exists c w, prefix s p n = t ++ c :: w.
Proof.
  intros E L. exists (s (p + Z.of_nat (length t))), (prefix s (p + Z.of_nat (length t) + 1) (n - length t - 1)).
  replace n with (length t + S (n - length t - 1))%nat at 1 by lia. rewrite prefix_app, E. reflexivity.
Qed.

Lemma select_intro s p i t : prefix s p (length t) = t -> String_word i t ->
  (forall j, (j < i)%nat -> ~ String_word j t) ->
  (forall j c w, ~ String_word j (t ++ c :: w)) ->
  selects [] String_rules s p i (length t).
Proof.
  intros E M B L. split; [|split].
  - rewrite E. now apply String_words.
  - intros j Hj. rewrite E, String_words. auto.
  - intros j n' Hn. destruct (prefix_longer _ _ _ _ E Hn) as (c & w & ->). rewrite String_words. apply L.
Qed.

Lemma item_selected s p t v l : prefix s p (length t) = t -> item_line t v l -> step String_rules s p l (length t).
Proof.
  intros E H. destruct H as [c H|e c H|f N F|c H|x1 x2 x3 c1 c2 c3 H1 H2 H3 HV|x1 x2 x3 x4 c1 c2 c3 c4 H1 H2 H3 H4 HV].
  - exists 10%nat. eexists _, _. split; [reflexivity|]. unfold mosml_plain in H. apply select_intro; [exact E| | |].
    + exists c. split; [auto|lia].
    + intros j Hj. destruct j as [|[|[|[|[|[|[|[|[|[|j]]]]]]]]]]; cbn [String_word]; try lia.
      * intros [= X]. lia.
      * intros (? & [=] & _).
      * intros ([|? ?] & [=] & _).
      * intros (? & [=] & _).
      * intros (? & ? & ? & [=] & _).
      * intros (? & ? & ? & ? & [=] & _).
      * intros [= X]. lia.
      * intros [[= X]|[= X]]; lia.
      * intros [[= X]|[= X]]; lia.
      * intros (x & [= <-] & X). lia.
    + intros j c' w Hw. cbn [app] in Hw. apply String_word_plain in Hw; [discriminate|lia].
  - exists 1%nat. eexists _, _. split; [reflexivity|].
    assert (Hin : In e [92; 34; 97; 98; 116; 110; 118; 102; 114]).
    { cbn in H. repeat (destruct H as [[= <- <-]|H]; [cbn; tauto|]). destruct H. }
    apply select_intro; [exact E| | |].
    + exists e. auto.
    + intros j Hj. assert (j = 0%nat) as -> by lia. cbn. discriminate.
    + intros j c' w Hw. cbn [app] in Hw. apply String_word_escape in Hw.
      assert (K : ~ In e gapchars /\ e <> 94 /\ ~ isdigit e /\ e <> 117).
      { unfold isdigit. cbn in Hin. cbn. lia. }
      destruct Hw as [(_ & X & _)|[(_ & X & _)|[(_ & X & _)|[(_ & X & _)|(_ & X & _)]]]]; try tauto; discriminate.
  - exists 2%nat. eexists _, _. split; [reflexivity|].
    assert (F' : Forall (fun c => In c gapchars) f) by exact F.
    apply select_intro; [exact E| | |].
    + exists f. auto.
    + intros j Hj. destruct F' as [|x f Hx F']; [congruence|]. destruct j as [|[|j]]; [cbn; discriminate| |lia].
      intros (e & [= X Y] & _). now destruct f.
    + intros j c' w Hw. destruct F' as [|x f Hx F']; [congruence|]. cbn [app] in Hw. apply String_word_escape in Hw.
      assert (Kx : x = 32 \/ x = 9 \/ x = 10 \/ x = 13) by now apply gapchars_not.
      unfold isdigit in Hw. destruct Hw as [(_ & X & _)|[(_ & _ & g & X & G)|[(_ & X & _)|[(_ & X & _)|(_ & X & _)]]]]; try lia.
      * now destruct f.
      * rewrite <- app_assoc in X. cbn [app] in X. clear -X G F'.
        revert f F' X. induction G as [|y g Hy G IH]; intros f F' X.
        -- destruct f as [|? f]; cbn in X; [discriminate|]. injection X as _ X. now destruct f.
        -- destruct F' as [|z f Hz F']; cbn in X; injection X as X1 X2.
           ++ subst y. apply gapchars_not in Hy. lia.
           ++ eapply IH; eassumption.
  - exists 3%nat. eexists _, _. split; [reflexivity|]. apply select_intro; [exact E| | |].
    + exists c. auto.
    + intros j Hj Hw. apply String_word_escape in Hw.
      destruct Hw as [(_ & X & _)|[(_ & X & _)|[(X & _)|[(X & _)|(X & _)]]]]; try lia; [discriminate|]. cbn in X. lia.
    + intros j c' w Hw. cbn [app] in Hw. apply String_word_escape in Hw. unfold isdigit in Hw.
      destruct Hw as [(_ & X & _)|[(_ & X & _)|[(_ & _ & x & X)|[(_ & X & _)|(_ & X & _)]]]]; try lia; try discriminate. cbn in X. lia.
  - exists 4%nat. eexists _, _. split; [reflexivity|]. unfold digit in *.
    assert (D1 : isdigit c1) by (unfold isdigit; lia). apply select_intro; [exact E| | |].
    + exists c1, c2, c3. unfold isdigit. repeat split; lia.
    + intros j Hj Hw. unfold isdigit in *. apply String_word_escape in Hw.
      destruct Hw as [(_ & X & _)|[(_ & X & _)|[(_ & X & _)|[(X & _)|(X & _)]]]]; try lia; try discriminate. cbn in X. lia.
    + intros j c' w Hw. unfold isdigit in *. cbn [app] in Hw. apply String_word_escape in Hw.
      destruct Hw as [(_ & X & _)|[(_ & X & _)|[(_ & X & _)|[(_ & _ & x & y & X)|(_ & X & _)]]]]; try lia; try discriminate. cbn in X. lia.
  - exists 5%nat. eexists _, _. split; [reflexivity|]. unfold hexdigit, digit in *. apply select_intro; [exact E| | |].
    + exists c1, c2, c3, c4. unfold ishex. repeat split; lia.
    + intros j Hj Hw. unfold isdigit in *. apply String_word_escape in Hw. unfold isdigit in Hw.
      destruct Hw as [(_ & X & _)|[(_ & X & _)|[(_ & X & _)|[(_ & X & _)|(X & _)]]]]; try lia; try discriminate. cbn in X. lia.
    + intros j c' w Hw. cbn [app] in Hw. apply String_word_escape in Hw. unfold isdigit in Hw.
      destruct Hw as [(_ & X & _)|[(_ & X & _)|[(_ & X & _)|[(_ & X & _)|(_ & X & Y)]]]]; try lia; try discriminate. cbn in X. lia.
Qed.

(** ** The string buffer *)
Definition buffer_ok (b : sbuf) : Prop := zlen (initial b) = 256.
Definition holds (b : sbuf) (v : list Z) : Prop :=
  buffer_ok b /\ 256 <= zlen (string_buff b) /\ index b = zlen v /\ exists rest, string_buff b = v ++ rest.

Lemma zset_app (v rest : list Z) x c : zset (v ++ x :: rest) (zlen v) c = Some (v ++ c :: rest).
Proof.
  unfold zset. rewrite zlen_app, zlen_cons. pose proof (zlen_nonneg v). pose proof (zlen_nonneg rest).
  replace ((zlen v <? 0) || (zlen v + (1 + zlen rest) <=? zlen v)) with false by lia. f_equal.
  unfold zlen. rewrite Nat2Z.id. induction v as [|y v IH]; cbn; [auto|]. f_equal. apply IH; apply zlen_nonneg.
Qed.

Lemma buff_some x a i : string_buff (mkSbuf x (Some a) i) = a.
Proof. reflexivity. Qed.
Lemma store_ok b v c : holds b v -> 2 * zlen v <= maxLen ->
  exists b', store_string_char c b = Ret b' /\ holds b' (v ++ [c]).
Proof.
  intros (H1 & H2 & H3 & rest & H4) HL. unfold store_string_char. rewrite H3.
  pose proof (zlen_nonneg v) as Hv. pose proof (zlen_nonneg rest) as Hr.
  assert (LB : zlen (string_buff b) = zlen v + zlen rest) by (rewrite H4; apply zlen_app).
  destruct (zlen v >=? zlen (string_buff b)) eqn:E.
  - destruct rest as [|x rest]; [|rewrite zlen_cons in *; pose proof (zlen_nonneg rest); lia]. rewrite app_nil_r in H4.
    assert (L0 : zlen (string_buff b) = zlen v) by now rewrite H4. rewrite L0.
    unfold array. replace (zlen v * 2 >? maxLen) with false by lia. cbn [bind].
    unfold copy. rewrite zlen_repeat, L0. replace (zlen v >? Z.of_nat (Z.to_nat (zlen v * 2))) with false by lia. cbn [bind].
    rewrite buff_some. cbn [index].
    assert (EX : exists y r, string_buff b ++ skipn (length (string_buff b)) (repeat 0 (Z.to_nat (zlen v * 2))) = v ++ y :: r /\ zlen r = zlen v - 1).
    { rewrite H4. assert (LS : length (skipn (length v) (repeat 0 (Z.to_nat (zlen v * 2)))) = length v).
      { rewrite skipn_length, repeat_length. unfold zlen. lia. }
      destruct (skipn (length v) (repeat 0 (Z.to_nat (zlen v * 2)))) as [|y r]; [unfold zlen in *; cbn in LS; lia|].
      exists y, r. split; [auto|]. unfold zlen. cbn [length] in LS. lia. }
    destruct EX as (y & r & EX & LX). unfold update. rewrite EX.
    rewrite zset_app. cbn [bind]. unfold set_contents. cbn [current initial].
    eexists. split; [reflexivity|]. unfold holds, buffer_ok, string_buff. cbn [initial current index]. split; [exact H1|].
    rewrite !zlen_app, zlen_cons. split; [lia|]. split; [change (zlen [c]) with 1; lia|]. exists r. now rewrite <- app_assoc.
  - destruct rest as [|x rest]; [change (zlen (@nil Z)) with 0 in LB; lia|].
    cbn [bind]. rewrite H3. unfold update. rewrite H4, zset_app. cbn [bind]. eexists. split; [reflexivity|].
    rewrite zlen_cons in LB. unfold set_contents. destruct (current b) as [a|] eqn:EC;
      unfold holds, buffer_ok, string_buff; cbn [initial current index]; unfold string_buff in *; rewrite EC in *; unfold buffer_ok in *.
    + split; [exact H1|]. rewrite !zlen_app, zlen_cons. split; [lia|]. split; [change (zlen [c]) with 1; lia|].
      exists rest. now rewrite <- app_assoc.
    + split; [rewrite zlen_app, zlen_cons; lia|]. rewrite !zlen_app, zlen_cons. split; [lia|].
      split; [change (zlen [c]) with 1; lia|]. exists rest. now rewrite <- app_assoc.
Qed.

Lemma reset_ok b : buffer_ok b -> holds (reset_string_buffer b) [].
Proof.
  intros H. unfold buffer_ok in H. split; [exact H|]. cbn. split; [unfold string_buff; cbn; lia|]. split; [reflexivity|]. eauto.
Qed.
Lemma get_ok b v : holds b v -> exists b', get_stored_string b = Ret (v, b') /\ buffer_ok b'.
Proof.
  intros (H1 & H2 & H3 & rest & H4). unfold get_stored_string. rewrite H3, H4, zlen_app. pose proof (zlen_nonneg rest).
  replace (zlen v >? zlen v + zlen rest) with false by lia. exists (mkSbuf (initial b) None (zlen v)). split; [|exact H1].
  do 2 f_equal. unfold zlen. rewrite Nat2Z.id, firstn_app, firstn_all, Nat.sub_diag. cbn [firstn]. now rewrite app_nil_r.
Qed.

(** ** The actions *)
Definition store_all (v : list Z) (b : sbuf) : outcome sbuf :=
  match v with [] => Ret b | c :: _ => store_string_char c b end.
Lemma item_line_length t v l : item_line t v l -> (length v <= 1 <= length t)%nat.
Proof. destruct 1; cbn; lia. Qed.
Lemma store_all_ok t v l b v0 : item_line t v l -> holds b v0 -> 2 * zlen v0 <= maxLen ->
  exists b', store_all v b = Ret b' /\ holds b' (v0 ++ v).
Proof.
  intros H HB HL. apply item_line_length in H. destruct v as [|c [|]]; cbn in H; [|now apply store_ok|lia].
  exists b. split; [reflexivity|]. now rewrite app_nil_r.
Qed.

Lemma prefix_at s p t i c : prefix s p (length t) = t -> nth_error t i = Some c -> s (p + Z.of_nat i) = c.
Proof.
  intros E N. assert (L : (i < length t)%nat) by (apply nth_error_Some; congruence).
  rewrite <- E in N. rewrite prefix_nth in N by exact L. congruence.
Qed.
Lemma hexval_ok x c : hexdigit x c -> hexval c = x.
Proof.
  unfold hexdigit, digit, hexval. intros [[H ->]|[H [-> | ->]]].
  - replace ((48 <=? 48 + x) && (48 + x <=? 57)) with true by lia. lia.
  - replace ((48 <=? 97 + (x - 10)) && (97 + (x - 10) <=? 57)) with false by lia.
    replace (97 + (x - 10) - 55) with (x + 1 * 32) by lia. rewrite Z.mod_add, Z.mod_small by lia. reflexivity.
  - replace ((48 <=? 65 + (x - 10)) && (65 + (x - 10) <=? 57)) with false by lia.
    rewrite Z.mod_small by lia. lia.
Qed.
Lemma ishex_digit c : ishex c -> exists x, 0 <= x <= 15 /\ hexdigit x c.
Proof.
  unfold ishex, hexdigit, digit. intros [H|[H|H]]; [exists (c - 48)|exists (c - 87)|exists (c - 55)]; lia.
Qed.
Lemma hex_range x c : hexdigit x c -> 0 <= x <= 15.
Proof. unfold hexdigit, digit. lia. Qed.

Lemma item_effect d s t v l saved p b fuel q : prefix s p (length t) = t -> item_line t v l ->
  call fuel d s "String" p = Ret (l, q) ->
  String d s (S fuel) saved p b = do b1 <- store_all v b; String d s fuel saved q b1.
Proof.
  intros E H HC. cbn [String]. rewrite HC. cbn [bind].
  destruct H as [c H|e c H|f N F|c H|x1 x2 x3 c1 c2 c3 H1 H2 H3 HV|x1 x2 x3 x4 c1 c2 c3 c4 H1 H2 H3 H4 HV];
    cbn [Z.eqb Pos.eqb].
  - cbn in E. injection E as E. rewrite E. reflexivity.
  - rewrite (prefix_at s p _ 1 e E eq_refl : s (p + 1) = e). cbn [store_all].
    replace (char_for_backslash e) with c; [reflexivity|].
    cbn in H. repeat (destruct H as [[= <- <-]|H]; [reflexivity|]). destruct H.
  - reflexivity.
  - rewrite (prefix_at s p _ 2 c E eq_refl : s (p + 2) = c). unfold chr.
    replace ((0 <=? c - 64) && (c - 64 <=? 255)) with true by lia. reflexivity.
  - assert (V : charCodeOfDecimal s p 1 = 100 * x1 + 10 * x2 + x3).
    { unfold charCodeOfDecimal. rewrite (prefix_at s p _ 1 c1 E eq_refl : s (p + 1) = c1).
      change (1 + 1) with 2. change (1 + 2) with 3.
      rewrite (prefix_at s p _ 2 c2 E eq_refl : s (p + 2) = c2), (prefix_at s p _ 3 c3 E eq_refl : s (p + 3) = c3).
      unfold digit in *. lia. }
    rewrite V. unfold digit in *. replace (100 * x1 + 10 * x2 + x3 >=? 256) with false by lia.
    unfold chr. replace ((0 <=? 100 * x1 + 10 * x2 + x3) && (100 * x1 + 10 * x2 + x3 <=? 255)) with true by lia. reflexivity.
  - assert (V : charCodeOfHexadecimal s p 1 = 4096 * x1 + 256 * x2 + 16 * x3 + x4).
    { unfold charCodeOfHexadecimal. change (1 + 1) with 2. change (1 + 2) with 3. change (1 + 3) with 4. change (1 + 4) with 5.
      rewrite (prefix_at s p _ 2 c1 E eq_refl : s (p + 2) = c1), (prefix_at s p _ 3 c2 E eq_refl : s (p + 3) = c2),
        (prefix_at s p _ 4 c3 E eq_refl : s (p + 4) = c3), (prefix_at s p _ 5 c4 E eq_refl : s (p + 5) = c4).
      rewrite (hexval_ok _ _ H1), (hexval_ok _ _ H2), (hexval_ok _ _ H3), (hexval_ok _ _ H4). reflexivity. }
    rewrite V. apply hex_range in H1, H2, H3, H4. replace (4096 * x1 + 256 * x2 + 16 * x3 + x4 >=? 256) with false by lia.
    unfold chr. replace ((0 <=? 4096 * x1 + 256 * x2 + 16 * x3 + x4) && (4096 * x1 + 256 * x2 + 16 * x3 + x4 <=? 255)) with true by lia.
    reflexivity.
Qed.

(** ** What a step of String is *)
Definition String_line (i : nat) : Z := nth i [359; 361; 364; 366; 370; 378; 387; 389; 391; 393; 395] 0.
Lemma String_step_word s p l n : step String_rules s p l n ->
  exists i, (i <= 10)%nat /\ l = String_line i /\ String_word i (prefix s p n) /\
    forall j, (j < i)%nat -> ~ String_word j (prefix s p n).
Proof.
  intros (i & r & l' & E & M & B & _). exists i.
  assert (Hi : (i < 11)%nat) by (change 11%nat with (length String_rules); apply nth_error_Some; congruence).
  split; [lia|]. split.
  - unfold String_line. do 11 (destruct i as [|i]; [cbv [nth_error String_rules at_line] in E; injection E as _ <- _; reflexivity|]). lia.
  - split; [now apply String_words|]. intros j Hj. rewrite <- String_words. auto.
Qed.
Lemma String_step_pos s p l n : step String_rules s p l n -> (1 <= n)%nat.
Proof.
  intros H. apply String_step_word in H as (i & _ & _ & H & _). apply String_word_length in H.
  now rewrite prefix_length in H.
Qed.

Definition is_error_line (l : Z) : Prop := l = 387 \/ l = 389 \/ l = 391 \/ l = 393.
Lemma String_step_cases s p l n : 0 <= s p < 256 -> step String_rules s p l n ->
  (l = 359 /\ prefix s p n = [34]) \/
  (exists v, item_line (prefix s p n) v l) \/
  (l = 370 /\ charCodeOfDecimal s p 1 >= 256) \/ (l = 378 /\ charCodeOfHexadecimal s p 1 >= 256) \/
  is_error_line l.
Proof.
  intros HS H. pose proof (String_step_pos _ _ _ _ H) as Hn. apply String_step_word in H as (i & Hi & -> & M & B).
  unfold is_error_line.
  assert (ER : forall t, prefix s p n = t -> prefix s p (length t) = t).
  { intros t <-. now rewrite prefix_length. }
  destruct i as [|[|[|[|[|[|[|[|[|[|[|i]]]]]]]]]]]; cbn [String_line nth]; try lia; cbn [String_word] in M.
  - left. auto.
  - right. left. destruct M as (e & -> & H).
    assert (X : exists c, In (e, c) escapes).
    { cbn in H. repeat (destruct H as [<-|H]; [eexists; cbn; intuition reflexivity|]). destruct H. }
    destruct X as [c X]. exists [c]. now constructor.
  - right. left. destruct M as (g & -> & N & F). exists []. constructor; auto.
  - right. left. destruct M as (c & -> & H). exists [c - 64]. now constructor.
  - destruct M as (a & b & c & E & Ha & Hb & Hc). specialize (ER _ E).
    assert (V : charCodeOfDecimal s p 1 = 100 * (a - 48) + 10 * (b - 48) + (c - 48)).
    { unfold charCodeOfDecimal. rewrite (prefix_at s p _ 1 a ER eq_refl : s (p + 1) = a).
      change (1 + 1) with 2. change (1 + 2) with 3.
      now rewrite (prefix_at s p _ 2 b ER eq_refl : s (p + 2) = b), (prefix_at s p _ 3 c ER eq_refl : s (p + 3) = c). }
    rewrite V, E. unfold isdigit in *. destruct (Z_lt_dec 255 (100 * (a - 48) + 10 * (b - 48) + (c - 48))) as [G|G].
    + right. right. left. lia.
    + right. left. exists [100 * (a - 48) + 10 * (b - 48) + (c - 48)]. constructor; unfold digit; lia.
  - destruct M as (a & b & c & e & E & Ha & Hb & Hc & He). specialize (ER _ E).
    destruct (ishex_digit _ Ha) as (x1 & _ & H1), (ishex_digit _ Hb) as (x2 & _ & H2),
             (ishex_digit _ Hc) as (x3 & _ & H3), (ishex_digit _ He) as (x4 & _ & H4).
    assert (V : charCodeOfHexadecimal s p 1 = 4096 * x1 + 256 * x2 + 16 * x3 + x4).
    { unfold charCodeOfHexadecimal. change (1 + 1) with 2. change (1 + 2) with 3. change (1 + 3) with 4. change (1 + 4) with 5.
      rewrite (prefix_at s p _ 2 a ER eq_refl : s (p + 2) = a), (prefix_at s p _ 3 b ER eq_refl : s (p + 3) = b),
        (prefix_at s p _ 4 c ER eq_refl : s (p + 4) = c), (prefix_at s p _ 5 e ER eq_refl : s (p + 5) = e).
      rewrite (hexval_ok _ _ H1), (hexval_ok _ _ H2), (hexval_ok _ _ H3), (hexval_ok _ _ H4). reflexivity. }
    rewrite V, E. destruct (Z_lt_dec 255 (4096 * x1 + 256 * x2 + 16 * x3 + x4)) as [G|G].
    + right. right. right. left. lia.
    + right. left. eexists. econstructor; try eassumption. lia.
  - right. left. destruct M as (c & E & H). rewrite E. exists [c]. constructor.
    assert (NB : forall j, (j < 10)%nat -> ~ String_word j [c]) by (intros j Hj; rewrite <- E; now apply B).
    unfold mosml_plain.
    assert (c <> 34) by (intros ->; apply (NB 0%nat); [lia|reflexivity]).
    assert (c <> 92) by (intros ->; apply (NB 6%nat); [lia|reflexivity]).
    assert (~ (1 <= c <= 26 \/ c = 127 \/ c = 255)) by (intros X; apply (NB 9%nat); [lia|]; cbn; eauto). lia.
Qed.

(** a word that goes on after the end of the source is the end of the source *)
Lemma step_inside src p l n : 0 <= p <= zlen src -> step String_rules (source src) p l n -> l <> 389 -> p + Z.of_nat n <= zlen src.
Proof.
  intros Hp H Hl. pose proof (String_step_pos _ _ _ _ H) as Hn. apply String_step_word in H as (i & Hi & E & M & _).
  destruct (Z_le_dec (p + Z.of_nat n) (zlen src)) as [|G]; [auto|]. exfalso.
  assert (Z0 : In 0 (prefix (source src) p n)).
  { apply prefix_in. exists (zlen src). split; [lia|]. unfold source, zlen. apply nth_overflow. lia. }
  destruct i as [|[|[|[|[|[|[|[|[|[|[|i]]]]]]]]]]]; cbn [String_word] in M; try lia.
  - rewrite M in Z0. cbn in Z0. lia.
  - destruct M as (e & M & H). rewrite M in Z0. cbn in Z0, H. lia.
  - destruct M as (g & M & _ & F). rewrite M in Z0. cbn [In] in Z0. rewrite in_app_iff in Z0. cbn [In] in Z0.
    destruct Z0 as [|[Z0|[|[]]]]; try lia. rewrite Forall_forall in F. apply F, gapchars_not in Z0. lia.
  - destruct M as (c & M & H). rewrite M in Z0. cbn in Z0. lia.
  - destruct M as (a & b & c & M & H). unfold isdigit in H. rewrite M in Z0. cbn in Z0. lia.
  - destruct M as (a & b & c & e & M & H). unfold ishex in H. rewrite M in Z0. cbn in Z0. lia.
  - rewrite M in Z0. cbn in Z0. lia.
  - unfold String_line in E. cbn in E. lia.
  - destruct M as [M|M]; rewrite M in Z0; cbn in Z0; lia.
  - destruct M as (c & M & H). rewrite M in Z0. cbn in Z0. lia.
  - destruct M as (c & M & H). rewrite M in Z0. cbn in Z0. lia.
Qed.
