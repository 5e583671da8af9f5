(** Proofs for C51: the tokens. *)
From Coq Require Import String.
From Verif Require Import Base ArrayLib Lex_Model Lex_Spec Token_Model Token_Spec Token_Proofs Token_String Token_Scan Token_Comment.
Close Scope string_scope.
Open Scope list_scope.
Open Scope Z_scope.

(** ** First characters and alphabets of rules *)
Fixpoint re_first (r : re) : list Z :=
  match r with
  | Epsilon => []
  | Characters cl => cl
  | Sequence a b => re_first a ++ (if re_nullable a then re_first b else [])
  | Alternative a b => re_first a ++ re_first b
  | Repetition a => re_first a
  | Name _ => []
  end.
Lemma first_word r w : matches [] r w -> forall c w', w = c :: w' -> In c (re_first r).
Proof.
  intros H. remember (@nil (name * re)) as ds eqn:ED. induction H; intros c' w' E; cbn [re_first]; subst; try discriminate.
  - now injection E as -> _.
  - apply in_app_iff. destruct w1 as [|x w1].
    + right. rewrite (nullable_word _ _ _ H eq_refl). eauto.
    + left. cbn [app] in E. injection E as -> _. eauto.
  - apply in_app_iff. left. eauto.
  - apply in_app_iff. right. eauto.
  - destruct w1 as [|x w1]; [eauto|]. cbn [app] in E. injection E as -> _. eauto.
  - now destruct ds1.
Qed.
Lemma alphabet_word r w : matches [] r w -> Forall (fun c => In c (concat (classes r))) w.
Proof.
  intros H. remember (@nil (name * re)) as ds eqn:ED.
  assert (MONO : forall (l1 l2 : list (list Z)) w, (forall x, In x l1 -> In x l2) -> Forall (fun c => In c (concat l1)) w -> Forall (fun c => In c (concat l2)) w).
  { intros l1 l2 v HI. apply Forall_impl. intros c Hc. apply in_concat in Hc as (x & Hx & Hc). apply in_concat. exists x. auto. }
  induction H; subst; cbn [classes]; auto.
  - constructor; [|constructor]. cbn. now rewrite app_nil_r.
  - apply Forall_app. split; (eapply MONO; [|eauto]); intros x Hx; apply in_app_iff; auto.
  - eapply MONO; [|eauto]. intros x Hx; apply in_app_iff; auto.
  - eapply MONO; [|eauto]. intros x Hx; apply in_app_iff; auto.
  - apply Forall_app. split; eauto.
  - now destruct ds1.
Qed.

(** the rules that can begin with a character *)
Fixpoint cands (k : nat) (rules : casedef) (c : Z) : list (nat * re) :=
  match rules with
  | [] => []
  | (r, _) :: rest => (if existsb (Z.eqb c) (re_first r) then [(k, r)] else []) ++ cands (S k) rest c
  end.
Lemma cands_in rules c : forall k j r loc, nth_error rules j = Some (r, loc) -> In c (re_first r) -> In ((k + j)%nat, r) (cands k rules c).
Proof.
  induction rules as [|[r0 loc0] rules IH]; intros k j r loc E H; [now destruct j|]. cbn [cands]. apply in_app_iff.
  destruct j as [|j]; cbn [nth_error] in E.
  - injection E as -> ->. left. replace (existsb (Z.eqb c) (re_first r)) with true; [left; f_equal; lia|].
    symmetry. apply existsb_exists. exists c. split; [auto|lia].
  - right. replace (k + S j)%nat with (S k + j)%nat by lia. eauto.
Qed.

Lemma step_intro rules s p i r l l' c0 t : nth_error rules i = Some (r, Location l l') ->
  prefix s p (length (c0 :: t)) = c0 :: t -> matches [] r (c0 :: t) ->
  (forall j r', In (j, r') (cands 0 rules c0) -> (j < i)%nat -> ~ matches [] r' (c0 :: t)) ->
  (forall j r' c w, In (j, r') (cands 0 rules c0) -> s (p + zlen (c0 :: t)) = c -> ~ matches [] r' (c0 :: t ++ c :: w)) ->
  step rules s p l (length (c0 :: t)).
Proof.
  intros E EP M B L. exists i, r, l'. split; [exact E|]. split; [|split].
  - rewrite EP. exists r, (Location l l'). auto.
  - intros j Hj (r' & loc & E' & M'). rewrite EP in M'.
    exact (B j r' (cands_in _ _ 0 _ _ _ E' (first_word _ _ M' _ _ eq_refl)) Hj M').
  - intros j n' Hn (r' & loc & E' & M'). destruct (prefix_longer _ _ _ _ EP Hn) as (c & w & EW). rewrite EW in M'. cbn [app] in M'.
    apply (L j r' c w (cands_in _ _ 0 _ _ _ E' (first_word _ _ M' _ _ eq_refl))); [|exact M'].
    assert (X : nth_error (prefix s p n') (length (c0 :: t)) = Some c) by (rewrite EW, nth_error_app2, Nat.sub_diag by lia; reflexivity).
    rewrite prefix_nth in X by lia. now injection X.
Qed.

Ltac in_cases H :=
  repeat (let E := fresh "E" in destruct H as [E|H]; [injection E as <- <-|]); try (destruct H).

(** ** Steps of TokenN *)
Lemma white_step s p : In (s p) [32; 9; 10; 12; 13] -> step TokenN_rules s p 233 1.
Proof.
  intros H. eapply (step_intro TokenN_rules s p 0 _ 233 233 (s p) []); [reflexivity|reflexivity| | |].
  - apply chars_words. exists (s p). split; [reflexivity|]. cbn in *. tauto.
  - lia.
  - intros j r c w HI _ M. assert (r = Characters [32; 10; 13; 9; 12]) as ->.
    { destruct H as [E|[E|[E|[E|[E|[]]]]]]; rewrite <- E in HI; vm_compute in HI; in_cases HI; reflexivity. }
    apply chars_words in M as (x & [=] & _).
Qed.
Lemma open_step s p : s p = 40 -> s (p + 1) = 42 -> step TokenN_rules s p 234 2.
Proof.
  intros H1 H2. eapply (step_intro TokenN_rules s p 1 _ 234 234 40 [42]); [reflexivity|cbn; now rewrite H1, H2| | |].
  - now apply (two_words [] 40 42).
  - intros j r HI Hj M. vm_compute in HI. in_cases HI; lia.
  - intros j r c w HI _ M. vm_compute in HI. in_cases HI.
    + apply (two_words [] 40 42) in M. discriminate.
    + apply (one_words [] 40) in M. discriminate.
Qed.
Lemma dquote_step s p : s p = 34 -> step TokenN_rules s p 272 1.
Proof.
  intros H1. eapply (step_intro TokenN_rules s p 13 _ 272 272 34 []); [reflexivity|cbn; now rewrite H1| | |].
  - now apply one_words.
  - intros j r HI Hj M. vm_compute in HI. in_cases HI; lia.
  - intros j r c w HI _ M. vm_compute in HI. in_cases HI. apply (one_words [] 34) in M. discriminate.
Qed.
Lemma hash_step s p : s p = 35 -> s (p + 1) = 34 -> step TokenN_rules s p 276 2.
Proof.
  intros H1 H2. eapply (step_intro TokenN_rules s p 14 _ 276 276 35 [34]); [reflexivity|cbn; now rewrite H1, H2| | |].
  - now apply two_words.
  - intros j r HI Hj M. vm_compute in HI. in_cases HI; lia.
  - intros j r c w HI _ M. vm_compute in HI. in_cases HI.
    + apply (two_words [] 35 34) in M. discriminate.
    + apply (two_words [] 35 91) in M. discriminate.
Qed.

(** ** What the rules give *)
Lemma TokenN_lines : lines_nodup TokenN_rules = true.
Proof. vm_compute. reflexivity. Qed.
Lemma line_word s p l n r : step TokenN_rules s p l n -> rule_at TokenN_rules l = Some r -> matches [] r (prefix s p n).
Proof. intros H E. destruct (step_rule _ _ _ _ _ TokenN_lines H) as (r' & E' & M). congruence. Qed.
Lemma word_prefix_length s p n w : prefix s p n = w -> n = length w.
Proof. intros <-. now rewrite prefix_length. Qed.

Definition all_lines : list Z :=
  [233; 234; 238; 240; 242; 243; 244; 248; 252; 256; 260; 264; 268; 272; 276; 284; 285; 286; 287; 288; 289; 290; 291; 292; 298; 309; 310; 311].
Lemma step_line s p l n : step TokenN_rules s p l n -> In l all_lines.
Proof.
  intros (i & r & l' & E & _). apply nth_error_In in E.
  apply (in_map (fun c : re * location => line (snd c))) in E. exact E.
Qed.
Definition facts_but (rules : casedef) (zl el : Z) : bool :=
  forallb (fun c : re * location => (line (snd c) =? el) || negb (re_nullable (fst c)) && ((line (snd c) =? zl) || no_zero (fst c))) rules.
Lemma step_facts_but rules zl el s p l n : facts_but rules zl el = true -> step rules s p l n -> l <> el ->
  (1 <= n)%nat /\ (l <> zl -> ~ In 0 (prefix s p n)).
Proof.
  intros H (i & r & l' & E & (r' & l0 & E' & M) & _) NE. rewrite E in E'. injection E' as <- <-.
  unfold facts_but in H. rewrite forallb_forall in H. specialize (H _ (nth_error_In _ _ E)). cbn [fst snd line] in H.
  apply orb_prop in H as [H|H]; [lia|]. apply andb_prop in H as [H1 H2]. split.
  - destruct n as [|n]; [|lia]. cbn [prefix] in M. now rewrite (nullable_word _ _ _ M eq_refl) in H1.
  - intros N. apply orb_prop in H2 as [H2|H2]; [lia|]. now apply (no_zero_word r).
Qed.

(** numbers: the C functions that convert them return or raise Fail *)
Lemma scan_loop_total dig base max : dig 0 = None -> forall p res,
  (exists n, Scan_Model.scan_loop dig base max p res = Ret n) \/ Scan_Model.scan_loop dig base max p res = Raise FailExn.
Proof.
  intros H0 p. induction p as [|c p IH]; intros res.
  - cbn [Scan_Model.scan_loop Scan_Model.cchar]. rewrite H0. cbn. eauto.
  - cbn [Scan_Model.scan_loop]. destruct (dig (Scan_Model.cchar (c :: p))) as [z|]; [|destruct (negb _); eauto].
    match goal with |- context [if ?x then _ else _] => destruct x end; eauto.
Qed.
Lemma int_literal_total s n : (exists m, Scan_Model.int_literal s n = Ret m) \/ Scan_Model.int_literal s n = Raise FailExn.
Proof. unfold Scan_Model.int_literal. destruct (negb _); eauto. Qed.
Lemma int_of_string_total w : (exists m, Scan_Model.sml_int_of_string w = Ret m) \/ Scan_Model.sml_int_of_string w = Raise FailExn.
Proof.
  unfold Scan_Model.sml_int_of_string. destruct (if Scan_Model.cchar w =? 126 then _ else _) as [sg q].
  destruct (scan_loop_total Scan_Model.dec_digit 10 Scan_Model.Min_long_u eq_refl q 0) as [[n E]|E]; unfold Scan_Model.scandec; rewrite E; cbn [bind]; auto using int_literal_total.
Qed.
Lemma int_of_hex_total w : (exists m, Scan_Model.sml_int_of_hex w = Ret m) \/ Scan_Model.sml_int_of_hex w = Raise FailExn.
Proof.
  unfold Scan_Model.sml_int_of_hex. destruct (if Scan_Model.cchar w =? 126 then _ else _) as [sg q].
  destruct (scan_loop_total Scan_Model.hex_digit 16 Scan_Model.Min_long_u eq_refl (Scan_Model.cnext (Scan_Model.cnext q)) 0) as [[n E]|E]; unfold Scan_Model.scanhex; rewrite E; cbn [bind]; auto using int_literal_total.
Qed.
Lemma word_of_dec_total w : (exists m, Scan_Model.sml_word_of_dec w = Ret m) \/ Scan_Model.sml_word_of_dec w = Raise FailExn.
Proof.
  unfold Scan_Model.sml_word_of_dec, Scan_Model.scandec.
  edestruct scan_loop_total as [[n E]|E]; [|rewrite E; cbn [bind]; eauto|rewrite E; cbn [bind]; eauto]. reflexivity.
Qed.
Lemma word_of_hex_total w : (exists m, Scan_Model.sml_word_of_hex w = Ret m) \/ Scan_Model.sml_word_of_hex w = Raise FailExn.
Proof.
  unfold Scan_Model.sml_word_of_hex, Scan_Model.scanhex.
  edestruct scan_loop_total as [[n E]|E]; [|rewrite E; cbn [bind]; eauto|rewrite E; cbn [bind]; eauto]. reflexivity.
Qed.

Section Tokens.
  Variables (d : dfa) (src : list Z).
  Hypothesis (HG : generated d) (HB : is_bytes src).
  Notation s := (source src).

  Lemma in_token : In (codes "TokenN", TokenN_rules) lexer_definition.
  Proof. cbn. tauto. Qed.
  Lemma in_tokenid : In (codes "TokenId", TokenId_rules) lexer_definition.
  Proof. cbn. tauto. Qed.

  Lemma token_call p : 0 <= p <= zlen src ->
    exists l n F, step TokenN_rules s p l n /\ (l <> 311 -> (1 <= n)%nat) /\ (l <> 310 -> p + Z.of_nat n <= zlen src) /\ (l = 311 -> n = O /\ s p <> 0) /\
      (forall fuel, le_out (call fuel d s "TokenN" p) (Ret (l, p + Z.of_nat n))) /\
      (forall fuel, (F <= fuel)%nat -> call fuel d s "TokenN" p = Ret (l, p + Z.of_nat n)).
  Proof.
    intros Hp. destruct (call_step d src HG HB "TokenN" TokenN_rules p in_token Hp) as (l & n & F & H1 & H2 & H3).
    - exists 13%nat. eexists _, _, 34, []. split; [reflexivity|]. now apply one_words.
    - exists 27%nat, 0%nat. eexists _, _. split; [reflexivity|]. constructor.
    - exists l, n, F. split; [exact H1|].
      assert (FB : l <> 311 -> (1 <= n)%nat /\ (l <> 310 -> ~ In 0 (prefix s p n))) by (intros N; apply (step_facts_but TokenN_rules 310 311 s p l n); auto).
      assert (N0 : l = 311 -> n = O).
      { intros ->. pose proof (line_word _ _ _ _ _ H1 eq_refl) as M. apply eps_words in M. now apply word_prefix_length in M. }
      split; [intros N; now apply FB|]. split; [|split; [|auto]].
      + intros N. destruct (Z.eq_dec l 311) as [E|NE]; [rewrite (N0 E); lia|]. destruct (FB NE) as [A B]. apply no_zero_inside; auto.
      + intros E. rewrite (N0 E) in *. split; [reflexivity|]. intros E0.
        destruct H1 as (i & r & l' & _ & (_ & _ & L)). apply (L 26%nat 1%nat); [lia|]. cbn [prefix]. rewrite E0.
        eexists _, _. split; [reflexivity|]. apply alt_words. left. now apply (one_words [] 0).
  Qed.
  Lemma token_known p l n : 0 <= p <= zlen src -> step TokenN_rules s p l n ->
    exists F, forall fuel, (F <= fuel)%nat -> call fuel d s "TokenN" p = Ret (l, p + Z.of_nat n).
  Proof.
    intros Hp H. destruct (token_call p Hp) as (l' & n' & F & H1 & _ & _ & _ & _ & H3).
    destruct (step_unique _ _ _ _ _ _ _ H H1) as [<- <-]. eauto.
  Qed.

  (** *** Layout is passed over *)
  Lemma TokenN_layout lay : layout lay -> forall p b, 0 <= p -> p + zlen lay <= zlen src -> prefix s p (length lay) = lay ->
    exists F m, forall fuel, (F <= fuel)%nat -> TokenN d s (m + fuel) p b = TokenN d s fuel (p + zlen lay) b.
  Proof.
    intros H. induction H as [|c t Hc H IH|u t Hu H IH]; intros p b Hp HE HS.
    - exists O, O. intros fuel _. change (zlen (@nil Z)) with 0. now rewrite Z.add_0_r.
    - rewrite zlen_cons in HE. pose proof (zlen_nonneg t). cbn [length prefix] in HS. injection HS as S1 S2.
      destruct (token_known p 233 1 ltac:(lia) (white_step s p ltac:(now rewrite S1))) as [F HC].
      destruct (IH (p + 1) b ltac:(lia) ltac:(lia) S2) as (F2 & m & HR).
      exists (Nat.max F F2), (S m). intros fuel Hf. change (S m + fuel)%nat with (S (m + fuel)). cbn [TokenN].
      rewrite HC by lia. cbn [bind Z.eqb Pos.eqb]. change (Z.of_nat 1) with 1. rewrite HR by lia. rewrite zlen_cons. f_equal. lia.
    - rewrite !zlen_app in HE. change (zlen [40; 42]) with 2 in HE. pose proof (zlen_nonneg t). pose proof (zlen_nonneg u).
      destruct (prefix_split _ _ _ _ HS) as [Sa Sb]. destruct (prefix_split _ _ _ _ Sb) as [Sc Sd].
      cbn [length prefix] in Sa. injection Sa as Sa1 Sa2. change (zlen [40; 42]) with 2 in *.
      destruct (token_known p 234 2 ltac:(lia) (open_step s p Sa1 Sa2)) as [F HC].
      destruct (Comment_accepts d src HG HB p u (p + 2) Hu ltac:(lia) ltac:(lia) Sc) as [F1 HC1].
      destruct (IH (p + 2 + zlen u) b ltac:(lia) ltac:(lia) Sd) as (F2 & m & HR).
      exists (F + F1 + F2)%nat, (S m). intros fuel Hf. change (S m + fuel)%nat with (S (m + fuel)). cbn [TokenN].
      rewrite HC by lia. cbn [bind Z.eqb Pos.eqb]. change (p + Z.of_nat 2) with (p + 2). rewrite HC1 by lia. cbn [bind].
      rewrite HR by lia. rewrite !zlen_app. change (zlen [40; 42]) with 2. f_equal. lia.
  Qed.

  Hypothesis HM : 2 * zlen src <= maxLen.

  Lemma TokenN_string text v p b : denotes mosml_plain mosml_formatting text v -> buffer_ok b -> 0 <= p ->
    p + zlen text + 2 <= zlen src -> prefix s p (length ([34] ++ text ++ [34])) = [34] ++ text ++ [34] ->
    exists F b', buffer_ok b' /\ forall fuel, (F <= fuel)%nat -> TokenN d s fuel p b = Ret (Fine (STRING v, p, p + zlen text + 2, b')).
  Proof.
    intros HD Hb Hp HE HS. destruct (prefix_split _ _ _ _ HS) as [Sa Sb]. cbn [length prefix] in Sa. injection Sa as Sa.
    change (zlen [34]) with 1 in Sb. pose proof (zlen_nonneg text).
    destruct (token_known p 272 1 ltac:(lia) (dquote_step s p Sa)) as [F HC].
    destruct (String_accepts d src HG HB HM p text v HD (p + 1) _ [] (reset_ok b Hb) ltac:(change (zlen (@nil Z)) with 0; lia) ltac:(lia) ltac:(lia) Sb)
      as (F2 & b1 & H1 & HR). cbn [app] in H1. destruct (get_ok _ _ H1) as (b2 & E2 & H2).
    exists (S (Nat.max F F2)), b2. split; [exact H2|]. intros fuel Hf. destruct fuel as [|fuel]; [lia|]. cbn [TokenN].
    rewrite HC by lia. cbn [bind Z.eqb Pos.eqb]. change (Z.of_nat 1) with 1. unfold scanString. rewrite HR by lia. cbn [bind]. rewrite E2. cbn [bind].
    do 3 f_equal. f_equal. lia.
  Qed.
  Lemma TokenN_char text v p b : denotes mosml_plain mosml_formatting text v -> buffer_ok b -> 0 <= p ->
    p + zlen text + 3 <= zlen src -> prefix s p (length ([35; 34] ++ text ++ [34])) = [35; 34] ++ text ++ [34] ->
    exists F b', buffer_ok b' /\ forall fuel, (F <= fuel)%nat -> TokenN d s fuel p b =
      Ret (match v with [c] => Fine (CHAR c, p, p + zlen text + 3, b') | _ => Error IllFormedChar p (p + zlen text + 3) end).
  Proof.
    intros HD Hb Hp HE HS. destruct (prefix_split _ _ _ _ HS) as [Sa Sb]. cbn [length prefix] in Sa. injection Sa as Sa1 Sa2.
    change (zlen [35; 34]) with 2 in Sb. pose proof (zlen_nonneg text).
    destruct (token_known p 276 2 ltac:(lia) (hash_step s p Sa1 Sa2)) as [F HC].
    destruct (String_accepts d src HG HB HM p text v HD (p + 2) _ [] (reset_ok b Hb) ltac:(change (zlen (@nil Z)) with 0; lia) ltac:(lia) ltac:(lia) Sb)
      as (F2 & b1 & H1 & HR). cbn [app] in H1. destruct (get_ok _ _ H1) as (b2 & E2 & H2).
    exists (S (Nat.max F F2)), b2. split; [exact H2|]. intros fuel Hf. destruct fuel as [|fuel]; [lia|]. cbn [TokenN].
    rewrite HC by lia. cbn [bind Z.eqb Pos.eqb]. change (Z.of_nat 2) with 2. unfold scanString. rewrite HR by lia. cbn [bind]. rewrite E2. cbn [bind].
    replace (p + 2 + zlen text + 1) with (p + zlen text + 3) by lia. destruct v as [|c [|]]; reflexivity.
  Qed.

  (** *** What a token says about the source *)
  Definition says (tok : token) (st en : Z) : Prop :=
    match tok with
    | STRING v => exists text, prefix s st (length ([34] ++ text ++ [34])) = [34] ++ text ++ [34] /\
        en = st + zlen text + 2 /\ en <= zlen src /\ denotes mosml_plain mosml_formatting text v
    | CHAR c => exists text, prefix s st (length ([35; 34] ++ text ++ [34])) = [35; 34] ++ text ++ [34] /\
        en = st + zlen text + 3 /\ en <= zlen src /\ denotes mosml_plain mosml_formatting text [c]
    | EOF => s st = 0 \/ s st = 26
    | _ => True
    end.

  Lemma constant_fine o mk p q b x : constant o mk p q b = Ret (Fine x) -> exists n, o = Ret n /\ x = (mk n, p, q, b).
  Proof. destruct o as [n|e| |]; cbn; try discriminate; [intros [= <-]; eauto|destruct e; discriminate]. Qed.

  Lemma TokenN_returns fuel : forall p b tok st en b', buffer_ok b -> 0 <= p <= zlen src ->
    TokenN d s fuel p b = Ret (Fine (tok, st, en, b')) ->
    buffer_ok b' /\ says tok st en /\
    exists lay, layout lay /\ prefix s p (length lay) = lay /\ st = p + zlen lay /\ st <= zlen src.
  Proof.
    induction fuel as [|fuel IH]; intros p b tok st en b' Hb Hp HR; [discriminate|].
    destruct (token_call p Hp) as (l & n & F & HS & Hn & Hin & Hid & HC & _).
    cbn [TokenN] in HR. destruct (HC fuel) as [E|E]; rewrite E in HR; [discriminate|]. cbn [bind] in HR. clear HC E.
    assert (HERE : exists lay, layout lay /\ prefix s p (length lay) = lay /\ p = p + zlen lay /\ p <= zlen src).
    { exists []. split; [constructor|]. split; [reflexivity|]. change (zlen (@nil Z)) with 0. lia. }
    destruct (l =? 233) eqn:E1.
    { assert (l = 233) as -> by lia. specialize (Hin ltac:(discriminate)). apply IH in HR; [|exact Hb|lia].
      destruct HR as (A1 & A2 & lay & A3 & A4 & A5 & A6). split; [exact A1|]. split; [exact A2|].
      pose proof (line_word _ _ _ _ _ HS eq_refl) as M. apply chars_words in M as (c & M & Hc).
      pose proof (word_prefix_length _ _ _ _ M) as ->. cbn [length prefix] in M. injection M as M.
      exists (c :: lay). split; [constructor; [cbn in *; tauto|exact A3]|]. split.
      - cbn [length prefix]. rewrite M. f_equal. exact A4.
      - rewrite zlen_cons. cbn [length] in A5. lia. }
    destruct (l =? 234) eqn:E2.
    { assert (l = 234) as -> by lia. specialize (Hin ltac:(discriminate)).
      destruct (Comment d s fuel p (p + Z.of_nat n) 1) as [[q1|m p1 p2]|e| |] eqn:EC; cbn [bind] in HR; try discriminate.
      apply (Comment_returns_1 d src HG HB) in EC; [|lia]. destruct EC as (u & B1 & B2 & B3 & B4).
      apply IH in HR; [|exact Hb|pose proof (zlen_nonneg u); lia].
      destruct HR as (A1 & A2 & lay & A3 & A4 & A5 & A6). split; [exact A1|]. split; [exact A2|].
      pose proof (line_word _ _ _ _ _ HS eq_refl) as M. apply (two_words [] 40 42) in M.
      pose proof (word_prefix_length _ _ _ _ M) as ->. cbn [length] in *. change (Z.of_nat 2) with 2 in *.
      exists ([40; 42] ++ u ++ lay). split; [now constructor|]. split.
      - rewrite !app_length, !prefix_app. change (length [40; 42]) with 2%nat. change (Z.of_nat 2) with 2. rewrite M, B1.
        replace (p + 2 + Z.of_nat (length u)) with q1 by (unfold zlen in B2; lia). now rewrite A4.
      - rewrite !zlen_app. change (zlen [40; 42]) with 2. lia. }
    destruct (l =? 238); [discriminate|].
    destruct (l =? 240); [injection HR as <- <- <- <-; cbn; auto|].
    destruct (l =? 242); [injection HR as <- <- <- <-; cbn; auto|].
    destruct (l =? 243).
    { destruct (Scan_Model.sml_int_of_string _); cbn [bind] in HR; try discriminate. injection HR as <- <- <- <-. cbn. auto. }
    destruct (l =? 244); [apply constant_fine in HR as (x & _ & [= -> -> -> ->]); cbn; auto|].
    destruct (l =? 248); [apply constant_fine in HR as (x & _ & [= -> -> -> ->]); cbn; auto|].
    destruct (l =? 252); [apply constant_fine in HR as (x & _ & [= -> -> -> ->]); cbn; auto|].
    destruct (l =? 256); [apply constant_fine in HR as (x & _ & [= -> -> -> ->]); cbn; auto|].
    destruct (l =? 260); [apply constant_fine in HR as (x & _ & [= -> -> -> ->]); cbn; auto|].
    destruct (l =? 264); [apply constant_fine in HR as (x & _ & [= -> -> -> ->]); cbn; auto|].
    destruct (l =? 268); [injection HR as <- <- <- <-; cbn; auto|].
    destruct (l =? 272) eqn:E3.
    { assert (l = 272) as -> by lia. specialize (Hin ltac:(discriminate)). specialize (Hn ltac:(discriminate)).
      destruct (scanString d s fuel p (p + Z.of_nat n) b) as [[[q1 b1]|m p1 p2]|e| |] eqn:EC; cbn [bind] in HR; try discriminate.
      unfold scanString in EC. apply (String_returns d src HG HB HM p fuel _ _ []) in EC; [|now apply reset_ok|change (zlen (@nil Z)) with 0; lia|lia].
      destruct EC as (text & v & B1 & B2 & B3 & B4 & B5). cbn [app] in B5. destruct (get_ok _ _ B5) as (b2 & E4 & B6). rewrite E4 in HR.
      cbn [bind] in HR. injection HR as <- <- <- <-. split; [exact B6|]. split; [|exact HERE]. cbn [says]. exists text.
      pose proof (line_word _ _ _ _ _ HS eq_refl) as M. apply (one_words [] 34) in M.
      pose proof (word_prefix_length _ _ _ _ M) as ->. cbn [length] in *. change (Z.of_nat 1) with 1 in *.
      split; [|split; [lia|split; [lia|exact B4]]]. rewrite app_length, prefix_app. change (length [34]) with 1%nat. change (Z.of_nat 1) with 1. now rewrite M, B1. }
    destruct (l =? 276) eqn:E5.
    { assert (l = 276) as -> by lia. specialize (Hin ltac:(discriminate)). specialize (Hn ltac:(discriminate)).
      destruct (scanString d s fuel p (p + Z.of_nat n) b) as [[[q1 b1]|m p1 p2]|e| |] eqn:EC; cbn [bind] in HR; try discriminate.
      unfold scanString in EC. apply (String_returns d src HG HB HM p fuel _ _ []) in EC; [|now apply reset_ok|change (zlen (@nil Z)) with 0; lia|lia].
      destruct EC as (text & v & B1 & B2 & B3 & B4 & B5). cbn [app] in B5. destruct (get_ok _ _ B5) as (b2 & E4 & B6). rewrite E4 in HR.
      cbn [bind] in HR. destruct v as [|c [|]]; try discriminate. injection HR as <- <- <- <-. split; [exact B6|]. split; [|exact HERE]. cbn [says]. exists text.
      pose proof (line_word _ _ _ _ _ HS eq_refl) as M. apply (two_words [] 35 34) in M.
      pose proof (word_prefix_length _ _ _ _ M) as ->. cbn [length] in *. change (Z.of_nat 2) with 2 in *.
      split; [|split; [lia|split; [lia|exact B4]]]. rewrite app_length, prefix_app. change (length [35; 34]) with 2%nat. change (Z.of_nat 2) with 2. now rewrite M, B1. }
    destruct (l =? 310) eqn:E6.
    { assert (l = 310) as -> by lia. injection HR as <- <- <- <-. split; [exact Hb|]. split; [|exact HERE]. cbn [says].
      pose proof (line_word _ _ _ _ _ HS eq_refl) as M. apply alt_words in M as [M|M]; [apply (one_words [] 0) in M|apply (one_words [] 26) in M];
        pose proof (word_prefix_length _ _ _ _ M) as ->; cbn in M; injection M as M; auto. }
    destruct (l =? 311) eqn:E7.
    { assert (l = 311) as -> by lia. destruct (Hid eq_refl) as [-> _]. change (Z.of_nat 0) with 0 in HR. rewrite Z.add_0_r in HR. unfold TokenId in HR.
      destruct (call fuel d s "TokenId" p) as [[l q]|e| |]; cbn [bind] in HR; try discriminate.
      assert (KW : forall w, says (mkKeyword w) p q /\ says (mkQualId w) p q).
      { intros w. split; [unfold mkKeyword; destruct (existsb _ _); exact I|].
        unfold mkQualId. destruct (match splitQualId w with [i] => _ | _ => _ end); exact I. }
      destruct (l =? 314); [injection HR as <- <- <- <-; split; [exact Hb|]; split; [apply KW|exact HERE]|].
      destruct (l =? 318); [injection HR as <- <- <- <-; split; [exact Hb|]; split; [apply KW|exact HERE]|]. discriminate. }
    injection HR as <- <- <- <-. cbn. auto.
  Qed.
End Tokens.
