(** C51, continued: alphanumeric identifiers and reserved words, and what the
    number tokens say about the source. *)
From Coq Require Import String.
From Verif Require Import Base ArrayLib Lex_Model Lex_Spec Token_Model Token_Spec Token_Proofs Token_String Token_Scan Token_Comment Token_Token.
From Verif Require Import Token_Number_Spec Token_Number Token_Props.
From Verif Require Lex_Encode Scan_Model Scan_Spec Scan_Props Arith_Props.
Close Scope string_scope.
Open Scope list_scope.
Open Scope Z_scope.

(** ** Specification: alphanumeric identifiers begin with a letter; letters,
    digits, underscores and primes follow (Definition, 2.4). *)
Definition letter (c : Z) : Prop := 65 <= c <= 90 \/ 97 <= c <= 122.
Definition idchar (c : Z) : Prop := letter c \/ 48 <= c <= 57 \/ c = 95 \/ c = 39.
Definition alphanumeric (w : list Z) : Prop := exists c t, w = c :: t /\ letter c /\ Forall idchar t.
(** the reserved words of the Definition (2.1) that are alphanumeric, and four of Moscow ML *)
Definition sml_reserved : list string :=
  ["abstype"; "and"; "andalso"; "as"; "case"; "datatype"; "do"; "else"; "end"; "eqtype"; "exception"; "fn"; "fun"; "functor";
   "handle"; "if"; "in"; "include"; "infix"; "infixr"; "let"; "local"; "nonfix"; "of"; "op"; "open"; "orelse"; "raise"; "rec";
   "sharing"; "sig"; "signature"; "struct"; "structure"; "then"; "type"; "val"; "where"; "while"; "with"; "withtype"]%string.
Definition mosml_reserved : list string := ["prim_eqtype"; "prim_EQtype"; "prim_type"; "prim_val"]%string.
Definition reserved_word (w : list Z) : Prop := In w (map codes (sml_reserved ++ mosml_reserved)).

(** ** Proofs *)
Lemma in_letters c : In c letters <-> letter c.
Proof. unfold letters, letter. rewrite in_app_iff, !in_char_class. lia. Qed.
Lemma in_idchars c : In c idchars <-> idchar c.
Proof. unfold idchars, idchar, letter. rewrite !in_app_iff, !in_char_class. cbn [In]. lia. Qed.

(** no rule of TokenN but the last begins with a letter *)
Lemma letter_cands c : letter c -> cands 0 TokenN_rules c = [].
Proof.
  intros H. assert (A : forallb (fun c => match cands 0 TokenN_rules c with [] => true | _ => false end) letters = true) by (vm_compute; reflexivity).
  rewrite forallb_forall in A. specialize (A c (proj2 (in_letters c) H)). now destruct (cands 0 TokenN_rules c).
Qed.
Lemma letter_step s p : letter (s p) -> step TokenN_rules s p 311 0.
Proof.
  intros H. exists 27%nat. eexists _, _. split; [reflexivity|]. split; [|split].
  - eexists _, _. split; [reflexivity|]. constructor.
  - intros j Hj (r & loc & E & M). cbn [prefix] in M.
    assert (A : forallb (fun c : re * location => negb (re_nullable (fst c))) (firstn 27 TokenN_rules) = true) by (vm_compute; reflexivity).
    rewrite forallb_forall in A. assert (HI : In (r, loc) (firstn 27 TokenN_rules)).
    { apply nth_error_In with (n := j). rewrite <- (firstn_skipn 27 TokenN_rules) in E. rewrite nth_error_app1 in E; [exact E|]. vm_compute length. lia. }
    specialize (A _ HI). cbn [fst] in A. now rewrite (nullable_word _ _ _ M eq_refl) in A.
  - intros j n Hn (r & loc & E & M). destruct n as [|n]; [lia|]. cbn [prefix] in M.
    assert (X := cands_in _ (s p) 0 _ _ _ E (first_word _ _ M _ _ eq_refl)). rewrite (letter_cands _ H) in X. destruct X.
Qed.

Lemma identifier_words w : matches [] (identifier symbols) w -> forall c t, w = c :: t -> letter c -> Forall idchar t.
Proof.
  unfold identifier. intros H c t -> HL. apply alt_words in H as [H|H].
  - apply seq_words in H as (w1 & w2 & E & H1 & H2). apply chars_words in H1 as (x & -> & _). injection E as _ <-. apply rep_words in H2.
    eapply Forall_impl; [|exact H2]. intros y. apply in_idchars.
  - exfalso. apply plus_words in H as [_ H]. inversion H as [|? ? Hc _]; subst. apply in_letters in HL.
    assert (A : forallb (fun c => negb (existsb (Z.eqb c) symbols)) letters = true) by (vm_compute; reflexivity).
    rewrite forallb_forall in A. specialize (A _ HL). assert (X : existsb (Z.eqb c) symbols = true); [|now rewrite X in A].
    apply existsb_exists. exists c. split; [exact Hc|lia].
Qed.
Lemma qualified_words w : matches [] (qualified symbols) w -> forall c t, w = c :: t -> letter c ->
  exists t1 t2, t = t1 ++ 46 :: t2 /\ Forall idchar t1.
Proof.
  unfold qualified, plus. intros H c t -> HL. apply seq_words in H as (w1 & w2 & E & H1 & _). apply seq_words in H1 as (w3 & w4 & -> & H3 & _).
  apply seq_words in H3 as (w5 & w6 & -> & H5 & H6). apply (one_words [] 46) in H6 as ->. rewrite <- !app_assoc in E. cbn [app] in E.
  destruct w5 as [|x w5].
  - exfalso. cbn [app] in E. injection E as -> _. unfold letter in HL. lia.
  - cbn [app] in E. injection E as -> ->. exists w5. eexists. split; [reflexivity|]. eapply identifier_words; eauto.
Qed.
Lemma ident_step s p w : alphanumeric w -> prefix s p (length w) = w -> ~ idchar (s (p + zlen w)) -> s (p + zlen w) <> 46 ->
  step TokenId_rules s p 314 (length w).
Proof.
  intros (c & t & -> & HL & HT) EP N1 N2. exists 0%nat. eexists _, _. split; [reflexivity|]. split; [|split].
  - rewrite EP. eexists _, _. split; [reflexivity|]. apply alt_words. left. apply seq_words. exists [c], t. split; [auto|].
    split; [apply chars_words; exists c; split; [auto|now apply in_letters]|]. apply rep_words. eapply Forall_impl; [|exact HT]. intros y. apply in_idchars.
  - lia.
  - intros j n' Hn (r & loc & E & M). destruct (prefix_longer _ _ _ _ EP Hn) as (x & u & EW). rewrite EW in M.
    assert (X : nth_error (prefix s p n') (length (c :: t)) = Some x) by (rewrite EW, nth_error_app2, Nat.sub_diag by lia; reflexivity).
    rewrite prefix_nth in X by lia. assert (X2 : s (p + zlen (c :: t)) = x) by (unfold zlen; congruence).
    rewrite X2 in N1, N2.
    cbn [app] in M. destruct j as [|[|[|j]]]; cbn [nth_error TokenId_rules] in E.
    + injection E as <- _. assert (H := identifier_words _ M _ _ eq_refl HL). apply Forall_app in H as [_ H]. inversion H; subst. auto.
    + injection E as <- _. destruct (qualified_words _ M _ _ eq_refl HL) as (t1 & t2 & ET & H1). clear - ET H1 HT N1 N2.
      revert t1 ET H1. induction t as [|y t IH]; intros t1 ET H1; cbn [app] in ET.
      * destruct t1 as [|z t1]; cbn [app] in ET; injection ET as -> _; [auto|]. inversion H1; subst; auto.
      * inversion HT as [|? ? Hy HT']; subst. destruct t1 as [|z t1]; cbn [app] in ET; injection ET as EA ET.
        -- subst y. unfold idchar, letter in Hy. lia.
        -- inversion H1; subst. eapply IH; eauto.
    + injection E as <- _. apply chars_words in M as (z & [= -> M] & _). now destruct t.
    + destruct j; discriminate.
Qed.

Lemma keyword_ok w : alphanumeric w -> (reserved_word w -> mkKeyword w = RESERVED w) /\ (~ reserved_word w -> mkKeyword w = ID w).
Proof.
  intros (c & t & E & HL & _). unfold mkKeyword. destruct (existsb (name_eqb w) keywords) eqn:EX.
  - split; [reflexivity|]. intros N. destruct N. apply existsb_exists in EX as (k & Hk & EK). apply Lex_Encode.name_eqb_spec in EK. subst k.
    assert (A : forallb (fun k => existsb (name_eqb k) (map codes (sml_reserved ++ mosml_reserved)) ||
                  match k with x :: _ => negb ((65 <=? x) && (x <=? 90) || (97 <=? x) && (x <=? 122)) | [] => true end) keywords = true) by (vm_compute; reflexivity).
    rewrite forallb_forall in A. specialize (A w Hk). apply orb_prop in A as [A|A].
    + apply existsb_exists in A as (k & Hk2 & EK). apply Lex_Encode.name_eqb_spec in EK. now subst k.
    + subst w. unfold letter in HL. lia.
  - split; [|reflexivity]. intros H. exfalso.
    assert (A : forallb (fun k => existsb (name_eqb k) keywords) (map codes (sml_reserved ++ mosml_reserved)) = true) by (vm_compute; reflexivity).
    rewrite forallb_forall in A. specialize (A w H). congruence.
Qed.

(** An alphanumeric word that is not followed by a character that continues it is
    read as a reserved word if it is one, as an identifier otherwise. *)
Theorem C51_identifier : forall d pre lay w rest b, lexer d (pre ++ lay ++ w ++ rest) b -> layout lay ->
  alphanumeric w -> ~ idchar (nth 0 rest 0) -> nth 0 rest 0 <> 46 ->
  (reserved_word w -> reads d (pre ++ lay ++ w ++ rest) (zlen pre) b (Fine (RESERVED w, zlen pre + zlen lay, zlen pre + zlen lay + zlen w, b))) /\
  (~ reserved_word w -> reads d (pre ++ lay ++ w ++ rest) (zlen pre) b (Fine (ID w, zlen pre + zlen lay, zlen pre + zlen lay + zlen w, b))).
Proof.
  intros d pre lay w rest b L HL HA N1 N2. pose proof L as (HG & HB & HM & Hb).
  assert (HE := len4 pre lay w rest).
  assert (HS := source_at (pre ++ lay) w rest). rewrite zlen_app, <- (app_assoc pre lay) in HS.
  assert (HR := source_rest (pre ++ lay) w rest). rewrite zlen_app, <- (app_assoc pre lay) in HR. rewrite <- HR in N1, N2.
  pose proof (zlen_nonneg pre) as Z1. pose proof (zlen_nonneg lay) as Z2. pose proof (zlen_nonneg w) as Z3.
  set (src := pre ++ lay ++ w ++ rest) in *. set (p := zlen pre + zlen lay) in *.
  assert (H0 : letter (source src p)).
  { destruct HA as (c & t & -> & HC & _). cbn [length prefix] in HS. injection HS as -> _. exact HC. }
  destruct (token_known d src HG HB p 311 0 ltac:(lia) (letter_step _ _ H0)) as [F HF].
  destruct (call_known d src HG HB "TokenId" TokenId_rules p 314 (length w) in_tokenid ltac:(lia)) as [F2 HF2].
  { exists 2%nat. eexists _, _, 1, []. split; [reflexivity|]. apply chars_words. exists 1. split; [auto|]. unfold all_chars. apply in_char_class. lia. }
  { now apply ident_step. }
  assert (X : reads d src p b (Fine (mkKeyword w, p, p + zlen w, b))).
  { exists (S (F + F2)). intros fuel Hf. destruct fuel as [|fuel]; [lia|]. cbn [TokenN]. rewrite HF by lia. cbn [bind Z.eqb Pos.eqb].
    change (Z.of_nat 0) with 0. rewrite Z.add_0_r. unfold TokenId. rewrite HF2 by lia. cbn [bind Z.eqb Pos.eqb].
    change (Z.of_nat (length w)) with (zlen w). replace (Z.to_nat (p + zlen w - p)) with (length w) by (unfold zlen; lia). now rewrite HS. }
  destruct (keyword_ok w HA) as [K1 K2]. split; intros K; (apply after_layout; auto; fold src p).
  - now rewrite (K1 K) in X.
  - now rewrite (K2 K) in X.
Qed.
Example C51_example_identifier : alphanumeric (codes "val'x_1") /\ ~ reserved_word (codes "val'x_1") /\ alphanumeric (codes "val") /\
  reserved_word (codes "val") /\ ~ idchar 32 /\ ~ idchar 0.
Proof.
  split; [exists 118, (codes "al'x_1"); split; [reflexivity|]; split; [unfold letter; lia|]; vm_compute codes; repeat (apply Forall_cons; [unfold idchar, letter; lia|]); apply Forall_nil|].
  split; [intros H; vm_compute in H; repeat (destruct H as [H|H]; [discriminate|]); exact H|].
  split; [exists 118, (codes "al"); split; [reflexivity|]; split; [unfold letter; lia|]; vm_compute codes; repeat (apply Forall_cons; [unfold idchar, letter; lia|]); apply Forall_nil|].
  split; [vm_compute; tauto|]. unfold idchar, letter. lia.
Qed.

(** ** Real constants (Definition, 2.2): an integer constant in decimal notation
    followed by a point and digits, by an exponent, or by both *)
Definition decimal (ds : list Z) : Prop := ds <> [] /\ Forall (Scan_Spec.digit Scan_Model.DEC) ds.
Definition sign (sg : list Z) : Prop := sg = [] \/ sg = [126].
Definition fraction (fr : list Z) : Prop := fr = [] \/ exists ds, fr = 46 :: ds /\ decimal ds.
Definition exponent (ex : list Z) : Prop := ex = [] \/ exists e sg ds, ex = e :: sg ++ ds /\ (e = 101 \/ e = 69) /\ sign sg /\ decimal ds.
Inductive real_constant : list Z -> Prop :=
| real_const sg ds fr ex : sign sg -> decimal ds -> fraction fr -> exponent ex -> (fr <> [] \/ ex <> []) -> real_constant (sg ++ ds ++ fr ++ ex).

Lemma maybe_words r w : matches [] (maybe r) w <-> w = [] \/ matches [] r w.
Proof. unfold maybe. rewrite alt_words, eps_words. tauto. Qed.
Lemma sign_words w : matches [] (maybe (one 126)) w <-> sign w.
Proof. rewrite maybe_words, one_words. unfold sign. tauto. Qed.
Lemma decimal_words w : matches [] (plus (Characters digits)) w <-> decimal w.
Proof. rewrite plus_words, forall_digits. unfold decimal. tauto. Qed.
Lemma real_words w : matches [] (number_re 12) w <-> exists sg ds fr ex, w = sg ++ ds ++ fr ++ ex /\ sign sg /\ decimal ds /\ fraction fr /\ exponent ex.
Proof.
  change (number_re 12) with (Sequence (Sequence (Sequence (maybe (one 126)) (plus (Characters digits)))
      (maybe (Sequence (one 46) (plus (Characters digits)))))
      (maybe (Sequence (Sequence (Characters [101; 69]) (maybe (one 126))) (plus (Characters digits))))).
  rewrite seq_words. split.
  - intros (w1 & ex & -> & H1 & H4). apply seq_words in H1 as (w2 & fr & -> & H1 & H3). apply seq_words in H1 as (sg & ds & -> & H1 & H2).
    exists sg, ds, fr, ex. split; [now rewrite <- !app_assoc|]. split; [now apply sign_words|]. split; [now apply decimal_words|]. split.
    + apply maybe_words in H3 as [H3|H3]; [now left|]. right. apply seq_words in H3 as (w3 & w4 & -> & H3 & H5). apply one_words in H3 as ->. exists w4. split; [auto|now apply decimal_words].
    + apply maybe_words in H4 as [H4|H4]; [now left|]. right. apply seq_words in H4 as (w3 & w4 & -> & H5 & H6). apply seq_words in H5 as (w5 & w6 & -> & H5 & H7).
      apply chars_words in H5 as (e & -> & He). exists e, w6, w4. split; [now rewrite <- app_assoc|]. split; [cbn [In] in He; lia|]. split; [now apply sign_words|now apply decimal_words].
  - intros (sg & ds & fr & ex & -> & H1 & H2 & H3 & H4). exists ((sg ++ ds) ++ fr), ex. split; [now rewrite <- !app_assoc|]. split.
    + apply seq_words. exists (sg ++ ds), fr. split; [auto|]. split.
      * apply seq_words. exists sg, ds. split; [auto|]. split; [now apply sign_words|now apply decimal_words].
      * apply maybe_words. destruct H3 as [->|(d2 & -> & HD)]; [auto|]. right. apply seq_words. exists [46], d2. split; [auto|]. split; [now apply one_words|now apply decimal_words].
    + apply maybe_words. destruct H4 as [->|(e & sg2 & d2 & -> & He & HS & HD)]; [auto|]. right. apply seq_words. exists (e :: sg2), d2. split; [auto|]. split; [|now apply decimal_words].
      apply seq_words. exists [e], sg2. split; [auto|]. split; [apply chars_words; exists e; split; [auto|cbn [In]; lia]|now apply sign_words].
Qed.

(** a real constant has a character that no integer or word constant has at that place *)
Lemma digits_first ds x t ds2 : Forall (Scan_Spec.digit Scan_Model.DEC) ds2 -> ds ++ x :: t = ds2 -> Scan_Spec.digit Scan_Model.DEC x.
Proof. intros H <-. apply Forall_app in H as [_ H]. now inversion H. Qed.
Lemma after_digits ds x t a u : Forall (Scan_Spec.digit Scan_Model.DEC) ds -> ds <> [] -> ds ++ x :: t = 48 :: a :: u -> ~ Scan_Spec.digit Scan_Model.DEC a ->
  ds = [48] /\ x = a /\ t = u.
Proof.
  intros HD N E Na. destruct ds as [|c ds]; [congruence|]. cbn [app] in E. injection E as -> E. destruct ds as [|c2 ds]; cbn [app] in E.
  - injection E as -> ->. auto.
  - injection E as -> E. inversion HD as [|? ? _ HD2]; subst. inversion HD2; subst. contradiction.
Qed.
Lemma real_no_int t : real_constant t -> forall j, (4 <= j <= 11)%nat -> ~ number_word j t.
Proof.
  intros [sg ds fr ex H1 [H2a H2] H3 H4 H5] j Hj.
  assert (NX : ~ Scan_Spec.digit Scan_Model.DEC 120) by (rewrite digit_range; lia).
  assert (NW : ~ Scan_Spec.digit Scan_Model.DEC 119) by (rewrite digit_range; lia).
  assert (N126 : ~ Scan_Spec.digit Scan_Model.DEC 126) by (rewrite digit_range; lia).
  assert (HX : exists x u, fr ++ ex = x :: u /\ (x = 46 \/ x = 101 \/ x = 69)).
  { destruct H3 as [->|(d2 & -> & _)]; [|cbn [app]; eauto]. destruct H4 as [->|(e & s2 & d2 & -> & He & _)]; [tauto|]. cbn [app]. exists e. eexists. split; [reflexivity|tauto]. }
  destruct HX as (x & u & EX & HX). rewrite EX. clear H3 H4 H5 EX.
  assert (Nx : ~ Scan_Spec.digit Scan_Model.DEC x) by (rewrite digit_range; lia).
  assert (HC : exists c d', ds = c :: d' /\ 48 <= c <= 57) by (destruct ds as [|c d']; [congruence|]; exists c, d'; split; [auto|]; inversion H2; subst; now apply digit_range).
  assert (j = 4 \/ j = 5 \/ j = 6 \/ j = 7 \/ j = 8 \/ j = 9 \/ j = 10 \/ j = 11)%nat as Hj' by lia. clear Hj.
  destruct H1 as [-> | ->]; cbn [app]; intros Hw.
  - destruct Hj' as [-> |[-> |[-> |[-> |[-> |[-> |[-> | -> ]]]]]]]; cbn [number_word] in Hw.
    + destruct HC as (c & d' & -> & _). cbn [app] in Hw. injection Hw as _ Hw. destruct d'; discriminate.
    + destruct Hw as (y & Hw & _). destruct HC as (c & d' & -> & _). cbn [app] in Hw. injection Hw as _ Hw. destruct d'; discriminate.
    + destruct Hw as (d2 & Hw & _ & HD). destruct HC as (c & d' & -> & _). cbn [app] in Hw. injection Hw as _ Hw. eapply Nx, digits_first; eauto.
    + destruct Hw as (y & d2 & Hw & _ & _ & HD). destruct HC as (c & d' & -> & _). cbn [app] in Hw. injection Hw as _ Hw. eapply Nx, digits_first; eauto.
    + destruct Hw as (d2 & Hw & _). destruct HC as (c & d' & -> & HC). cbn [app] in Hw. injection Hw as Hw _. lia.
    + destruct Hw as (sg & d2 & Hw & [-> | ->] & _); cbn [app] in Hw.
      * apply after_digits in Hw as (_ & Hw & _); auto. lia.
      * destruct HC as (c & d' & -> & HC). cbn [app] in Hw. injection Hw as Hw _. lia.
    + destruct Hw as (d2 & Hw & _). cbn [app] in Hw. apply after_digits in Hw as (_ & Hw & _); auto. lia.
    + destruct Hw as (d2 & Hw & _). cbn [app] in Hw. apply after_digits in Hw as (_ & Hw & _); auto. lia.
  - destruct Hj' as [-> |[-> |[-> |[-> |[-> |[-> |[-> | -> ]]]]]]]; cbn [number_word] in Hw.
    + discriminate.
    + destruct Hw as (y & Hw & Hy). injection Hw as <- _. lia.
    + now destruct Hw as (d2 & Hw & _).
    + destruct Hw as (y & d2 & Hw & Hy & _). injection Hw as <- _. lia.
    + destruct Hw as (d2 & Hw & _ & HD). injection Hw as Hw. eapply Nx, digits_first; eauto.
    + destruct Hw as (sg & d2 & Hw & [-> | ->] & _); cbn [app] in Hw; [discriminate|]. injection Hw as Hw. apply after_digits in Hw as (_ & Hw & _); auto. lia.
    + now destruct Hw as (d2 & Hw & _).
    + now destruct Hw as (d2 & Hw & _).
Qed.
Lemma real_first t : real_constant t -> exists c0 t', t = c0 :: t' /\ In c0 number_starts.
Proof.
  intros [sg ds fr ex H1 [H2a H2] _ _ _]. destruct ds as [|c ds]; [congruence|]. inversion H2 as [|? ? Hc _]; subst.
  destruct H1 as [-> | ->]; cbn [app]; [exists c; eexists; split; [reflexivity|now apply digit_start]|].
  exists 126. eexists. split; [reflexivity|]. cbn; tauto.
Qed.
Lemma real_step s p t : real_constant t -> prefix s p (length t) = t -> ~ number_char (s (p + zlen t)) -> step TokenN_rules s p 268 (length t).
Proof.
  intros HR EP L. destruct (real_first _ HR) as (c0 & t' & -> & Hc).
  apply (step_intro TokenN_rules s p 12 (number_re 12) 268 _ c0 t' eq_refl EP).
  - apply real_words. remember (c0 :: t') as t. destruct HR as [sg ds fr ex H1 H2 H3 H4 _]. exists sg, ds, fr, ex. auto.
  - intros j r' HI Hj M'. destruct (number_cands _ _ _ Hc HI) as (H1 & -> & _). apply number_words in M'; [|lia]. revert M'. apply real_no_int; [exact HR|lia].
  - intros j r' c w HI Ec M'. destruct (number_cands _ _ _ Hc HI) as (_ & _ & H3). rewrite forallb_forall in H3.
    apply L. rewrite Ec. apply number_charb_ok, H3. apply alphabet_word in M'. rewrite Forall_forall in M'. apply M'.
    right. apply in_app_iff. right. left. reflexivity.
Qed.

(** A real constant is read as one: the token carries exactly its text (the
    conversion to a double by sml_float_of_string is not modelled). *)
Theorem C51_real : forall d pre lay t rest b, lexer d (pre ++ lay ++ t ++ rest) b -> layout lay ->
  real_constant t -> ~ number_char (nth 0 rest 0) ->
  reads d (pre ++ lay ++ t ++ rest) (zlen pre) b (Fine (REAL t, zlen pre + zlen lay, zlen pre + zlen lay + zlen t, b)).
Proof.
  intros d pre lay t rest b L HL HA N1. pose proof L as (HG & HB & HM & Hb).
  assert (HE := len4 pre lay t rest).
  assert (HS := source_at (pre ++ lay) t rest). rewrite zlen_app, <- (app_assoc pre lay) in HS.
  assert (HR := source_rest (pre ++ lay) t rest). rewrite zlen_app, <- (app_assoc pre lay) in HR. rewrite <- HR in N1.
  pose proof (zlen_nonneg pre) as Z1. pose proof (zlen_nonneg lay) as Z2. pose proof (zlen_nonneg t) as Z3.
  apply after_layout; auto.
  set (src := pre ++ lay ++ t ++ rest) in *. set (p := zlen pre + zlen lay) in *.
  destruct (token_known d src HG HB p 268 (length t) ltac:(lia)) as [F HF]; [now apply real_step|].
  exists (S F). intros fuel Hf. destruct fuel as [|fuel]; [lia|]. cbn [TokenN]. rewrite HF by lia. cbn [bind Z.eqb Pos.eqb].
  change (Z.of_nat (length t)) with (zlen t). replace (Z.to_nat (p + zlen t - p)) with (length t) by (unfold zlen; lia). now rewrite HS.
Qed.
Example C51_example_real : real_constant (codes "~1.5e~3") /\ ~ number_char 59.
Proof.
  split; [|unfold number_char; cbn; lia]. change (codes "~1.5e~3") with ([126] ++ [49] ++ [46; 53] ++ [101; 126; 51]).
  assert (D : forall c, 48 <= c <= 57 -> decimal [c]) by (intros c H; split; [discriminate|]; constructor; [now apply digit_range|constructor]).
  constructor; [now right|apply D; lia| | |left; discriminate].
  - right. exists [53]. split; [auto|apply D; lia].
  - right. exists 101, [126], [51]. split; [auto|]. split; [auto|]. split; [now right|apply D; lia].
Qed.

(** ** What number tokens say about the source *)
Definition number_text (tok : token) (t : list Z) : Prop :=
  match tok with
  | ZDIGIT x | NZDIGIT x | ZPOSINT2 x | NZPOSINT2 x | NEGINT x => exists v, x = Arith_Props.rep v /\ in_int v /\ int_constant t v
  | WORD x => exists v, x = Arith_Props.wrep v /\ Arith_Props.word_range v /\ word_constant t v
  | REAL x => x = t /\ real_constant t
  | _ => False
  end.
Definition number_token (tok : token) : Prop :=
  match tok with ZDIGIT _ | NZDIGIT _ | ZPOSINT2 _ | NZPOSINT2 _ | NEGINT _ | WORD _ | REAL _ => True | _ => False end.

Lemma int_dec v : in_int v \/ ~ in_int v.
Proof. unfold in_int. lia. Qed.
Lemma word_dec v : Arith_Props.word_range v \/ ~ Arith_Props.word_range v.
Proof. unfold Arith_Props.word_range. lia. Qed.
Lemma int_says sg ds x : sign sg -> decimal ds -> Scan_Model.sml_int_of_string (sg ++ ds) = Ret x ->
  exists v, x = Arith_Props.rep v /\ in_int v /\ int_constant (sg ++ ds) v.
Proof.
  intros Hs [Hd HD] E. assert (exists sv, minus sg sv) as [sv Hm] by (destruct Hs as [-> | ->]; [exists 1|exists (-1)]; unfold minus; auto).
  destruct (proj1 (Scan_Props.C04_literals sg sv ds Hm) HD) as [L1 L2]. exists (sv * Scan_Spec.value Scan_Model.DEC ds).
  destruct (int_dec (sv * Scan_Spec.value Scan_Model.DEC ds)) as [H|H]; [rewrite (L1 H) in E|rewrite (L2 H) in E; discriminate].
  injection E as <-. split; [reflexivity|]. split; [exact H|]. now constructor.
Qed.
Lemma hex_says sg ds x : sign sg -> ds <> [] -> Forall (Scan_Spec.digit Scan_Model.HEX) ds -> Scan_Model.sml_int_of_hex (sg ++ [48; 120] ++ ds) = Ret x ->
  exists v, x = Arith_Props.rep v /\ in_int v /\ int_constant (sg ++ [48; 120] ++ ds) v.
Proof.
  intros Hs Hd HD E. assert (exists sv, minus sg sv) as [sv Hm] by (destruct Hs as [-> | ->]; [exists 1|exists (-1)]; unfold minus; auto).
  destruct (proj2 (Scan_Props.C04_literals sg sv ds Hm) HD) as [L1 L2]. exists (sv * Scan_Spec.value Scan_Model.HEX ds).
  destruct (int_dec (sv * Scan_Spec.value Scan_Model.HEX ds)) as [H|H]; [rewrite (L1 H) in E|rewrite (L2 H) in E; discriminate].
  injection E as <-. split; [reflexivity|]. split; [exact H|]. now constructor.
Qed.

Lemma digit_decimal c : 48 <= c <= 57 -> decimal [c].
Proof. intros H. split; [discriminate|]. constructor; [now apply digit_range|constructor]. Qed.
Lemma cons_decimal c ds : 48 <= c <= 57 -> Forall (Scan_Spec.digit Scan_Model.DEC) ds -> decimal (c :: ds).
Proof. intros H HD. split; [discriminate|]. constructor; [now apply digit_range|exact HD]. Qed.

(** the rule of a number token, its word and its value *)
Lemma number_line s p l n i : step TokenN_rules s p l n -> (4 <= i <= 11)%nat -> rule_at TokenN_rules l = Some (number_re i) -> number_word i (prefix s p n).
Proof. intros H Hi E. apply number_words; [exact Hi|]. now apply (line_word _ _ _ _ _ H). Qed.

Section Numbers.
  Variables (d : dfa) (src : list Z).
  Hypothesis (HG : generated d) (HB : is_bytes src).
  Notation s := (source src).

  Lemma TokenN_number fuel : forall p b tok st en b', 0 <= p <= zlen src ->
    TokenN d s fuel p b = Ret (Fine (tok, st, en, b')) -> number_token tok ->
    exists t, prefix s st (length t) = t /\ en = st + zlen t /\ en <= zlen src /\ number_text tok t.
  Proof.
    induction fuel as [|fuel IH]; intros p b tok st en b' Hp HR HT; [discriminate|].
    destruct (token_call d src HG HB p Hp) as (l & n & F & HS & Hn & Hin & Hid & HC & _).
    cbn [TokenN] in HR. destruct (HC fuel) as [E|E]; rewrite E in HR; [discriminate|]. cbn [bind] in HR. clear HC E.
    replace (Z.to_nat (p + Z.of_nat n - p)) with n in HR by lia.
    assert (GO : forall tok' : token, l <> 310 -> @Ret (result (token * Z * Z * sbuf)) (Fine (tok', p, p + Z.of_nat n, b)) = Ret (Fine (tok, st, en, b')) -> number_text tok' (prefix s p n) ->
               exists t, prefix s st (length t) = t /\ en = st + zlen t /\ en <= zlen src /\ number_text tok t).
    { intros tok' Nl [= -> -> <- ->] H. exists (prefix s st n). unfold zlen. rewrite prefix_length. specialize (Hin Nl). unfold zlen in Hin. auto. }
    destruct (l =? 233) eqn:E1.
    { assert (l = 233) as -> by lia. specialize (Hin ltac:(discriminate)). apply IH in HR; [exact HR|lia|exact HT]. }
    destruct (l =? 234) eqn:E2.
    { assert (l = 234) as -> by lia. specialize (Hin ltac:(discriminate)).
      destruct (Comment d s fuel p (p + Z.of_nat n) 1) as [[q1|m p1 p2]|e| |] eqn:EC; cbn [bind] in HR; try discriminate.
      apply (Comment_returns_1 d src HG HB) in EC; [|lia]. destruct EC as (u & B1 & B2 & B3 & B4).
      apply IH in HR; [exact HR|pose proof (zlen_nonneg u); lia|exact HT]. }
    destruct (l =? 238); [discriminate|].
    destruct (l =? 240); [injection HR as <- <- <- <-; destruct HT|].
    destruct (l =? 242) eqn:L1.
    { assert (l = 242) as -> by lia. eapply GO; [discriminate|exact HR|].
      pose proof (number_line _ _ _ _ 4 HS ltac:(lia) eq_refl) as W. cbn [number_word] in W. rewrite W. cbn [number_text]. exists 0.
      split; [reflexivity|]. split; [unfold in_int, two62; lia|]. change 0 with (1 * Scan_Spec.value Scan_Model.DEC [48]). apply (ic_decimal [] 1 [48]); [now left|discriminate|].
      apply digit_decimal; lia. }
    destruct (l =? 243) eqn:L2.
    { assert (l = 243) as -> by lia. destruct (Scan_Model.sml_int_of_string _) as [x|e| |] eqn:EI; cbn [bind] in HR; try discriminate. 
      eapply GO; [discriminate|exact HR|]. destruct (number_line _ _ _ _ 5 HS ltac:(lia) eq_refl) as (c & W & Hc). rewrite W in *. cbn [number_text].
      apply (int_says [] [c]); [now left|apply digit_decimal; lia|exact EI]. }
    destruct (l =? 244) eqn:L3.
    { assert (l = 244) as -> by lia. apply constant_fine in HR as (x & EI & HR). eapply GO; [discriminate|rewrite HR; reflexivity|].
      destruct (number_line _ _ _ _ 6 HS ltac:(lia) eq_refl) as (ds & W & _ & HD). rewrite W in *. cbn [number_text].
      apply (int_says [] (48 :: ds)); [now left|apply cons_decimal; [lia|exact HD]|exact EI]. }
    destruct (l =? 248) eqn:L4.
    { assert (l = 248) as -> by lia. apply constant_fine in HR as (x & EI & HR). eapply GO; [discriminate|rewrite HR; reflexivity|].
      destruct (number_line _ _ _ _ 7 HS ltac:(lia) eq_refl) as (c & ds & W & Hc & _ & HD). rewrite W in *. cbn [number_text].
      apply (int_says [] (c :: ds)); [now left|apply cons_decimal; [lia|exact HD]|exact EI]. }
    destruct (l =? 252) eqn:L5.
    { assert (l = 252) as -> by lia. apply constant_fine in HR as (x & EI & HR). eapply GO; [discriminate|rewrite HR; reflexivity|].
      destruct (number_line _ _ _ _ 8 HS ltac:(lia) eq_refl) as (ds & W & HN & HD). rewrite W in *. cbn [number_text].
      apply (int_says [126] ds); [now right|split; assumption|exact EI]. }
    destruct (l =? 256) eqn:L6.
    { assert (l = 256) as -> by lia. apply constant_fine in HR as (x & EI & HR). eapply GO; [discriminate|rewrite HR; reflexivity|].
      destruct (number_line _ _ _ _ 9 HS ltac:(lia) eq_refl) as (sg & ds & W & Hs & HN & HD). rewrite W in *. cbn [number_text].
      apply hex_says; assumption. }
    destruct (l =? 260) eqn:L7.
    { assert (l = 260) as -> by lia. apply constant_fine in HR as (x & EI & HR). eapply GO; [discriminate|rewrite HR; reflexivity|].
      destruct (number_line _ _ _ _ 10 HS ltac:(lia) eq_refl) as (ds & W & HN & HD). rewrite W in *. cbn [number_text].
      destruct (proj1 (Scan_Props.C05_literals ds) HD) as [K1 K2]. destruct (word_dec (Scan_Spec.value Scan_Model.DEC ds)) as [H|H]; [|rewrite (K2 H) in EI; discriminate].
      rewrite (K1 H) in EI. injection EI as <-. eexists. split; [reflexivity|]. split; [exact H|]. now constructor. }
    destruct (l =? 264) eqn:L8.
    { assert (l = 264) as -> by lia. apply constant_fine in HR as (x & EI & HR). eapply GO; [discriminate|rewrite HR; reflexivity|].
      destruct (number_line _ _ _ _ 11 HS ltac:(lia) eq_refl) as (ds & W & HN & HD). rewrite W in *. cbn [number_text].
      destruct (proj2 (Scan_Props.C05_literals ds) HD) as [K1 K2]. destruct (word_dec (Scan_Spec.value Scan_Model.HEX ds)) as [H|H]; [|rewrite (K2 H) in EI; discriminate].
      rewrite (K1 H) in EI. injection EI as <-. eexists. split; [reflexivity|]. split; [exact H|]. now constructor. }
    destruct (l =? 268) eqn:L9.
    { assert (l = 268) as -> by lia. eapply GO; [discriminate|exact HR|]. cbn [number_text]. split; [reflexivity|].
      pose proof (line_word _ _ _ _ (number_re 12) HS eq_refl) as M. apply real_words in M as (sg & ds & fr & ex & W & H1 & H2 & H3 & H4). rewrite W. constructor; auto.
      destruct fr as [|f fr]; [|left; discriminate]. destruct ex as [|e ex]; [|right; discriminate]. exfalso. rewrite !app_nil_r in W.
      destruct HS as (i & r & l' & E & (r0 & l0 & E0 & M0) & B & _).
      assert (i = 12%nat).
      { do 28 (destruct i as [|i]; [first [discriminate E|reflexivity]|]). destruct i; discriminate E. }
      subst i. assert (FIRST : forall j, (4 <= j <= 8)%nat -> ~ number_word j (prefix s p n)).
      { intros j Hj Hw. apply (B j ltac:(lia)). apply number_words in Hw; [|lia]. unfold number_re in Hw.
        destruct (nth_error TokenN_rules j) as [[rj lj]|] eqn:Ej; [exists rj, lj; auto|]. apply nth_error_None in Ej. vm_compute in Ej. lia. }
      destruct H2 as [HN HD]. destruct H1 as [-> | ->]; cbn [app] in W.
      - destruct ds as [|c [|c2 ds]]; [congruence| |].
        + inversion HD as [|? ? Hc _]; subst. apply digit_range in Hc. destruct (Z.eq_dec c 48) as [->|N].
          * apply (FIRST 4%nat ltac:(lia)). exact W.
          * apply (FIRST 5%nat ltac:(lia)). exists c. split; [exact W|lia].
        + inversion HD as [|? ? Hc HD2]; subst. apply digit_range in Hc. destruct (Z.eq_dec c 48) as [->|N].
          * apply (FIRST 6%nat ltac:(lia)). exists (c2 :: ds). split; [exact W|]. split; [discriminate|exact HD2].
          * apply (FIRST 7%nat ltac:(lia)). exists c, (c2 :: ds). split; [exact W|]. split; [lia|]. split; [discriminate|exact HD2].
      - apply (FIRST 8%nat ltac:(lia)). exists ds. auto. }
    destruct (l =? 272).
    { destruct (scanString d s fuel p (p + Z.of_nat n) b) as [[[q1 b1]|m p1 p2]|e| |]; cbn [bind] in HR; try discriminate.
      destruct (get_stored_string b1) as [[v b2]|e| |]; cbn [bind] in HR; try discriminate. injection HR as <- <- <- <-. destruct HT. }
    destruct (l =? 276).
    { destruct (scanString d s fuel p (p + Z.of_nat n) b) as [[[q1 b1]|m p1 p2]|e| |]; cbn [bind] in HR; try discriminate.
      destruct (get_stored_string b1) as [[v b2]|e| |]; cbn [bind] in HR; try discriminate.
      destruct v as [|c [|]]; try discriminate. injection HR as <- <- <- <-. destruct HT. }
    destruct (l =? 310); [injection HR as <- <- <- <-; destruct HT|].
    destruct (l =? 311).
    { unfold TokenId in HR. destruct (call fuel d s "TokenId" _) as [[l2 q]|e| |]; cbn [bind] in HR; try discriminate.
      destruct (l2 =? 314); [injection HR as <- <- <- <-; unfold mkKeyword in HT; destruct (existsb _ _); destruct HT|].
      destruct (l2 =? 318); [|discriminate]. injection HR as <- <- <- <-. unfold mkQualId in HT. destruct (match splitQualId _ with [i] => _ | _ => _ end); destruct HT. }
    injection HR as <- <- <- <-. destruct HT.
  Qed.
End Numbers.

(** Whatever the lexer returns as an integer, word or real constant is one in the
    source, with that value and within the range of the type. *)
Theorem C51_only_numbers : forall d src b p tok st en b', lexer d src b -> 0 <= p <= zlen src ->
  reads d src p b (Fine (tok, st, en, b')) -> number_token tok ->
  exists pre lay t rest, src = pre ++ lay ++ t ++ rest /\ zlen pre = p /\ layout lay /\ st = p + zlen lay /\ en = st + zlen t /\ number_text tok t.
Proof.
  intros d src b p tok st en b' L Hp HR HT. destruct (C51_only _ _ _ _ _ _ _ _ L Hp HR) as (_ & pre & lay & rest & E & EP & HL & ES & _).
  destruct L as (HG & HB & HM & Hb). destruct HR as [F HF].
  destruct (TokenN_number d src HG HB F p b tok st en b' Hp (HF F (le_n _)) HT) as (t & T1 & T2 & T3 & T4).
  pose proof (zlen_nonneg lay).
  destruct (at_source src t st ltac:(lia) ltac:(lia) T1) as (pre' & rest' & E' & EP').
  exists pre, lay, t, rest'. split; [|auto 10]. rewrite E'. rewrite (app_assoc pre lay). f_equal.
  rewrite E, app_assoc in E'. apply (f_equal (firstn (length pre'))) in E'.
  rewrite (firstn_app (length pre') pre'), firstn_all, Nat.sub_diag in E'. cbn [firstn] in E'. rewrite app_nil_r in E'. rewrite <- E'.
  replace (length pre') with (length (pre ++ lay)) by (rewrite app_length; unfold zlen in *; lia).
  now rewrite firstn_app, firstn_all, Nat.sub_diag, app_nil_r.
Qed.
Example C51_example_only_numbers : forall d b, lexer d (codes " 17;") b ->
  exists tok, number_token tok /\ reads d (codes " 17;") 0 b (Fine (tok, 1, 3, b)).
Proof.
  intros d b L. assert (C : int_constant [49; 55] 17).
  { change 17 with (1 * Scan_Spec.value Scan_Model.DEC [49; 55]). apply (ic_decimal [] 1 [49; 55]); [now left|discriminate|apply cons_decimal; [lia|]; apply digit_decimal; lia]. }
  destruct (C51_int d [] [32] [49; 55] [59] 17 b L) as [H _].
  - constructor; [cbn; tauto|constructor].
  - exact C.
  - unfold number_char. cbn. lia.
  - destruct H as (tok & HT & HR); [unfold in_int, two62; lia|]. exists tok. split; [|exact HR]. destruct tok; try discriminate; exact Logic.I.
Qed.

Print Assumptions C51_identifier.
Print Assumptions C51_real.
Print Assumptions C51_only_numbers.
