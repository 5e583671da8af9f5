(** C51: constants, comments and layout of source programs are read as the
    Definition of Standard ML says. *)
From Coq Require Import String.
From Verif Require Import Base ArrayLib Lex_Model Lex_Spec Token_Model Token_Spec Token_Proofs Token_String Token_Scan Token_Comment Token_Token.
From Verif Require Import Token_Number_Spec Token_Number.
From Verif Require Import Lex_Props.
From Verif Require Buffer_Model Scan_Model Scan_Spec Scan_Props Arith_Props Escape_Model Escape_Props Escape_Spec.
Close Scope string_scope.
Open Scope list_scope.
Open Scope Z_scope.

(** [d] are the tables mosmllex generates from Lexer.lex; the source program is a
    sequence of bytes (of less than 64 petabytes), and the string buffer is as
    createLexerBuffer or earlier tokens left it. *)
Definition lexer (d : dfa) (src : list Z) (b : sbuf) : Prop :=
  generated d /\ is_bytes src /\ 2 * zlen src <= maxLen /\ buffer_ok b.

(** The lexer, called at position p, returns r. *)
Definition reads (d : dfa) (src : list Z) (p : Z) (b : sbuf) (r : result (token * Z * Z * sbuf)) : Prop :=
  exists F, forall fuel, (F <= fuel)%nat -> TokenN d (source src) fuel p b = Ret r.

(** *** Sources *)
Lemma source_at pre t rest : prefix (source (pre ++ t ++ rest)) (zlen pre) (length t) = t.
Proof.
  revert pre. induction t as [|c t IH]; intros pre; [reflexivity|]. cbn [length prefix]. f_equal.
  - unfold source, zlen. rewrite Nat2Z.id, app_nth2, Nat.sub_diag by lia. reflexivity.
  - specialize (IH (pre ++ [c])). rewrite zlen_app in IH. change (zlen [c]) with 1 in IH. rewrite <- app_assoc in IH. exact IH.
Qed.
Lemma source_rest pre t rest : source (pre ++ t ++ rest) (zlen pre + zlen t) = nth 0 rest 0.
Proof.
  unfold source, zlen. replace (Z.to_nat _) with (length pre + length t)%nat by lia. rewrite app_nth2_plus.
  rewrite app_nth2, Nat.sub_diag by lia. reflexivity.
Qed.
Lemma at_source src t : forall p, 0 <= p -> p + zlen t <= zlen src -> prefix (source src) p (length t) = t ->
  exists pre rest, src = pre ++ t ++ rest /\ zlen pre = p.
Proof.
  induction t as [|c t IH]; intros p Hp HE HS.
  - exists (firstn (Z.to_nat p) src), (skipn (Z.to_nat p) src). split; [symmetry; apply firstn_skipn|].
    unfold zlen in *. cbn [length] in HE. rewrite firstn_length. lia.
  - rewrite zlen_cons in HE. cbn [length prefix] in HS. injection HS as H0 H1. pose proof (zlen_nonneg t).
    destruct (IH (p + 1) ltac:(lia) ltac:(lia) H1) as (pre & rest & E & EL).
    destruct (exists_last (l := pre)) as (pre' & x & EP); [intros ->; change (zlen (@nil Z)) with 0 in EL; lia|].
    subst pre. rewrite zlen_app in EL. change (zlen [x]) with 1 in EL. exists pre', rest. split; [|lia].
    assert (x = c) as ->; [|now rewrite E, <- app_assoc]. rewrite <- H0, E, <- app_assoc. unfold source.
    replace (Z.to_nat p) with (length pre') by (unfold zlen in EL; lia). rewrite app_nth2, Nat.sub_diag by lia. reflexivity.
Qed.
Lemma len4 (pre lay t rest : list Z) : zlen pre + zlen lay + zlen t <= zlen (pre ++ lay ++ t ++ rest).
Proof. rewrite !zlen_app. pose proof (zlen_nonneg rest). lia. Qed.
Lemma reads_unique d src p b r r' : reads d src p b r -> reads d src p b r' -> r = r'.
Proof. intros [F H] [F' H']. specialize (H (Nat.max F F') ltac:(lia)). specialize (H' (Nat.max F F') ltac:(lia)). congruence. Qed.

(** ** The lexer exists *)
Theorem C51_generated : exists d, generated d.
Proof.
  destruct (C37_generates [] lexer_definition) as [fuel0 H].
  - split; [exact Logic.I|]. intros e c n HI Hc Hn. exfalso. revert Hn.
    assert (A : forallb (fun er : name * casedef => forallb (fun c : re * location => match names (fst c) with [] => true | _ => false end) (snd er)) lexer_definition = true)
      by (vm_compute; reflexivity).
    rewrite forallb_forall in A. specialize (A _ HI). rewrite forallb_forall in A. specialize (A _ Hc).
    destruct (names (fst c)); [intros []|discriminate].
  - split; [intros s r []|]. intros e c HI Hc.
    assert (A : forallb (fun er : name * casedef => forallb (fun c : re * location => forallb (forallb (fun x => (0 <=? x) && (x <? 256))) (classes (fst c))) (snd er)) lexer_definition = true)
      by (vm_compute; reflexivity).
    rewrite forallb_forall in A. specialize (A _ HI). rewrite forallb_forall in A. specialize (A _ Hc).
    apply Forall_forall. intros cl Hcl. rewrite forallb_forall in A. specialize (A _ Hcl). apply Forall_forall. intros x Hx.
    rewrite forallb_forall in A. specialize (A _ Hx). lia.
  - destruct (H fuel0 (le_n _)) as [d E]. exists d, fuel0. exact E.
Qed.

(** ** Layout: white space and comments before a token do not matter. *)
Theorem C51_layout : forall d pre lay rest b r, lexer d (pre ++ lay ++ rest) b -> layout lay ->
  (reads d (pre ++ lay ++ rest) (zlen pre) b r <-> reads d (pre ++ lay ++ rest) (zlen pre + zlen lay) b r).
Proof.
  intros d pre lay rest b r (HG & HB & HM & Hb) HL.
  assert (HE : zlen pre + zlen lay <= zlen (pre ++ lay ++ rest)) by (rewrite !zlen_app; pose proof (zlen_nonneg rest); lia).
  destruct (TokenN_layout d _ HG HB lay HL (zlen pre) b (zlen_nonneg pre) HE (source_at pre lay rest)) as (F & m & HR).
  split; intros [F1 H1].
  - exists (F + F1)%nat. intros fuel Hf. rewrite <- HR by lia. apply H1. lia.
  - exists (m + F + F1)%nat. intros fuel Hf. replace fuel with (m + (fuel - m))%nat by lia. rewrite HR by lia. apply H1. lia.
Qed.

Lemma after_layout d pre lay rest b r : lexer d (pre ++ lay ++ rest) b -> layout lay ->
  reads d (pre ++ lay ++ rest) (zlen pre + zlen lay) b r -> reads d (pre ++ lay ++ rest) (zlen pre) b r.
Proof. intros H1 H2. now apply C51_layout. Qed.

(** ** String constants: layout, a quote, a text denoting v, a quote are read as the constant v. *)
Theorem C51_string : forall d pre lay text rest v b,
  lexer d (pre ++ lay ++ ([34] ++ text ++ [34]) ++ rest) b -> layout lay -> denotes mosml_plain mosml_formatting text v ->
  exists b', buffer_ok b' /\
    reads d (pre ++ lay ++ ([34] ++ text ++ [34]) ++ rest) (zlen pre) b
      (Fine (STRING v, zlen pre + zlen lay, zlen pre + zlen lay + zlen text + 2, b')).
Proof.
  intros d pre lay text rest v b L HL HD. pose proof L as (HG & HB & HM & Hb).
  assert (HS := source_at (pre ++ lay) ([34] ++ text ++ [34]) rest). rewrite zlen_app, <- (app_assoc pre lay) in HS.
  pose proof (zlen_nonneg pre). pose proof (zlen_nonneg lay).
  destruct (TokenN_string d _ HG HB HM text v (zlen pre + zlen lay) b HD Hb ltac:(lia)) as (F & b' & H1 & H2); [|exact HS|].
  - rewrite !zlen_app. change (zlen [34]) with 1. pose proof (zlen_nonneg rest). lia.
  - exists b'. split; [exact H1|]. apply after_layout; auto. exists F. exact H2.
Qed.

(** ** Character constants: likewise, and the text must denote one character. *)
Theorem C51_char : forall d pre lay text rest v b,
  lexer d (pre ++ lay ++ ([35; 34] ++ text ++ [34]) ++ rest) b -> layout lay -> denotes mosml_plain mosml_formatting text v ->
  exists b', buffer_ok b' /\
    reads d (pre ++ lay ++ ([35; 34] ++ text ++ [34]) ++ rest) (zlen pre) b
      (match v with
       | [c] => Fine (CHAR c, zlen pre + zlen lay, zlen pre + zlen lay + zlen text + 3, b')
       | _ => Error IllFormedChar (zlen pre + zlen lay) (zlen pre + zlen lay + zlen text + 3)
       end).
Proof.
  intros d pre lay text rest v b L HL HD. pose proof L as (HG & HB & HM & Hb).
  assert (HS := source_at (pre ++ lay) ([35; 34] ++ text ++ [34]) rest). rewrite zlen_app, <- (app_assoc pre lay) in HS.
  pose proof (zlen_nonneg pre). pose proof (zlen_nonneg lay).
  destruct (TokenN_char d _ HG HB HM text v (zlen pre + zlen lay) b HD Hb ltac:(lia)) as (F & b' & H1 & H2); [|exact HS|].
  - rewrite !zlen_app. change (zlen [35; 34]) with 2. change (zlen [34]) with 1. pose proof (zlen_nonneg rest). lia.
  - exists b'. split; [exact H1|]. apply after_layout; auto. exists F. exact H2.
Qed.

(** ** Integer constants are read as the integer they denote, and refused if that
    is not an ML integer; word constants likewise. *)
Theorem C51_int : forall d pre lay t rest v b, lexer d (pre ++ lay ++ t ++ rest) b -> layout lay ->
  int_constant t v -> ~ number_char (nth 0 rest 0) ->
  (in_int v -> exists tok, int_token tok = Some (Arith_Props.rep v) /\
     reads d (pre ++ lay ++ t ++ rest) (zlen pre) b (Fine (tok, zlen pre + zlen lay, zlen pre + zlen lay + zlen t, b))) /\
  (~ in_int v -> reads d (pre ++ lay ++ t ++ rest) (zlen pre) b (Error TooLarge (zlen pre + zlen lay) (zlen pre + zlen lay + zlen t))).
Proof.
  intros d pre lay t rest v b L HL HD HC. pose proof L as (HG & HB & HM & Hb).
  assert (HE := len4 pre lay t rest).
  assert (HS := source_at (pre ++ lay) t rest). rewrite zlen_app, <- (app_assoc pre lay) in HS.
  assert (HR := source_rest (pre ++ lay) t rest). rewrite zlen_app, <- (app_assoc pre lay) in HR. rewrite <- HR in HC.
  pose proof (zlen_nonneg pre). pose proof (zlen_nonneg lay).
  destruct (TokenN_int d _ HG HB t v (zlen pre + zlen lay) b HD ltac:(lia) HE HS HC) as (F & H1). split; intros HV.
  - destruct (proj1 (H1 F (le_n _)) HV) as (tok & ET & HF). exists tok. split; [exact ET|]. apply after_layout; auto. exists F. intros fuel Hf.
    destruct (TokenN_mono d (source (pre ++ lay ++ t ++ rest)) F fuel (zlen pre + zlen lay) b Hf) as [E|E]; congruence.
  - apply after_layout; auto. exists F. intros fuel Hf. now apply H1.
Qed.
Theorem C51_word : forall d pre lay t rest v b, lexer d (pre ++ lay ++ t ++ rest) b -> layout lay ->
  word_constant t v -> ~ number_char (nth 0 rest 0) ->
  (Arith_Props.word_range v ->
     reads d (pre ++ lay ++ t ++ rest) (zlen pre) b (Fine (WORD (Arith_Props.wrep v), zlen pre + zlen lay, zlen pre + zlen lay + zlen t, b))) /\
  (~ Arith_Props.word_range v ->
     reads d (pre ++ lay ++ t ++ rest) (zlen pre) b (Error TooLarge (zlen pre + zlen lay) (zlen pre + zlen lay + zlen t))).
Proof.
  intros d pre lay t rest v b L HL HD HC. pose proof L as (HG & HB & HM & Hb).
  assert (HE := len4 pre lay t rest).
  assert (HS := source_at (pre ++ lay) t rest). rewrite zlen_app, <- (app_assoc pre lay) in HS.
  assert (HR := source_rest (pre ++ lay) t rest). rewrite zlen_app, <- (app_assoc pre lay) in HR. rewrite <- HR in HC.
  pose proof (zlen_nonneg pre). pose proof (zlen_nonneg lay).
  destruct (TokenN_word d _ HG HB t v (zlen pre + zlen lay) b HD ltac:(lia) HE HS HC) as (F & H1).
  split; intros HV; (apply after_layout; auto; exists F; intros fuel Hf; now apply H1).
Qed.

(** ** Nothing else is read as a constant: what the lexer returns is what the source says. *)
Theorem C51_only : forall d src b p tok st en b', lexer d src b -> 0 <= p <= zlen src ->
  reads d src p b (Fine (tok, st, en, b')) ->
  buffer_ok b' /\
  exists pre lay rest, src = pre ++ lay ++ rest /\ zlen pre = p /\ layout lay /\ st = p + zlen lay /\
    match tok with
    | STRING v => exists text rest', rest = [34] ++ text ++ [34] ++ rest' /\ en = st + zlen text + 2 /\
        denotes mosml_plain mosml_formatting text v
    | CHAR c => exists text rest', rest = [35; 34] ++ text ++ [34] ++ rest' /\ en = st + zlen text + 3 /\
        denotes mosml_plain mosml_formatting text [c]
    | EOF => rest = [] \/ exists rest', rest = 0 :: rest' \/ rest = 26 :: rest'
    | _ => True
    end.
Proof.
  intros d src b p tok st en b' (HG & HB & HM & Hb) Hp [F HF].
  destruct (TokenN_returns d src HG HB HM F p b tok st en b' Hb Hp (HF F (le_n _))) as (A1 & A2 & lay & A3 & A4 & A5 & A6).
  split; [exact A1|]. pose proof (zlen_nonneg lay).
  destruct (at_source src lay p ltac:(lia) ltac:(lia) A4) as (pre & rest & E & EP). exists pre, lay, rest.
  do 4 (split; [assumption|]).
  assert (HERE : forall t, st + zlen t <= zlen src -> prefix (source src) st (length t) = t -> exists rest', rest = t ++ rest').
  { intros t H1 H2. destruct (at_source src t st ltac:(lia) H1 H2) as (pre' & rest' & E' & EP'). exists rest'.
    rewrite E in E'. rewrite app_assoc in E'. apply (f_equal (skipn (length pre'))) in E'.
    rewrite (skipn_app (length pre') pre'), skipn_all, Nat.sub_diag in E'. cbn [skipn app] in E'. rewrite <- E'.
    replace (length pre') with (length (pre ++ lay)) by (rewrite app_length; unfold zlen in *; lia).
    now rewrite skipn_app, skipn_all, Nat.sub_diag. }
  destruct tok; try exact Logic.I; cbn [says] in A2.
  - destruct A2 as (text & B1 & B2 & B3 & B4). exists text. destruct (HERE ([34] ++ text ++ [34])) as [rest' ER].
    + rewrite !zlen_app. change (zlen [34]) with 1. lia.
    + exact B1.
    + exists rest'. split; [now rewrite ER, <- !app_assoc|]. auto.
  - destruct A2 as (text & B1 & B2 & B3 & B4). exists text. destruct (HERE ([35; 34] ++ text ++ [34])) as [rest' ER].
    + rewrite !zlen_app. change (zlen [34]) with 1. change (zlen [35; 34]) with 2. lia.
    + exact B1.
    + exists rest'. split; [now rewrite ER, <- !app_assoc|]. auto.
  - destruct rest as [|c rest']; [auto|]. right. exists rest'. assert (EC : source src st = c).
    { rewrite E, A5, <- EP. assert (X := source_rest pre lay (c :: rest')). exact X. }
    rewrite EC in A2. destruct A2 as [-> | ->]; auto.
Qed.

(** ** The lexer always returns a token or raises LexicalError *)
Theorem C51_ends : forall d src b p, lexer d src b -> 0 <= p <= zlen src -> exists r, reads d src p b r.
Proof.
  intros d src b p (HG & HB & HM & Hb) Hp. destruct (TokenN_total d src HG HB HM p b Hb Hp) as (F & r & H). exists r, F. exact H.
Qed.

(** a string constant that is not closed or contains something else is refused *)
Theorem C51_bad_string : forall d pre lay t b, lexer d (pre ++ lay ++ [34] ++ t) b -> layout lay ->
  (forall text rest v, t = text ++ [34] ++ rest -> ~ denotes mosml_plain mosml_formatting text v) ->
  exists m p1 p2, reads d (pre ++ lay ++ [34] ++ t) (zlen pre) b (Error m p1 p2).
Proof.
  intros d pre lay t b L HL NV. pose proof L as (HG & HB & HM & Hb). set (src := pre ++ lay ++ [34] ++ t) in *.
  pose proof (zlen_nonneg pre) as Z1. pose proof (zlen_nonneg lay) as Z2. pose proof (zlen_nonneg t) as Z3.
  assert (LS : zlen src = zlen pre + zlen lay + 1 + zlen t) by (unfold src; rewrite !zlen_app; change (zlen [34]) with 1; lia).
  set (p := zlen pre + zlen lay). assert (S0 : source src p = 34).
  { assert (X := source_rest pre lay ([34] ++ t)). exact X. }
  destruct (token_known d src HG HB p 272 1 ltac:(lia) (dquote_step _ _ S0)) as [F HF].
  destruct (String_total d src HG HB HM p (p + 1) _ [] (reset_ok b Hb) ltac:(change (zlen (@nil Z)) with 0; lia) ltac:(lia)) as (F1 & r & H1).
  destruct r as [[q1 b1]|m p1 p2].
  - exfalso. pose proof (H1 F1 (le_n _)) as HR. apply (String_returns d src HG HB HM p F1 _ _ []) in HR; [|now apply reset_ok|change (zlen (@nil Z)) with 0; lia|lia].
    destruct HR as (text & v & B1 & B2 & B3 & B4 & _). pose proof (zlen_nonneg text).
    destruct (at_source src (text ++ [34]) (p + 1)) as (pre' & rest & E & EP); [lia|rewrite zlen_app; change (zlen [34]) with 1; lia|exact B1|].
    apply (NV text rest v); [|exact B4]. apply (f_equal (skipn (length pre'))) in E.
    rewrite (skipn_app (length pre') pre'), skipn_all, Nat.sub_diag in E. cbn [skipn app] in E. rewrite <- app_assoc in E. rewrite <- E.
    unfold src. replace (pre ++ lay ++ [34] ++ t) with ((pre ++ lay ++ [34]) ++ t) by now rewrite <- !app_assoc.
    replace (length pre') with (length (pre ++ lay ++ [34])) by (rewrite !app_length; unfold p, zlen in EP; cbn [length]; lia).
    now rewrite skipn_app, skipn_all, Nat.sub_diag.
  - exists m, p1, p2. apply C51_layout; auto. exists (S (F + F1)). intros fuel Hf. destruct fuel as [|fuel]; [lia|]. fold src p. cbn [TokenN].
    rewrite HF by lia. cbn [bind Z.eqb Pos.eqb]. change (Z.of_nat 1) with 1. unfold scanString. rewrite H1 by lia. reflexivity.
Qed.

(** a comment that is not closed is refused, and the error names where it begins *)
Theorem C51_bad_comment : forall d pre lay t b, lexer d (pre ++ lay ++ [40; 42] ++ t) b -> layout lay ->
  (forall u rest, t = u ++ rest -> ~ comment_rest u) ->
  exists q, reads d (pre ++ lay ++ [40; 42] ++ t) (zlen pre) b (Error CommentNotTerminated (zlen pre + zlen lay) q).
Proof.
  intros d pre lay t b L HL NV. pose proof L as (HG & HB & HM & Hb). set (src := pre ++ lay ++ [40; 42] ++ t) in *.
  pose proof (zlen_nonneg pre) as Z1. pose proof (zlen_nonneg lay) as Z2. pose proof (zlen_nonneg t) as Z3.
  assert (LS : zlen src = zlen pre + zlen lay + 2 + zlen t) by (unfold src; rewrite !zlen_app; change (zlen [40; 42]) with 2; lia).
  set (p := zlen pre + zlen lay).
  assert (HS := source_at (pre ++ lay) [40; 42] t). rewrite zlen_app, <- (app_assoc pre lay) in HS. fold src p in HS.
  cbn [length prefix] in HS. injection HS as S0 S1.
  destruct (token_known d src HG HB p 234 2 ltac:(lia) (open_step _ _ S0 S1)) as [F HF].
  destruct (Comment_total d src HG HB p (p + 2) 1 ltac:(lia)) as (F1 & r & H1 & H2).
  destruct r as [q|m p1 p2].
  - exfalso. pose proof (H1 F1 (le_n _)) as HR. apply (Comment_returns_1 d src HG HB) in HR; [|lia].
    destruct HR as (u & B1 & B2 & B3 & B4). pose proof (zlen_nonneg u).
    destruct (at_source src u (p + 2)) as (pre' & rest & E & EP); [lia|lia|exact B1|].
    apply (NV u rest); [|exact B4]. apply (f_equal (skipn (length pre'))) in E.
    rewrite (skipn_app (length pre') pre'), skipn_all, Nat.sub_diag in E. cbn [skipn app] in E. rewrite <- E.
    unfold src. replace (pre ++ lay ++ [40; 42] ++ t) with ((pre ++ lay ++ [40; 42]) ++ t) by now rewrite <- !app_assoc.
    replace (length pre') with (length (pre ++ lay ++ [40; 42])) by (rewrite !app_length; unfold p, zlen in EP; cbn [length]; lia).
    now rewrite skipn_app, skipn_all, Nat.sub_diag.
  - destruct H2 as [-> ->]. exists p2. apply C51_layout; auto. exists (S (F + F1)). intros fuel Hf. destruct fuel as [|fuel]; [lia|]. fold src p. cbn [TokenN].
    rewrite HF by lia. cbn [bind Z.eqb Pos.eqb]. change (p + Z.of_nat 2) with (p + 2). rewrite H1 by lia. reflexivity.
Qed.

(** ** The constants of the Definition.  Without formfeeds in gaps, string constants
    mean what the Definition says; missing: gaps with formfeeds, see below. *)
Lemma denotes_weaker (P P' Q Q' : Z -> Prop) t v : (forall c, P c -> P' c) -> (forall c, Q c -> Q' c) -> denotes P Q t v -> denotes P' Q' t v.
Proof.
  intros HP HQ H. induction H as [|t v t' v' HI HD IH]; [constructor|]. constructor; [|exact IH].
  destruct HI; try (econstructor; eauto; fail). apply i_gap; [auto|]. eapply Forall_impl; [|eassumption]. auto.
Qed.
Theorem C51_sml_literals_partial : forall d pre lay text rest v b,
  lexer d (pre ++ lay ++ ([34] ++ text ++ [34]) ++ rest) b -> layout lay ->
  denotes sml_plain (fun c => sml_formatting c /\ c <> 12) text v ->
  exists b', buffer_ok b' /\
    reads d (pre ++ lay ++ ([34] ++ text ++ [34]) ++ rest) (zlen pre) b
      (Fine (STRING v, zlen pre + zlen lay, zlen pre + zlen lay + zlen text + 2, b')).
Proof.
  intros d pre lay text rest v b L HL HD. apply C51_string; auto. revert HD. apply denotes_weaker.
  - intros c. unfold sml_plain, mosml_plain. lia.
  - intros c. unfold sml_formatting, mosml_formatting. cbn. lia.
Qed.

Ltac bytes := repeat (apply Forall_cons; [lia|]); apply Forall_nil.

(** A formfeed separates tokens but may not stand in a gap. *)
Theorem C51_formfeed_gap_refuted : exists text v, denotes sml_plain sml_formatting text v /\
  forall d b, lexer d ([34] ++ text ++ [34]) b -> exists m p1 p2, reads d ([34] ++ text ++ [34]) 0 b (Error m p1 p2).
Proof.
  exists [97; 92; 12; 92; 98], [97; 98]. split.
  - apply (d_item _ _ [97] [97]); [constructor; unfold sml_plain; lia|]. apply (d_item _ _ [92; 12; 92] []).
    + apply (i_gap _ _ [12]); [discriminate|]. constructor; [cbn; auto|constructor].
    + apply (d_item _ _ [98] [98] [] []); [constructor; unfold sml_plain; lia|constructor].
  - intros d b L. apply (C51_bad_string d [] [] [97; 92; 12; 92; 98; 34] b L); [constructor|].
    intros text rest v E HD. inversion HD as [E1 E2|t1 v1 t2 v2 HI HD2 E1 E2]; subst; [discriminate|]. clear HD.
    assert (N : forall t v, denotes mosml_plain mosml_formatting t v -> forall r, 92 :: 12 :: r <> t ++ [34] ++ rest).
    { intros t' v' HD r ER. inversion HD as [X1 X2|t3 v3 t4 v4 HI3 _ X1 X2]; subst; [discriminate|].
      destruct HI3 as [x Hx|x y Hx|x Hx|x1 x2 x3 c1 c2 c3 Hx _ _ _|x1 x2 x3 x4 c1 c2 c3 c4 _ _ _ _ _|g H1 H2]; cbn [app] in ER.
      - injection ER as <- _. unfold mosml_plain in Hx. lia.
      - injection ER as <- _. cbn in Hx. repeat (destruct Hx as [[=]|Hx]). exact Hx.
      - discriminate.
      - injection ER as <- _. unfold digit in Hx. lia.
      - discriminate.
      - destruct g as [|g0 g]; [congruence|]. injection ER as <- _. inversion H2 as [|? ? H3]; subst. cbn in H3. lia. }
    destruct HI as [x Hx|x y Hx|x Hx|x1 x2 x3 c1 c2 c3 Hx _ _ _|x1 x2 x3 x4 c1 c2 c3 c4 _ _ _ _ _|g H1 H2]; cbn [app] in E; try discriminate.
    injection E as _ E. exact (N _ _ HD2 _ E).
Qed.
(** Characters that are not printable, here the escape character 27, may stand
    for themselves in string constants, though the Definition forbids it. *)
Lemma denotes_plain_only (Q : Z -> Prop) c v : denotes sml_plain Q [c] v -> sml_plain c.
Proof.
  intros H. remember [c] as t eqn:E. induction H as [|t v t' v' HI HD IH]; [discriminate|].
  destruct HI as [x Hx|x y H1|x H1|x1 x2 x3 c1 c2 c3 H1 H2 H3 H4|x1 x2 x3 x4 c1 c2 c3 c4 H1 H2 H3 H4 H5|f H1 H2];
    cbn [app] in E; try discriminate.
  - injection E as -> _. exact Hx.
  - exfalso. injection E as _ E. destruct f; [congruence|discriminate].
Qed.
Theorem C51_nonprintable_refuted : exists text, (forall v, ~ denotes sml_plain sml_formatting text v) /\
  forall d b, lexer d ([34] ++ text ++ [34]) b ->
  exists b', reads d ([34] ++ text ++ [34]) 0 b (Fine (STRING text, 0, 3, b')).
Proof.
  exists [27]. split; [intros v H; apply denotes_plain_only in H; unfold sml_plain in H; lia|]. intros d b L.
  destruct (C51_string d [] [] [27] [] [27] b L l_end) as (b' & _ & H).
  - apply (d_item _ _ [27] [27] [] []); [constructor; unfold mosml_plain; lia|constructor].
  - exists b'. exact H.
Qed.

(** ** What String.toString prints, between quotes, is read as the string. *)
Definition simple_item (e : list Z) (c : Z) : bool :=
  match e with
  | [x] => (x =? c) && (32 <=? x) && (x <=? 126) && negb (x =? 34) && negb (x =? 92)
  | [b; x] => (b =? 92) && existsb (fun xc => (fst xc =? x) && (snd xc =? c)) escapes
  | [b; h; x] => (b =? 92) && (h =? 94) && (64 <=? x) && (x <=? 95) && (c =? x - 64)
  | [b; x1; x2; x3] => (b =? 92) && forallb (fun x => (48 <=? x) && (x <=? 57)) [x1; x2; x3] &&
      (c =? 100 * (x1 - 48) + 10 * (x2 - 48) + (x3 - 48)) && (c <=? 255)
  | _ => false
  end.
Lemma simple_item_ok (P Q : Z -> Prop) e c : (forall x, sml_plain x -> P x) -> simple_item e c = true -> item P Q e [c] /\ zlen e <= 4.
Proof.
  intros HP H. destruct e as [|x1 [|x2 [|x3 [|x4 [|]]]]]; try discriminate; cbn [simple_item forallb] in H; (split; [|unfold zlen; cbn [length]; lia]).
  - assert (x1 = c) as -> by lia. constructor. apply HP. unfold sml_plain. lia.
  - apply andb_prop in H as [H1 H2]. assert (x1 = 92) as -> by lia. apply existsb_exists in H2 as ([y z] & H2 & H3). cbn [fst snd] in H3.
    constructor. now replace x2 with y by lia; replace c with z by lia.
  - assert (x1 = 92) as -> by lia. assert (x2 = 94) as -> by lia. assert (c = x3 - 64) as -> by lia. constructor. lia.
  - assert (x1 = 92) as -> by lia. assert (c = 100 * (x2 - 48) + 10 * (x3 - 48) + (x4 - 48)) as -> by lia. constructor; unfold digit; lia.
Qed.
Lemma toMLescape_simple junk c : Escape_Spec.byte_char c -> exists e, Escape_Model.toMLescape junk c = Ret e /\ simple_item e c = true.
Proof.
  intros Hc. assert (A : Forall (fun c => exists e, Escape_Model.toMLescape junk c = Ret e /\ simple_item e c = true) (char_class 0 255)).
  { let l := eval vm_compute in (char_class 0 255) in change (char_class 0 255) with l.
    repeat (apply Forall_cons; [eexists; split; [vm_compute; reflexivity|reflexivity]|]). apply Forall_nil. }
  rewrite Forall_forall in A. apply A. apply in_char_class. exact Hc.
Qed.
Theorem C51_toString : forall d pre lay v t junk rest b, Forall Escape_Spec.byte_char v -> Escape_Model.toString junk v = Ret t ->
  lexer d (pre ++ lay ++ ([34] ++ t ++ [34]) ++ rest) b -> layout lay ->
  exists b', buffer_ok b' /\
    reads d (pre ++ lay ++ ([34] ++ t ++ [34]) ++ rest) (zlen pre) b
      (Fine (STRING v, zlen pre + zlen lay, zlen pre + zlen lay + zlen t + 2, b')).
Proof.
  intros d pre lay v t junk rest b HV HT L HL. apply C51_string; auto.
  destruct (Escape_Props.translate_ok (fun c e => item mosml_plain mosml_formatting e [c] /\ zlen e <= 4) junk (Escape_Model.toMLescape junk) v) as (es & P & Q).
  - apply Forall_forall. intros c Hc. rewrite Forall_forall in HV. destruct (toMLescape_simple junk c (HV c Hc)) as (e & E & H). exists e. split; [exact E|].
    apply simple_item_ok; [|exact H]. intros x. unfold sml_plain, mosml_plain. lia.
  - intros c e [_ H]. exact H.
  - assert (t = List.concat es) as ->.
    { destruct P as (P1 & P2 & P3). unfold Escape_Model.toString in HT.
      destruct (Z_le_gt_dec (zlen (List.concat es)) Buffer_Model.maxSize) as [H|H]; [rewrite P1 in HT by exact H; congruence|].
      destruct (Z_lt_ge_dec (zlen (List.concat es)) two62); [rewrite P2 in HT by lia|rewrite P3 in HT by lia]; discriminate. }
    clear P HV HT L. induction Q as [|c e v es [H _] Q IH]; [constructor|]. cbn [List.concat]. change (c :: v) with ([c] ++ v). now constructor.
Qed.

(** ** Examples *)
(** sources as they occur satisfy the hypotheses *)
Example C51_example_lexer : exists d, lexer d (codes " (* a *) ""x"" ") (mkSbuf (repeat 0 256) None 0).
Proof.
  destruct C51_generated as [d HG]. exists d. split; [exact HG|]. split; [vm_compute codes; unfold is_bytes; bytes|]. split; [vm_compute; discriminate|reflexivity].
Qed.
Example C51_example_layout : layout (codes " (* a (* b *) *) ").
Proof.
  vm_compute. apply l_space; [cbn; auto|]. apply (l_comment (codes " a (* b *) *)") (codes " ")).
  - exists (codes " a (* b *) "). split; [reflexivity|]. vm_compute. assert (NB : forall x y t, (x =? 40) && (y =? 42) || (x =? 42) && (y =? 41) = false -> ~ begins_bracket (x :: y :: t)).
    { intros x y t H (r & [E|E]); injection E as -> -> _; discriminate. }
    apply c_plain; [lia|lia|apply NB; reflexivity|]. apply c_plain; [lia|lia|apply NB; reflexivity|]. apply c_plain; [lia|lia|apply NB; reflexivity|].
    apply (c_nested (codes " b ") (codes " ")).
    + vm_compute. do 3 (apply c_plain; [lia|lia|apply NB; reflexivity|]). constructor.
    + vm_compute. apply c_plain; [lia|lia|apply NB; reflexivity|]. constructor.
  - vm_compute. apply l_space; [cbn; auto|constructor].
Qed.
(** the text x\t\120\^A\ \y\u0041 *)
Example C51_example_denotes : denotes sml_plain (fun c => sml_formatting c /\ c <> 12) (codes "x\t\120\^A\ \y\u0041") [120; 9; 120; 1; 121; 65].
Proof.
  vm_compute codes. apply (d_item _ _ [120] [120]); [constructor; unfold sml_plain; lia|].
  apply (d_item _ _ [92; 116] [9]); [constructor; cbn; auto 10|].
  apply (d_item _ _ [92; 49; 50; 48] [120]); [apply (i_decimal _ _ 1 2 0); unfold digit; lia|].
  apply (d_item _ _ [92; 94; 65] [1]); [apply (i_control _ _ 65); lia|].
  apply (d_item _ _ [92; 32; 92] []); [apply (i_gap _ _ [32]); [discriminate|constructor; [cbn; split; [auto|lia]|constructor]]|].
  apply (d_item _ _ [121] [121]); [constructor; unfold sml_plain; lia|].
  apply (d_item _ _ [92; 117; 48; 48; 52; 49] [65] [] []); [|constructor].
  apply (i_hexadecimal _ _ 0 0 4 1); unfold hexdigit, digit; lia.
Qed.
(** so that constant is read, after a comment and before a semicolon *)
Example C51_example_string : forall d b,
  lexer d (codes " (* a (* b *) *) " ++ ([34] ++ codes "x\t\120\^A\ \y\u0041" ++ [34]) ++ [59]) b ->
  exists b', reads d (codes " (* a (* b *) *) " ++ ([34] ++ codes "x\t\120\^A\ \y\u0041" ++ [34]) ++ [59]) 0 b
    (Fine (STRING [120; 9; 120; 1; 121; 65], 17, 39, b')).
Proof.
  intros d b L. destruct (C51_sml_literals_partial d [] _ _ [59] _ b L C51_example_layout C51_example_denotes) as (b' & _ & H).
  exists b'. exact H.
Qed.
Example C51_example_numbers : int_constant (codes "0x1F") 31 /\ int_constant (codes "~7") (-7) /\ word_constant (codes "0w12") 12 /\
  int_constant (codes "4611686018427387904") 4611686018427387904 /\ ~ in_int 4611686018427387904 /\ ~ number_char 59 /\ ~ number_char 0.
Proof.
  assert (D : forall r ds, forallb (fun c => match Scan_Spec.digit_value c with Some v => v <? Scan_Spec.base r | None => false end) ds = true -> Forall (Scan_Spec.digit r) ds).
  { intros r ds H. apply Forall_forall. intros c Hc. rewrite forallb_forall in H. specialize (H c Hc). unfold Scan_Spec.digit.
    destruct (Scan_Spec.digit_value c) as [v|]; [|discriminate]. exists v. split; [reflexivity|lia]. }
  split; [apply (ic_hexadecimal [] 1 [49; 70]); [left; auto|discriminate|now apply D]|].
  split; [apply (ic_decimal [126] (-1) [55]); [right; auto|discriminate|now apply D]|].
  split; [apply (wc_decimal [49; 50]); [discriminate|now apply D]|].
  split; [apply (ic_decimal [] 1 (codes "4611686018427387904")); [left; auto|discriminate|now apply D]|].
  split; [unfold in_int, two62; lia|]. unfold number_char. cbn. lia.
Qed.
(** an unfinished comment and an unfinished string *)
Example C51_example_errors : (forall u rest, codes " x" = u ++ rest -> ~ comment_rest u) /\
  (forall text rest v, codes "ab" = text ++ [34] ++ rest -> ~ denotes mosml_plain mosml_formatting text v).
Proof.
  split.
  - intros u rest E (w & -> & _). vm_compute in E. destruct w as [|a [|b [|c w]]]; discriminate.
  - intros text rest v E. vm_compute in E. destruct text as [|a [|b [|c w]]]; discriminate.
Qed.

Print Assumptions C51_generated.
Print Assumptions C51_layout.
Print Assumptions C51_string.
Print Assumptions C51_char.
Print Assumptions C51_int.
Print Assumptions C51_word.
Print Assumptions C51_only.
Print Assumptions C51_ends.
Print Assumptions C51_bad_string.
Print Assumptions C51_bad_comment.
Print Assumptions C51_sml_literals_partial.
Print Assumptions C51_formfeed_gap_refuted.
Print Assumptions C51_nonprintable_refuted.
Print Assumptions C51_toString.
