(** C37: lexers generated by mosmllex implement longest match with rule priority. *)
From Verif Require Import Base Lex_Model Lex_Spec Lex_Proofs Lex_Encode Lex_Dfa Lex_Run.

(** ** From the parsed definition to the expanded one *)
Lemma mapM_spec {A B} (f : A -> outcome B) l : forall l', mapM f l = Ret l' -> Forall2 (fun a b => f a = Ret b) l l'.
Proof.
  induction l as [|a l IH]; cbn; intros l' H; [injection H as <-; constructor|].
  destruct (f a) as [b|?| |] eqn:E; cbn in H; try discriminate.
  destruct (mapM f l) as [bs|?| |]; cbn in H; try discriminate. injection H as <-. constructor; auto.
Qed.
Lemma mapM_ret {A B} (f : A -> outcome B) l : (forall a, In a l -> exists b, f a = Ret b) -> exists l', mapM f l = Ret l'.
Proof.
  induction l as [|a l IH]; cbn; intros H; [eauto|]. destruct (H a (or_introl eq_refl)) as [b ->]. cbn.
  destruct IH as [l' ->]; [auto|]. cbn. eauto.
Qed.

Definition expanded (nls : list (name * re)) (c c' : re * location) : Prop :=
  expandRe nls (fst c) = Ret (fst c') /\ snd c = snd c'.

Lemma expandRule_spec nls d d' : expandRule nls d = Ret d' ->
  fst d = fst d' /\ Forall2 (expanded nls) (snd d) (snd d').
Proof.
  unfold expandRule. destruct (mapM _ (snd d)) as [rl|?| |] eqn:E; cbn; try discriminate.
  intros [= <-]. cbn. split; [auto|]. apply mapM_spec in E.
  eapply Forall2_impl; [|exact E]. intros c c' H. cbn in H.
  destruct (expandRe nls (fst c)) as [r|?| |] eqn:Er; cbn in H; try discriminate. injection H as <-.
  split; auto.
Qed.

Lemma expanded_matches ds nls rules rules' : expands ds nls -> Forall2 (expanded nls) rules rules' ->
  forall i w, rule_matches ds rules i w <-> rule_matches [] rules' i w.
Proof.
  intros HX F. induction F as [|c c' l l' [H1 H2] F IH]; intros i w; unfold rule_matches in *.
  - split; intros (r & lo & E & _); now destruct i.
  - destruct i as [|i]; cbn [nth_error]; [|apply IH].
    destruct c as [r lo], c' as [r' lo']. cbn in *. subst lo'. split.
    + intros (r0 & l0 & [= <- <-] & M). exists r', lo. split; [auto|]. now apply (expandRe_spec _ _ HX _ _ H1).
    + intros (r0 & l0 & [= <- <-] & M). exists r, lo. split; [auto|]. now apply (expandRe_spec _ _ HX _ _ H1).
Qed.

Lemma expanded_loc nls rules rules' i r' l : Forall2 (expanded nls) rules rules' ->
  nth_error rules' i = Some (r', l) -> exists r, nth_error rules i = Some (r, l).
Proof.
  intros F. revert i. induction F as [|c c' l0 l0' [H1 H2] F IH]; intros i E; [now destruct i|].
  destruct i as [|i]; cbn in *; [|auto]. injection E as ->. destruct c as [r lo]. cbn in H2. subst. eauto.
Qed.

Lemma expanded_noname nls l1 l2 c' : (forall s r, In (s, r) nls -> noname r) ->
  Forall2 (expanded nls) l1 l2 -> In c' l2 -> noname (fst c').
Proof.
  intros NN H. induction H as [|c c1 a b [H1 H2] F IH]; cbn [In]; [tauto|]. intros [<-|Hc]; [|auto].
  eapply expandRe_noname; eauto.
Qed.

Lemma Forall2_len {A B} (P : A -> B -> Prop) l l' : Forall2 P l l' -> length l = length l'.
Proof. induction 1; cbn; congruence. Qed.

Lemma expanded_count nls ld ld' : Forall2 (fun d d' => expandRule nls d = Ret d') ld ld' -> rule_count ld' = rule_count ld.
Proof.
  induction 1 as [|d d' l l' H F IH]; cbn; [auto|]. apply expandRule_spec in H as [_ H].
  apply Forall2_len in H. lia.
Qed.

Lemma expanded_classes P nls ld ld' :
  (forall s r, In (s, r) nls -> Forall P (classes r)) ->
  (forall d c, In d ld -> In c (snd d) -> Forall P (classes (fst c))) ->
  Forall2 (fun d d' => expandRule nls d = Ret d') ld ld' -> Forall P (all_classes ld').
Proof.
  intros HN HL F. induction F as [|d d' l l' H F IH]; cbn [all_classes]; [constructor|].
  apply Forall_app. split; [apply IH; intros d0 c Hd Hc; apply (HL d0 c); [now right|auto]|].
  apply expandRule_spec in H as [_ H].
  assert (HD : forall c, In c (snd d) -> Forall P (classes (fst c))) by (intros c Hc; apply (HL d); [now left|auto]).
  clear -HN HD H. revert HD H. generalize (snd d) (snd d'). intros l1 l2 HD H.
  induction H as [|c c' a b [H1 H2] F IH]; cbn; [constructor|].
  apply Forall_app. split; [|apply IH; intros c0 Hc; apply HD; now right].
  eapply expandRe_classes; [exact HN|exact H1|apply HD; now left].
Qed.

Lemma generate_unfold fuel ls ld d : generate fuel ls ld = Ret d ->
  exists nls ld', expandLets ls = Ret nls /\
    Forall2 (fun x x' => expandRule nls x = Ret x') ld ld' /\ make_dfa fuel ld' = Ret d.
Proof.
  unfold generate. destruct (expandLets ls) as [nls|?| |]; cbn; try discriminate.
  destruct (mapM (expandRule nls) ld) as [ld'|?| |] eqn:E; cbn; try discriminate.
  intros H. apply mapM_spec in E. eauto.
Qed.

Lemma scoped_lets_ret ls : forall vis nls, (forall n, In n vis <-> In n (map fst nls)) -> scoped_lets vis ls ->
  exists nls', appM expandLet ls nls = Ret nls' /\ (forall n, In n (map fst nls') <-> In n vis \/ In n (map fst ls)).
Proof.
  induction ls as [|[s r] ls IH]; cbn [scoped_lets appM map fst]; intros vis nls V H.
  - exists nls. split; [auto|]. intros n. rewrite <- V. cbn. tauto.
  - destruct H as [H1 H2]. unfold expandLet at 1. cbn [fst snd].
    destruct (expandRe_ret nls r) as [r' ->]; [intros n Hn; apply V; auto|]. cbn [bind].
    destruct (IH (s :: vis) ((s, r') :: nls)) as (nls' & E & V').
    + intros n. cbn. rewrite V. tauto.
    + exact H2.
    + exists nls'. split; [exact E|]. intros n. rewrite V'. cbn. tauto.
Qed.

(** entry points are found by their names *)
Lemma find_entry_spec {A} (R : name * A -> name * Z -> Prop) l l' :
  Forall2 R l l' -> (forall a b, R a b -> fst a = fst b) -> NoDup (map fst l) ->
  forall a, In a l -> exists b, R a b /\ find_entry l' (fst a) = Some (snd b).
Proof.
  intros F HN. induction F as [|x y l l' H F IH]; cbn; intros ND a; [tauto|].
  inversion ND as [|? ? N1 N2]; subst. intros [<-|Ha].
  - exists y. split; [auto|]. destruct y as [k n]. rewrite (HN _ _ H). cbn.
    assert (E : name_eqb k k = true) by now apply name_eqb_spec. now rewrite E.
  - destruct (IH N2 a Ha) as (b & H1 & H2). exists b. split; [auto|]. destruct y as [k n]. cbn.
    destruct (name_eqb (fst a) k) eqn:E; [|exact H2]. apply name_eqb_spec in E.
    destruct N1. rewrite (HN _ _ H). cbn. rewrite <- E. now apply in_map.
Qed.

Lemma Forall2_trans {A B C} (P : A -> B -> Prop) (Q : B -> C -> Prop) l1 l2 l3 :
  Forall2 P l1 l2 -> Forall2 Q l2 l3 -> Forall2 (fun a c => exists b, P a b /\ Q b c /\ In b l2) l1 l3.
Proof.
  intros F. revert l3. induction F as [|a b l1 l2 H F IH]; intros l3 G; inversion G as [|? c ? l3' H2 G2]; subst; constructor.
  - exists b. split; [auto|]. split; [auto|now left].
  - eapply Forall2_impl; [|apply IH; exact G2]. intros a0 c0 (b0 & X & Y & Z0). exists b0. split; [auto|]. split; [auto|now right].
Qed.

(** what is known of an entry point of the generated lexer *)
Lemma entry_facts fuel ls ld d e rules :
  generate fuel ls ld = Ret d -> NoDup (map fst ld) -> In (e, rules) ld ->
  exists nls ld' rules' chars regs follow M r n cnt es,
    expandLets ls = Ret nls /\ Forall2 (fun x x' => expandRule nls x = Ret x') ld ld' /\
    Forall2 (expanded nls) rules rules' /\
    encode_lexdef ld' = Ret (chars, regs, d_actions d) /\
    followpos (length chars) regs = Ret follow /\
    (forall st i, In (st, i) M -> exists a, asub (d_states d) i = Ret a /\ state_ok chars follow M st a) /\
    find_entry (d_initial d) e = Some n /\ In (firstpos (snd r), n) M /\
    In r regs /\ linear (snd r) /\ Forall2 (encodes chars) rules' es /\ 0 <= cnt /\
    (forall i c, nth_error rules' i = Some c -> In (cnt + Z.of_nat i, snd c) (concat (d_actions d))) /\
    (forall u, lang (snd r) u <-> u = [] \/
       exists i e u1, nth_error es i = Some e /\ u = u1 ++ [ToAction (cnt + Z.of_nat i)] /\ lang e u1).
Proof.
  intros HG ND HI. destruct (generate_unfold _ _ _ _ HG) as (nls & ld' & E1 & F1 & E2).
  destruct (make_dfa_spec _ _ _ E2) as (chars & regs & follow & M & A1 & A2 & A3 & A4 & A5).
  destruct (encode_lexdef_spec _ _ _ _ A1) as (B1 & B2 & B3 & B4 & B5 & B6).
  pose proof (Forall2_trans _ _ _ _ _ F1 (Forall2_trans _ _ _ _ _ B6 A4)) as F3.
  destruct (find_entry_spec _ _ _ F3) with (a := (e, rules)) as ([k n] & (d' & X1 & (r & X2 & X3 & X4) & X5) & X6).
  - intros a b (d' & Y1 & (r & Y2 & Y3 & Y4) & Y5). apply expandRule_spec in Y1 as [Y1 _].
    destruct Y2 as [Y2 _]. destruct Y3 as [Y3 _]. congruence.
  - exact ND.
  - exact HI.
  - apply expandRule_spec in X1 as [X1a X1b]. cbn [snd fst] in *.
    destruct X2 as (Z1 & Z2 & cnt & es & Z3 & Z4 & Z5 & Z6).
    exists nls, ld', (snd d'), chars, regs, follow, M, r, n, cnt, es.
    destruct X3 as [_ X3]. repeat (split; [assumption|]). exact Z6.
Qed.

(** ** C37, full statement:

    for every lexer definition [ls], [ld], every entry point [e] of it, every
    stream [s] and position [p], the generated lexer called at [p] runs the
    action of rule [i] with the lexer positioned at [p + n] where
    [selects (rev ls) rules s p i n], and raises Fail exactly if
    [no_rule (rev ls) rules s p].

    This is false of the code for two reasons ([C37_epsilon_only_refuted],
    [C37_many_rules_refuted] below); what is missing in the partial theorem are
    exactly the definitions with more than 32767 rules, and the entry points
    that match nothing but the empty word, for which no program is produced. *)
Theorem C37_longest_match_partial :
  forall fuel ls ld d, generate fuel ls ld = Ret d ->
  NoDup (map fst ld) -> rule_count ld <= 32767 ->
  forall e rules, In (e, rules) ld ->
  forall s p, (forall q, 0 <= s q < 256) ->
  forall fuel' res, run_entry fuel' d s e p = Ret res ->
  match res with
  | Token l q => exists i n r, nth_error rules i = Some (r, l) /\ q = p + Z.of_nat n /\
                               selects (rev ls) rules s p i n
  | Illegal => no_rule (rev ls) rules s p
  | NotCompiled => forall i w, rule_matches (rev ls) rules i w -> w = []
  end.
Proof.
  intros fuel ls ld d HG ND HK e rules HI s p HS fuel' res HR.
  destruct (entry_facts _ _ _ _ _ _ HG ND HI) as (nls & ld' & rules' & chars & regs & follow & M & r & n & cnt & es &
    F1 & F2 & F3 & F4 & F5 & F6 & F7 & F8 & F9 & F10 & F11 & F12 & F13 & F14).
  assert (RM : forall i w, rule_matches (rev ls) rules i w <-> rule_matches [] rules' i w).
  { apply expanded_matches with (nls := nls); [now apply expandLets_spec|exact F3]. }
  unfold run_entry in HR. rewrite F7 in HR.
  assert (OK : result_ok s p rules' res).
  { eapply run_state_ok with (chars := chars) (regs := regs) (follow := follow) (M := M) (r := r) (k := O)
      (ld := ld') (cnt := cnt) (es := es) (d := d) (last := None) (st := firstpos (snd r)) (i := n) (fuel := fuel');
      try eassumption.
    - rewrite (expanded_count _ _ _ F2). exact HK.
    - cbn [Z.of_nat]. rewrite Z.add_0_r. exact HR.
    - cbn [prefix]. apply reads_nil.
    - cbn. intros j m Hm. lia.
    - now left. }
  destruct res as [l q| |]; cbn in OK.
  - destruct OK as (i & m & re0 & H1 & H2 & H3 & H4 & H5).
    destruct (expanded_loc _ _ _ _ _ _ F3 H1) as [r0 H0]. exists i, m, r0. split; [auto|]. split; [auto|].
    unfold selects. rewrite RM. split; [auto|]. split.
    + intros j Hj. rewrite RM. auto.
    + intros j n' Hn. rewrite RM. auto.
  - intros j m. rewrite RM. apply OK.
  - intros i w. rewrite RM. apply OK.
Qed.
Print Assumptions C37_longest_match_partial.

(** The generator returns for every definition whose names are defined before
    they are used. *)
Theorem C37_generates :
  forall ls ld, scoped ls ld -> all_class valid_class ls ld ->
  exists fuel0, forall fuel, (fuel0 <= fuel)%nat -> exists d, generate fuel ls ld = Ret d.
Proof.
  intros ls ld [SC1 SC2] [CL1 CL2].
  destruct (scoped_lets_ret ls [] []) as (nls & E1 & V); [cbn; tauto|exact SC1|].
  destruct (mapM_ret (expandRule nls) ld) as [ld' E2].
  { intros d Hd. unfold expandRule.
    destruct (mapM_ret (fun c : re * location => do r <- expandRe nls (fst c); Ret (r, snd c)) (snd d)) as [rl ->]; [|cbn; eauto].
    intros c Hc. destruct (expandRe_ret nls (fst c)) as [r' ->]; [|cbn; eauto].
    intros m Hm. apply V. right. eapply SC2; eauto. }
  pose proof (mapM_spec _ _ _ E2) as F.
  destruct (make_dfa_ret ld') as [fuel0 HF].
  - intros d' c' Hd Hc.
    assert (NN : forall s r, In (s, r) nls -> noname r) by (eapply expandLets_noname; [|exact E1]; intros s r []).
    clear -F Hd Hc NN. induction F as [|d0 d0' l l' H F IH]; cbn in Hd; [tauto|]. destruct Hd as [<-|Hd]; [|auto].
    apply expandRule_spec in H as [_ H]. eapply expanded_noname; eauto.
  - intros cl c Hcl Hc.
    assert (A : Forall valid_class (all_classes ld')).
    { eapply expanded_classes; [|exact CL2|exact F].
      eapply expandLets_classes; [|exact CL1|exact E1]. intros s r []. }
    rewrite Forall_forall in A. specialize (A cl Hcl). unfold valid_class in A. rewrite Forall_forall in A. auto.
  - exists fuel0. intros fuel Hf. unfold generate. change (expandLets ls) with (appM expandLet ls []).
    rewrite E1. cbn [bind]. rewrite E2. cbn [bind]. auto.
Qed.
Print Assumptions C37_generates.

(** A call of the generated lexer returns as soon as the input cannot be
    continued to a match: if no rule matches any word that starts with the
    first [n] characters, it returns (after at most [n + 1] states). *)
Theorem C37_returns :
  forall fuel ls ld d, generate fuel ls ld = Ret d ->
  NoDup (map fst ld) -> all_class (fun cl => cl <> []) ls ld ->
  forall e rules, In (e, rules) ld ->
  forall s p, (forall q, 0 <= s q < 256) ->
  forall n, (forall i w, ~ rule_matches (rev ls) rules i (prefix s p n ++ w)) ->
  exists res, run_entry (n + 1) d s e p = Ret res.
Proof.
  intros fuel ls ld d HG ND [CL1 CL2] e rules HI s p HS n NV.
  destruct (entry_facts _ _ _ _ _ _ HG ND HI) as (nls & ld' & rules' & chars & regs & follow & M & r & k & cnt & es &
    F1 & F2 & F3 & F4 & F5 & F6 & F7 & F8 & F9 & F10 & F11 & F12 & F13 & F14).
  assert (RM : forall i w, rule_matches (rev ls) rules i w <-> rule_matches [] rules' i w).
  { apply expanded_matches with (nls := nls); [now apply expandLets_spec|exact F3]. }
  unfold run_entry. rewrite F7.
  assert (NE : forall cl, In cl chars -> cl <> []).
  { destruct (encode_lexdef_spec _ _ _ _ F4) as (-> & _). apply Forall_forall.
    eapply expanded_classes; [|exact CL2|exact F2]. eapply expandLets_classes; [|exact CL1|exact F1]. intros s0 r0 []. }
  assert (G : exists res, run_state (n + 1) d s k (p + Z.of_nat 0) None = Ret res).
  2: { cbn [Z.of_nat] in G. rewrite Z.add_0_r in G. exact G. }
  eapply run_state_ret with (chars := chars) (regs := regs) (follow := follow) (M := M) (r := r)
      (ld := ld') (cnt := cnt) (es := es) (d := d) (st := firstpos (snd r)) (N := n) (rules := rules'); try eassumption.
  - intros j w. rewrite <- RM. apply NV.
  - lia.
  - now right.
  - cbn [prefix]. apply reads_nil.
Qed.
Print Assumptions C37_returns.

(** ** Examples for the hypotheses *)

(** let digit = ['0'-'2']
    rule t = parse "if" {L0} | ['a'-'z']+ {L1} | digit+ {L2} | digit+ '.' digit+ {L3}
    and  u = parse _ * {L4} *)
Definition ex_az := [97;98;99;100;101;102;103;104;105;106;107;108;109;110;111;112;113;114;115;116;117;118;119;120;121;122].
Definition ex_digit : name := [100;105;103;105;116].
Definition ex_plus (r : re) := Sequence r (Repetition r).
Definition ex_lets : lets := [(ex_digit, Characters [48;49;50])].
Definition ex_rules : casedef :=
  [(Sequence (Characters [105]) (Characters [102]), Location 10 11);
   (ex_plus (Characters ex_az), Location 20 21);
   (ex_plus (Name ex_digit), Location 30 31);
   (Sequence (ex_plus (Name ex_digit)) (Sequence (Characters [46]) (ex_plus (Name ex_digit))), Location 40 41)].
Definition ex_def : lexdef := [([116], ex_rules); ([117], [(Repetition (Characters ex_az), Location 50 51)])].

Definition ex_stream (l : list Z) (p : Z) : Z := nth (Z.to_nat p) l 0.

Definition ex_run (l : list Z) (e : name) (p : Z) : option lexres :=
  match generate 20 ex_lets ex_def with
  | Ret d => match run_entry 20 d (ex_stream l) e p with Ret r => Some r | _ => None end
  | _ => None
  end.

(** "iffy": the longer match wins; "if1": the first rule wins *)
Example C37_ex_longest : ex_run [105;102;102;121;32] [116] 0 = Some (Token (Location 20 21) 4).
Proof. vm_compute. reflexivity. Qed.
Example C37_ex_first : ex_run [105;102;49] [116] 0 = Some (Token (Location 10 11) 2).
Proof. vm_compute. reflexivity. Qed.
(** "12.x": the lexer reads on to ".", then comes back to "12" *)
Example C37_ex_backtrack : ex_run [120;49;50;46;120] [116] 1 = Some (Token (Location 30 31) 3).
Proof. vm_compute. reflexivity. Qed.
Example C37_ex_illegal : ex_run [33;49] [116] 0 = Some Illegal.
Proof. vm_compute. reflexivity. Qed.
Example C37_ex_empty : ex_run [33;49] [117] 0 = Some (Token (Location 50 51) 0).
Proof. vm_compute. reflexivity. Qed.

Example C37_ex_scoped : scoped ex_lets ex_def /\ all_class valid_class ex_lets ex_def /\
  all_class (fun cl => cl <> []) ex_lets ex_def /\ NoDup (map fst ex_def) /\ rule_count ex_def <= 32767.
Proof.
  assert (V : forall P : list Z -> Prop, P [48;49;50] -> P [105] -> P [102] -> P ex_az -> P [46] -> all_class P ex_lets ex_def).
  { intros P P1 P2 P3 P4 P5. split.
    - intros s r [[= <- <-]|[]]. repeat constructor; assumption.
    - intros d c Hd Hc. cbn in Hd. destruct Hd as [<-|[<-|[]]]; cbn in Hc.
      + destruct Hc as [<-|[<-|[<-|[<-|[]]]]]; cbn; repeat (constructor; [assumption|]); constructor.
      + destruct Hc as [<-|[]]; cbn; repeat (constructor; [assumption|]); constructor. }
  split; [|split; [|split; [|split]]].
  - split.
    + cbn. tauto.
    + intros d c n Hd Hc Hn. cbn in Hd. destruct Hd as [<-|[<-|[]]]; cbn in Hc.
      * destruct Hc as [<-|[<-|[<-|[<-|[]]]]]; cbn in Hn; intuition (subst; cbn; auto).
      * destruct Hc as [<-|[]]; cbn in Hn; tauto.
  - apply V; unfold valid_class, ex_az; repeat (constructor; [lia|]); constructor.
  - apply V; discriminate.
  - cbn. constructor; [intros [H|[]]; discriminate|]. constructor; [intros []|constructor].
  - vm_compute. discriminate.
Qed.

(** no rule matches a word that starts with "if1": the hypothesis of C37_returns *)
Example C37_ex_returns : forall i w, ~ rule_matches (rev ex_lets) ex_rules i (prefix (ex_stream [33]) 0 1 ++ w).
Proof.
  intros i w (r & l & E & H). change (prefix (ex_stream [33]) 0 1 ++ w) with (33 :: w) in H.
  assert (F : forall ds r, (forall cl, In cl (classes r) -> ~ In 33 cl) ->
              (forall s q, In (s, q) ds -> forall cl, In cl (classes q) -> ~ In 33 cl) ->
              forall w, matches ds r w -> ~ In 33 w).
  { clear. intros ds r HC HD w H. revert HC HD. induction H; cbn; intros HC HD.
    - auto.
    - intros [->|[]]. apply (HC cl); auto.
    - rewrite in_app_iff. intros [H1|H1]; [eapply IHmatches1|eapply IHmatches2]; eauto; intros; apply HC, in_app_iff; auto.
    - apply IHmatches; eauto. intros; apply HC, in_app_iff; auto.
    - apply IHmatches; eauto. intros; apply HC, in_app_iff; auto.
    - auto.
    - rewrite in_app_iff. intros [H1|H1]; [eapply IHmatches1|eapply IHmatches2]; eauto.
    - apply IHmatches.
      + apply (HD s). apply in_elt.
      + intros s0 q Hq. apply (HD s0). apply in_app_iff. right. now right. }
  eapply (F (rev ex_lets) r); [| |exact H|now left].
  - intros cl Hcl. destruct i as [|[|[|[|i]]]]; cbn in E; [| | | |now destruct i];
      injection E as <- <-; cbn in Hcl; intuition (subst; cbn in *; intuition discriminate).
  - intros s q [[= <- <-]|[]]. cbn. intros cl [<-|[]]. cbn. intuition discriminate.
Qed.

(** ** Where the full statement fails *)

(** An entry point that matches only the empty word: a rule matches, but the
    generated text calls a function that it does not define. *)
Theorem C37_epsilon_only_refuted :
  exists ls ld e rules d,
    scoped ls ld /\ all_class valid_class ls ld /\ NoDup (map fst ld) /\ rule_count ld <= 32767 /\ In (e, rules) ld /\
    generate 10 ls ld = Ret d /\
    forall s p, selects (rev ls) rules s p 0 0 /\ forall fuel, run_entry (S fuel) d s e p = Ret NotCompiled.
Proof.
  exists [], [([116], [(Epsilon, Location 1 2)])], [116], [(Epsilon, Location 1 2)].
  eexists. split; [|split; [|split; [|split; [|split; [|split; [vm_compute; reflexivity|]]]]]].
  - split; [exact I|]. intros d c n [<-|[]] [<-|[]] [].
  - split; [intros s r []|]. intros d c [<-|[]] [<-|[]]. constructor.
  - constructor; [intros []|constructor].
  - vm_compute. discriminate.
  - now left.
  - intros s p. split; [|reflexivity]. split; [|split].
    + exists Epsilon, (Location 1 2). split; [reflexivity|constructor].
    + lia.
    + intros j n' Hn (r & l & E & M). destruct j as [|j]; cbn in E; [|now destruct j].
      injection E as <- <-. destruct n'; [lia|]. cbn in M. inversion M.
Qed.
Print Assumptions C37_epsilon_only_refuted.

(** With more than 32767 rules the number that stands for "no action"
    (Lexgen.sml 163) is itself the number of an action: in the definition below
    rule 32768 matches, and the action of rule 32767, which does not match, is run. *)
Definition many_rules : casedef :=
  repeat (Characters [97], Location 1 2) (Z.to_nat 32768) ++ [(Characters [98], Location 3 4)].

Lemma many_nth i : nth_error many_rules i =
  if Z.of_nat i <? 32768 then Some (Characters [97], Location 1 2)
  else if Z.of_nat i =? 32768 then Some (Characters [98], Location 3 4) else None.
Proof.
  unfold many_rules. set (N := Z.to_nat 32768). assert (HN : Z.of_nat N = 32768) by (unfold N; lia). clearbody N.
  destruct (Z.ltb_spec (Z.of_nat i) 32768).
  - rewrite nth_error_app1 by (rewrite repeat_length; lia). apply nth_error_repeat. lia.
  - rewrite nth_error_app2 by (rewrite repeat_length; lia). rewrite repeat_length.
    destruct (Z.eqb_spec (Z.of_nat i) 32768).
    + replace (i - N)%nat with O by lia. reflexivity.
    + destruct (i - N)%nat as [|k] eqn:E; [lia|]. now destruct k.
Qed.

Theorem C37_many_rules_refuted :
  exists ls ld e rules fuel d s p l,
    scoped ls ld /\ all_class valid_class ls ld /\ NoDup (map fst ld) /\ In (e, rules) ld /\
    generate fuel ls ld = Ret d /\ (forall q, 0 <= s q < 256) /\
    run_entry 1 d s e p = Ret (Token l (p + 1)) /\
    exists i n r, selects (rev ls) rules s p i n /\ nth_error rules i = Some r /\ snd r <> l.
Proof.
  set (ld := [([116], many_rules)]). set (s := fun _ : Z => 98).
  assert (SC : scoped [] ld).
  { split; [exact I|]. intros d c n [<-|[]] Hc. cbn [snd] in Hc. apply In_nth_error in Hc as [i E].
    rewrite many_nth in E. destruct (Z.of_nat i <? 32768); [injection E as <-; cbn; tauto|].
    destruct (Z.of_nat i =? 32768); [injection E as <-; cbn; tauto|discriminate]. }
  assert (CL : forall P : list Z -> Prop, P [97] -> P [98] -> all_class P [] ld).
  { intros P P1 P2. split; [intros ? ? []|]. intros d c [<-|[]] Hc. cbn [snd] in Hc. apply In_nth_error in Hc as [i E].
    rewrite many_nth in E. destruct (Z.of_nat i <? 32768); [injection E as <-; cbn; auto|].
    destruct (Z.of_nat i =? 32768); [injection E as <-; cbn; auto|discriminate]. }
  assert (VC : all_class valid_class [] ld) by (apply CL; constructor; try lia; constructor).
  assert (NE : all_class (fun cl => cl <> []) [] ld) by (apply CL; discriminate).
  assert (ND : NoDup (map fst ld)) by (constructor; [intros []|constructor]).
  assert (HI : In ([116], many_rules) ld) by now left.
  destruct (C37_generates [] ld SC VC) as [fuel HG]. destruct (HG fuel (le_n _)) as [d Hd].
  destruct (entry_facts _ _ _ _ _ _ Hd ND HI) as (nls & ld' & rules' & chars & regs & follow & M & r & k & cnt & es &
    F1 & F2 & F3 & F4 & F5 & F6 & F7 & F8 & F9 & F10 & F11 & F12 & F13 & F14).
  assert (RM : forall i w, rule_matches [] many_rules i w <-> rule_matches [] rules' i w).
  { apply (expanded_matches [] nls); [now apply (expandLets_spec [])|exact F3]. }
  assert (NC : forall cl, In cl chars -> cl <> []).
  { destruct (encode_lexdef_spec _ _ _ _ F4) as (-> & _). apply Forall_forall.
    destruct NE as [CL1 CL2].
    eapply expanded_classes; [|exact CL2|exact F2]. eapply expandLets_classes; [|exact CL1|exact F1]. intros s0 r0 []. }
  assert (CNT : rule_count ld' = 32769).
  { rewrite (expanded_count _ _ _ F2). unfold ld, many_rules. cbn [rule_count snd]. rewrite app_length, repeat_length. cbn [length]. lia. }
  (* which rules match what *)
  assert (MT : forall i w, rule_matches [] many_rules i w ->
             (Z.of_nat i < 32768 /\ w = [97]) \/ (Z.of_nat i = 32768 /\ w = [98])).
  { intros i w (re0 & l0 & E & Mt). rewrite many_nth in E. destruct (Z.ltb_spec (Z.of_nat i) 32768).
    - injection E as <- <-. inversion Mt as [|? ? c Hc| | | | | |]; subst. destruct Hc as [<-|[]]. auto.
    - destruct (Z.eqb_spec (Z.of_nat i) 32768); [|discriminate]. injection E as <- <-.
      inversion Mt as [|? ? c Hc| | | | | |]; subst. destruct Hc as [<-|[]]. auto. }
  assert (ML : rule_matches [] many_rules (Z.to_nat 32768) [98]).
  { exists (Characters [98]), (Location 3 4). rewrite many_nth. split; [|constructor; now left].
    rewrite Z2Nat.id by lia. reflexivity. }
  set (NL := Z.to_nat 32768) in *. assert (HNL : Z.of_nat NL = 32768) by (unfold NL; lia). clearbody NL.
  (* the numbers of the actions start at 0 *)
  assert (R' : forall i c, nth_error many_rules i = Some c -> exists c', nth_error rules' i = Some c' /\ snd c = snd c').
  { clear -F3. revert F3. generalize many_rules. intros rules F3. induction F3 as [|c c' a b [H1 H2] F IH]; intros i c0 E; [now destruct i|].
    destruct i as [|i]; cbn in *; [injection E as <-; eauto|eauto]. }
  assert (C0 : cnt = 0).
  { destruct (R' NL (Characters [98], Location 3 4)) as (c' & E & _).
    { rewrite many_nth, HNL. reflexivity. }
    apply F13 in E. destruct (encode_lexdef_spec _ _ _ _ F4) as (_ & _ & A3 & _).
    apply (in_map fst) in E. apply A3 in E. cbn [fst] in E. lia. }
  subst cnt.
  (* the initial state *)
  destruct (F6 _ _ F8) as (a & Ea & SO).
  assert (P98 : forall q, 0 <= s q < 256) by (intros; unfold s; lia).
  assert (Rd0 : reads chars (snd r) (prefix s 0 0) (firstpos (snd r))) by apply reads_nil.
  assert (SH : exists what moves, a = Shift what moves).
  { destruct a as [nn|what moves]; [|eauto]. exfalso. destruct SO as (n & ps & Es & -> & ->).
    destruct (split_spec _ _ _ Es) as (A & _).
    destruct (reads_longer chars rules' r 0 es F11 F14 [] (firstpos (snd r)) [98] NL) as (x & Hx & Hp).
    - exact Rd0.
    - apply RM. exact ML.
    - destruct Hp as [p ->]; [discriminate|]. apply A in Hx. exact Hx. }
  destruct SH as (what & moves & ->).
  destruct (shift_case ld' d chars regs follow M F4 F5 F6 s 0 P98 r F9 F10 0 _ _ F8 Rd0 _ _ Ea)
    as (n & ps & code & t & Es & Ew & Ec & Rt & MV).
  (* the set reached: the action 32768 only *)
  assert (T1 : In (ToAction 32768) t).
  { apply (reads_action chars rules' r 0 es F11 F14 _ _ _ Rt). exists NL. split; [lia|]. apply RM. exact ML. }
  destruct MV as [[-> _]|(Nt & j & Emv & HJ)]; [destruct T1|].
  destruct (F6 _ _ HJ) as (aj & Eaj & nj & psj & Esj & SOj).
  destruct (split_gen _ _ _ _ _ Esj) as (A & B & C & D).
  assert (psj = []) as ->.
  { destruct psj as [|q psj]; [auto|]. exfalso.
    assert (Hq : In (OnChars q) t) by (destruct (proj1 (A q) (or_introl eq_refl)) as [[]|H]; exact H).
    destruct (reads_viable ld' d chars regs F4 rules' r 0 es F9 F11 F14 _ _ _ NC Rt Hq) as (i & w2 & Mi & Nw).
    specialize (Nw q eq_refl). apply RM in Mi. apply MT in Mi. destruct w2; [congruence|].
    destruct Mi as [[_ Mi]|[_ Mi]]; discriminate. }
  assert (nj = 32767) as ->.
  { destruct D as [D|D]; [exact D|]. exfalso.
    apply (reads_action chars rules' r 0 es F11 F14 _ _ _ Rt) in D as (i & -> & Mi). apply RM, MT in Mi.
    unfold no_action in B. destruct Mi as [[_ Mi]|[Mi _]]; [discriminate|lia]. }
  destruct aj as [nn|wj mj]; [|destruct SOj as [SOj _]; congruence]. destruct SOj as [_ ->].
  destruct (R' (NL - 1)%nat (Characters [97], Location 1 2)) as ([re1 lo1] & E1 & L1).
  { rewrite many_nth. destruct (Z.ltb_spec (Z.of_nat (NL - 1)) 32768); [reflexivity|lia]. }
  cbn [snd] in L1. subst lo1.
  pose proof (run_action_ok ld' d chars regs F4 rules' 0 F13 _ _ 1 E1) as RA.
  replace (0 + Z.of_nat (NL - 1)) with 32767 in RA by lia. cbn [snd] in RA.
  exists [], ld, [116], many_rules, fuel, d, s, 0, (Location 1 2).
  split; [exact SC|]. split; [exact VC|]. split; [exact ND|]. split; [exact HI|]. split; [exact Hd|].
  split; [exact P98|]. split.
  - unfold run_entry. rewrite F7. cbn [run_state]. rewrite Ea. rewrite Ec. cbn [bind].
    cbn [Z.of_nat] in Emv. rewrite Z.add_0_r in Emv. rewrite Emv. rewrite Eaj. cbn [bind].
    change (0 + 1) with 1. rewrite RA. reflexivity.
  - exists NL, 1%nat, (Characters [98], Location 3 4). split; [|split].
    + split; [exact ML|]. split.
      * intros j0 Hj Mj. apply MT in Mj as [[_ Mj]|[Mj _]]; [discriminate|lia].
      * intros j0 n' Hn Mj. apply MT in Mj. apply (f_equal (@length Z)) with (x := prefix s 0 n') in Mj || idtac.
        assert (LP : length (prefix s 0 n') = 1%nat) by (destruct Mj as [[_ ->]|[_ ->]]; reflexivity).
        rewrite prefix_length in LP. lia.
    + rewrite many_nth, HNL. reflexivity.
    + discriminate.
Qed.
Print Assumptions C37_many_rules_refuted.
