(** C48: a lexer buffer delivers the input, however the reader cuts it up. *)
From Verif Require Import Base Lex_Model Lex_Spec Lex_Props Lexbuf_Model Lexbuf_Spec Lexbuf_Proofs.

(** ** Any program

    A program that uses a lexer buffer made by createLexer comes to the result
    that it would come to with the whole input before it, if no token takes
    more than 1024 characters. *)
Theorem C48_reader :
  forall R (p : prog R) f junk r, Forall conforming f -> length junk = 2048%nat ->
  ideal up_to_1024 (stream f) p 0 0 None = IResult r ->
  run p (createLexer junk f) = Result r.
Proof.
  intros R p f junk r C L H. destruct (create_win f junk L C) as [W D].
  destruct (run_rd (stream f) up_to_1024 p _ _ _ _ W D) as [A|[_ A]]; [|congruence].
  rewrite H in A. exact A.
Qed.
Print Assumptions C48_reader.

(** With longer tokens it comes to that result, or Fail "lexer: token too
    long" is raised; there is never an access outside the buffer. *)
Theorem C48_reader_any_token :
  forall R (p : prog R) f junk r, Forall conforming f -> length junk = 2048%nat ->
  ideal any_length (stream f) p 0 0 None = IResult r ->
  run p (createLexer junk f) = Result r \/ run p (createLexer junk f) = TooLong.
Proof.
  intros R p f junk r C L H. destruct (create_win f junk L C) as [W D].
  destruct (run_rd (stream f) any_length p _ _ _ _ W D) as [A|[A _]]; [|auto].
  rewrite H in A. left. exact A.
Qed.
Print Assumptions C48_reader_any_token.

(** So readers that deliver the same characters in different portions cannot
    be told apart. *)
Theorem C48_portions :
  forall R (p : prog R) f1 f2 junk1 junk2 r,
  Forall conforming f1 -> Forall conforming f2 -> length junk1 = 2048%nat -> length junk2 = 2048%nat ->
  (forall q, 0 <= q -> stream f1 q = stream f2 q) ->
  ideal up_to_1024 (stream f1) p 0 0 None = IResult r ->
  run p (createLexer junk1 f1) = Result r /\ run p (createLexer junk2 f2) = Result r.
Proof.
  intros R p f1 f2 j1 j2 r C1 C2 L1 L2 E H. split; apply C48_reader; auto.
  rewrite <- H. symmetry. apply ideal_ext; [exact E|lia|discriminate].
Qed.
Print Assumptions C48_portions.

(** createLexerString: tokens of any length, until the end of the input has
    been read. *)
Theorem C48_string :
  forall R (p : prog R) s r, ideal (up_to_end s) (string_stream s) p 0 0 None = IResult r ->
  run p (createLexerString s) = Result r.
Proof.
  intros R p s r H. destruct (create_string_win s) as [W D].
  pose proof (run_sb s p _ _ _ _ W D) as A. rewrite H in A. exact A.
Qed.
Print Assumptions C48_string.

(** A reader and a string with the same characters, for programs that do not
    read on after the end of the input. *)
Theorem C48_string_or_reader :
  forall R (p : prog R) s f junk r, Forall conforming f -> length junk = 2048%nat ->
  (forall q, 0 <= q -> stream f q = string_stream s q) ->
  ideal (fun start cur => up_to_1024 start cur && up_to_end s start cur) (string_stream s) p 0 0 None = IResult r ->
  run p (createLexerString s) = Result r /\ run p (createLexer junk f) = Result r.
Proof.
  intros R p s f junk r C L E H. split.
  - apply C48_string. eapply ideal_may; [|exact H]. intros a b Hab. cbv beta in Hab. apply andb_prop in Hab. tauto.
  - apply C48_reader; auto. rewrite (ideal_ext up_to_1024 (stream f) (string_stream s)); [|exact E|lia|discriminate].
    eapply ideal_may; [|exact H]. intros a b Hab. cbv beta in Hab. apply andb_prop in Hab. tauto.
Qed.
Print Assumptions C48_string_or_reader.

(** ** Generated lexers

    A program that calls the entry point [e] of a generated lexer up to [m]
    times, and notes for every token which action was run and what getLexeme,
    getLexemeStart and getLexemeEnd return in it. *)
Record token := mkToken { t_action : location; t_lexeme : list Z; t_start : Z; t_end : Z }.
Inductive status := Enough | IllegalSymbol | NoProgram.

Fixpoint lexall (d : dfa) (e : name) (fuel m : nat) (acc : list token) : prog (list token * status) :=
  match m with
  | O => PDone (rev acc, Enough)
  | S m' =>
      gen_entry d (fun l => PGetLexeme (fun s => PGetLexemeStart (fun a => PGetLexemeEnd (fun z =>
                     lexall d e fuel m' (mkToken l s a z :: acc)))))
                (PDone (rev acc, IllegalSymbol)) (rev acc, NoProgram) fuel e
  end.

(** [toks] are tokens of the input from position [p] to [q]: each is the
    longest match of the rules (the first rule with that match) at its position *)
Inductive tokens (ls : lets) (rules : casedef) (at_ : Z -> Z) : Z -> list token -> Z -> Prop :=
| tokens_nil p : tokens ls rules at_ p [] p
| tokens_cons p i n r l toks q : nth_error rules i = Some (r, l) -> selects (rev ls) rules at_ p i n ->
    tokens ls rules at_ (p + Z.of_nat n) toks q ->
    tokens ls rules at_ p (mkToken l (prefix at_ p n) p (p + Z.of_nat n) :: toks) q.

Lemma tokens_app ls rules at_ p t1 q t2 r :
  tokens ls rules at_ p t1 q -> tokens ls rules at_ q t2 r -> tokens ls rules at_ p (t1 ++ t2) r.
Proof. induction 1 as [p|p i n r0 l toks q H1 H2 H3 IH]; cbn; intros H; [auto|]. econstructor; eauto. Qed.

Section Lexall.
  Variables (fuelg : nat) (ls : lets) (ld : lexdef) (d : dfa) (e : name) (rules : casedef) (at_ : Z -> Z).
  Hypothesis HG : generate fuelg ls ld = Ret d.
  Hypothesis ND : NoDup (map fst ld).
  Hypothesis RC : rule_count ld <= 32767.
  Hypothesis HI : In (e, rules) ld.
  Hypothesis HS : forall q, 0 <= at_ q < 256.

  Definition good (p : Z) (acc : list token) (m : nat) (x : ires (list token * status)) : Prop :=
    match x with
    | IResult (toks, st) => exists new q, toks = rev acc ++ new /\ tokens ls rules at_ p new q /\
        match st with
        | Enough => length new = m
        | IllegalSymbol => (length new < m)%nat /\ no_rule (rev ls) rules at_ q
        | NoProgram => forall i w, rule_matches (rev ls) rules i w -> w = []
        end
    | ICut => True
    | _ => False
    end.

  Lemma lexall_good fuel m : forall acc start cur last, good cur acc m (ideal any_length at_ (lexall d e fuel m acc) start cur last).
  Proof.
    induction m as [|m IH]; intros acc start cur last; cbn [lexall].
    - cbn. exists [], cur. rewrite app_nil_r. split; [auto|]. split; [constructor|reflexivity].
    - unfold gen_entry.
      pose proof (C37_longest_match_partial _ _ _ _ HG ND RC _ _ HI at_ cur HS fuel) as L. unfold run_entry in L.
      destruct (find_entry (d_initial d) e) as [n|].
      2:{ cbn. exists [], cur. rewrite app_nil_r. split; [auto|]. split; [constructor|]. exact (L NotCompiled eq_refl). }
      cbn [ideal].
      match goal with |- context [gen_state d ?a ?i ?b fuel n] => destruct (gen_state_ideal d a i b at_ cur fuel n cur None) as [lst ->] end.
      destruct (run_state fuel d at_ n cur None) as [x|ex| |]; try exact I.
      specialize (L x eq_refl). destruct x as [l q| |]; cbn [pick].
      + destruct L as (i & k & r & H1 & H2 & H3). cbn [ideal].
        specialize (IH (mkToken l (prefix at_ cur (Z.to_nat (q - cur))) cur q :: acc) cur q lst).
        destruct (ideal any_length at_ _ cur q lst) as [[toks st]| | |]; cbn [good] in *; try contradiction; auto.
        destruct IH as (new & q' & E1 & E2 & E3). cbn [rev] in E1. rewrite <- app_assoc in E1. cbn [app] in E1.
        exists (mkToken l (prefix at_ cur (Z.to_nat (q - cur))) cur q :: new), q'.
        split; [exact E1|]. split.
        * subst q. replace (Z.to_nat (cur + Z.of_nat k - cur)) with k by lia. econstructor; eauto.
        * destruct st; cbn [length]; [lia| |exact E3]. destruct E3. split; [lia|auto].
      + cbn. exists [], cur. rewrite app_nil_r. split; [auto|]. split; [constructor|]. split; [cbn; lia|exact L].
      + cbn. exists [], cur. rewrite app_nil_r. split; [auto|]. split; [constructor|]. exact L.
  Qed.
End Lexall.

Definition bytes (x : response) : Prop := Forall (fun c => 0 <= c < 256) (fst x).
Lemma stream_bytes f : Forall bytes f -> forall q, 0 <= stream f q < 256.
Proof.
  intros H q. unfold stream. generalize (Z.to_nat q). intros n.
  assert (F : Forall (fun c => 0 <= c < 256) (concat (map delivered f))).
  { induction H as [|x f Hx Hf IH]; cbn; [constructor|]. apply Forall_app. split; [|exact IH].
    unfold delivered. destruct (snd x >? 0); [|repeat constructor; lia].
    unfold bytes in Hx. rewrite Forall_forall in *. intros c Hc. apply Hx.
    rewrite <- (firstn_skipn (Z.to_nat (snd x))). apply in_or_app. auto. }
  destruct (le_lt_dec (length (concat (map delivered f))) n) as [Hl|Hl].
  - rewrite nth_overflow by auto. lia.
  - rewrite Forall_forall in F. apply F. now apply nth_In.
Qed.

(** Whatever the portions in which the reader delivers the input, the tokens
    that a generated lexer finds on a buffer made by createLexer are the
    longest matches in the input, with their texts and positions; if Fail is
    raised for an illegal symbol, no rule matches there.  (For definitions
    with at most 32767 rules, see C37_many_rules_refuted.) *)
Theorem C48_generated_lexer :
  forall fuelg ls ld d, generate fuelg ls ld = Ret d -> NoDup (map fst ld) -> rule_count ld <= 32767 ->
  forall e rules, In (e, rules) ld ->
  forall f junk, Forall conforming f -> Forall bytes f -> length junk = 2048%nat ->
  forall fuel m,
  match run (lexall d e fuel m []) (createLexer junk f) with
  | Result (toks, st) => exists q, tokens ls rules (stream f) 0 toks q /\
      match st with
      | Enough => length toks = m
      | IllegalSymbol => (length toks < m)%nat /\ no_rule (rev ls) rules (stream f) q
      | NoProgram => forall i w, rule_matches (rev ls) rules i w -> w = []
      end
  | TooLong | Cut => True
  | Crash => False
  end.
Proof.
  intros fuelg ls ld d HG ND RC e rules HI f junk C B L fuel m.
  destruct (create_win f junk L C) as [W D].
  pose proof (lexall_good _ _ _ _ _ _ _ HG ND RC HI (stream_bytes f B) fuel m [] 0 0 None) as G.
  destruct (run_rd (stream f) any_length (lexall d e fuel m []) _ _ _ _ W D) as [A|[-> _]]; [|exact I].
  destruct (ideal any_length (stream f) (lexall d e fuel m []) 0 0 None) as [[toks st]| | |]; cbn [agrees good] in *;
    try contradiction; rewrite A; [|exact I].
  destruct G as (new & q & E1 & E2 & E3). cbn in E1. subst toks. exists q. auto.
Qed.
Print Assumptions C48_generated_lexer.

(** Examples: the entry point "t" of the lexer of the examples of C37 on
    "iff1.2", read in portions of 2, 1 and 3 characters *)
Lemma conf_check f : forallb (fun x : response => Nat.eqb (length (fst x)) 1024 && (snd x <=? 1024)) f = true -> Forall conforming f.
Proof.
  intros H. apply Forall_forall. intros x Hx. rewrite forallb_forall in H. specialize (H x Hx).
  apply andb_prop in H as [H1 H2]. apply Nat.eqb_eq in H1. split; [exact H1|lia].
Qed.
Lemma bytes_check f : forallb (fun x : response => forallb (fun c => (0 <=? c) && (c <? 256)) (fst x)) f = true -> Forall bytes f.
Proof.
  intros H. apply Forall_forall. intros x Hx. rewrite forallb_forall in H. specialize (H x Hx).
  apply Forall_forall. intros c Hc. rewrite forallb_forall in H. specialize (H c Hc). cbv beta in H. lia.
Qed.
Definition resp (l : list Z) : response := (l ++ repeat 7 (1024 - length l)%nat, Z.of_nat (length l)).
Definition ex_f1 : list response := [resp [105;102]; resp [102]; resp [49;46;50]].
Definition ex_f2 : list response := [resp [105;102;102;49;46;50]].
Definition ex_d : dfa := match generate 100 ex_lets ex_def with Ret d => d | _ => mkDfa [] [] [] end.
Definition ex_toks : list token :=
  [mkToken (Location 20 21) [105;102;102] 0 3; mkToken (Location 40 41) [49;46;50] 3 6].

Example C48_ex_tokens : run (lexall ex_d [116] 100 2 []) (createLexer (repeat 9 2048) ex_f1) = Result (ex_toks, Enough).
Proof. vm_compute. reflexivity. Qed.
Example C48_ex_illegal : run (lexall ex_d [116] 100 3 []) (createLexer (repeat 9 2048) ex_f1) = Result (ex_toks, IllegalSymbol).
Proof. vm_compute. reflexivity. Qed.
Example C48_ex_hyps :
  Forall conforming ex_f1 /\ Forall conforming ex_f2 /\ Forall bytes ex_f1 /\
  (forall q, 0 <= q -> stream ex_f1 q = stream ex_f2 q) /\
  (forall q, 0 <= q -> stream ex_f1 q = string_stream [105;102;102;49;46;50] q) /\
  ideal up_to_1024 (stream ex_f1) (lexall ex_d [116] 100 2 []) 0 0 None = IResult (ex_toks, Enough) /\
  ideal (fun start cur => up_to_1024 start cur && up_to_end [105;102;102;49;46;50] start cur)
    (string_stream [105;102;102;49;46;50]) (lexall ex_d [116] 100 2 []) 0 0 None = IResult (ex_toks, Enough).
Proof.
  split; [apply conf_check; vm_compute; reflexivity|]. split; [apply conf_check; vm_compute; reflexivity|].
  split; [apply bytes_check; vm_compute; reflexivity|].
  split; [|split; [|split]].
  - intros q _. unfold stream. f_equal; vm_compute; reflexivity.
  - intros q _. unfold stream, string_stream. f_equal; vm_compute; reflexivity.
  - vm_compute. reflexivity.
  - vm_compute. reflexivity.
Qed.

(** ** What is false

    Full statement of C48: every program comes to the same result whatever the
    portions, and with a string; and after Fail "lexer: illegal symbol in
    input" lexing can go on from where it stopped.

    1. Whether a token of more than 1024 characters can be read depends on the
    portions: here 1026 characters are read in portions 1, 1024, 1024 and in
    portions 1024, 1024, 1. *)
Fixpoint read_token (n : nat) : prog Z :=
  match n with O => PGetLexemeEnd (fun z => PDone z) | S n' => PNextChar (fun _ => read_token n') end.
Definition portion (n : nat) : response := resp (repeat 97 n).

Theorem C48_long_token_refuted :
  exists (p : prog Z) f1 f2 junk, Forall conforming f1 /\ Forall conforming f2 /\ length junk = 2048%nat /\
    (forall q, 0 <= q -> stream f1 q = stream f2 q) /\
    run p (createLexer junk f1) = TooLong /\ run p (createLexer junk f2) = Result 1026.
Proof.
  exists (PEntry (read_token 1026)), [portion 1; portion 1024; portion 1024], [portion 1024; portion 1024; portion 1], (repeat 0 2048).
  split; [apply conf_check; vm_compute; reflexivity|]. split; [apply conf_check; vm_compute; reflexivity|].
  split; [apply repeat_length|]. split; [|split; vm_compute; reflexivity].
  intros q _. unfold stream. f_equal; vm_compute; reflexivity.
Qed.
Print Assumptions C48_long_token_refuted.

(** 2. When the end of the input is read a second time, a buffer made by
    createLexerString gives the empty lexeme and the same position, one made
    by createLexer the lexeme "\000" and a further position. *)
Theorem C48_second_end_refuted :
  exists (p : prog (list Z * Z)) s f junk, Forall conforming f /\ length junk = 2048%nat /\
    (forall q, 0 <= q -> stream f q = string_stream s q) /\
    run p (createLexerString s) = Result ([], 2) /\ run p (createLexer junk f) = Result ([0], 3).
Proof.
  exists (PEntry (PNextChar (fun _ => PEntry (PNextChar (fun _ => PEntry (PNextChar (fun _ =>
            PGetLexeme (fun s => PGetLexemeEnd (fun z => PDone (s, z)))))))))), [97], [resp [97]], (repeat 0 2048).
  split; [apply conf_check; vm_compute; reflexivity|]. split; [apply repeat_length|]. split.
  - intros q _. unfold stream, string_stream. f_equal; vm_compute; reflexivity.
  - split; vm_compute; reflexivity.
Qed.
Print Assumptions C48_second_end_refuted.

(** 3. After Fail for an illegal symbol the buffer is put back to the position
    that was remembered last, which may belong to an earlier token or be the
    beginning of the input.  The lexer with the single rule 'a' is called on
    "ab"; the second call raises Fail; the third call finds the first token
    again. *)
Definition a_def : lexdef := [([116], [(Characters [97], Location 10 11)])].
Definition a_d : dfa := match generate 100 [] a_def with Ret d => d | _ => mkDfa [] [] [] end.
(** call the lexer [m] times, then once more with a handler of Fail that calls it again *)
Fixpoint resume (m : nat) : prog (list Z) :=
  match m with
  | O => gen_entry a_d (fun _ => PDone []) (gen_entry a_d
           (fun _ => PGetLexemeStart (fun a => PGetLexemeEnd (fun z => PDone [a; z]))) (PDone [-1]) [-2] 5 [116]) [-2] 5 [116]
  | S m' => gen_entry a_d (fun _ => resume m') (PDone [-3]) [-2] 5 [116]
  end.

Theorem C48_illegal_goes_back_refuted :
  exists (p : prog (list Z)) f junk, Forall conforming f /\ length junk = 2048%nat /\
    p = resume 1 /\ stream f 0 = 97 /\ stream f 1 = 98 /\
    run p (createLexer junk f) = Result [0; 1].
Proof.
  exists (resume 1), [resp [97;98]], (repeat 0 2048).
  split; [apply conf_check; vm_compute; reflexivity|]. split; [apply repeat_length|]. split; [reflexivity|].
  split; [reflexivity|]. split; [reflexivity|]. vm_compute. reflexivity.
Qed.
Print Assumptions C48_illegal_goes_back_refuted.

(** 4. If that position has already left the buffer, the next call of the
    lexer raises Fail "lexer: token too long", although no token is longer than
    one character: the same lexer on 3000 times "a" followed by "ba". *)
Theorem C48_illegal_then_too_long_refuted :
  exists (p : prog (list Z)) f junk, Forall conforming f /\ length junk = 2048%nat /\
    p = resume 3000 /\ (forall q, 0 <= q < 3000 -> stream f q = 97) /\ stream f 3000 = 98 /\ stream f 3001 = 97 /\
    run p (createLexer junk f) = TooLong.
Proof.
  set (f := [portion 1000; portion 1000; resp (repeat 97 1000 ++ [98; 97])]).
  assert (E : concat (map delivered f) = repeat 97 3000 ++ [98; 97]) by (vm_compute; reflexivity).
  exists (resume 3000), f, (repeat 0 2048).
  split; [apply conf_check; vm_compute; reflexivity|].
  split; [apply repeat_length|]. split; [reflexivity|]. split; [|split; [|split]].
  - intros q Hq. unfold stream. rewrite E. rewrite app_nth1 by (rewrite repeat_length; lia).
    apply (repeat_spec 3000). apply nth_In. rewrite repeat_length. lia.
  - unfold stream. rewrite E. vm_compute. reflexivity.
  - unfold stream. rewrite E. vm_compute. reflexivity.
  - vm_compute. reflexivity.
Qed.
Print Assumptions C48_illegal_then_too_long_refuted.

(** 5. A handler of that Fail that asks for the lexeme, say for a message,
    makes getLexeme copy a negative number of characters. *)
Theorem C48_illegal_lexeme_refuted :
  exists (p : prog (list Z)) f junk, Forall conforming f /\ length junk = 2048%nat /\
    p = gen_entry a_d (fun _ => gen_entry a_d (fun _ => PDone [1]) (PGetLexeme (fun s => PDone s)) [2] 5 [116])
          (PDone [3]) [2] 5 [116] /\
    stream f 0 = 97 /\ stream f 1 = 98 /\
    run p (createLexer junk f) = Crash.
Proof.
  eexists _, [resp [97;98]], (repeat 0 2048).
  split; [apply conf_check; vm_compute; reflexivity|]. split; [apply repeat_length|]. split; [reflexivity|].
  split; [reflexivity|]. split; [reflexivity|]. vm_compute. reflexivity.
Qed.
Print Assumptions C48_illegal_lexeme_refuted.
