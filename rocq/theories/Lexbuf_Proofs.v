(** Lexer buffers refine the lexer of Lexbuf_Spec. *)
From Verif Require Import Base Lex_Model Lex_Spec Lexbuf_Model Lexbuf_Spec.

(** ** Strings *)
Definition zn (l : list Z) (i : Z) : Z := nth (Z.to_nat i) l 0.

Lemma nth_char_some l i : 0 <= i < zlen l -> nth_char l i = Some (zn l i).
Proof.
  intros H. unfold nth_char, zn, zlen in *.
  destruct ((0 <=? i) && (i <? Z.of_nat (length l))) eqn:E; [|lia].
  apply nth_error_nth'. lia.
Qed.

Lemma nth_firstn' {A} (l : list A) (n i : nat) d : (i < n)%nat -> nth i (firstn n l) d = nth i l d.
Proof.
  revert n i. induction l as [|a l IH]; intros n i H; destruct n, i; cbn; try lia; auto. apply IH. lia.
Qed.
Lemma nth_skipn' {A} (l : list A) (n i : nat) d : nth i (skipn n l) d = nth (n + i) l d.
Proof.
  revert n. induction l as [|a l IH]; intros n; destruct n; cbn; auto. now destruct i.
Qed.

Lemma blit_spec s1 o1 s2 o2 len : 0 <= len -> 0 <= o1 -> o1 + len <= zlen s1 -> 0 <= o2 -> o2 + len <= zlen s2 ->
  exists r, blit_string s1 o1 s2 o2 len = Some r /\ zlen r = zlen s2 /\
    (forall i, o2 <= i < o2 + len -> zn r i = zn s1 (o1 + (i - o2))) /\
    (forall i, 0 <= i < o2 -> zn r i = zn s2 i).
Proof.
  intros H1 H2 H3 H4 H5. unfold blit_string.
  destruct ((0 <=? len) && (0 <=? o1) && (o1 + len <=? zlen s1) && (0 <=? o2) && (o2 + len <=? zlen s2)) eqn:E; [|lia].
  eexists. split; [reflexivity|]. unfold zlen, zn in *. split; [|split].
  - rewrite !app_length, !firstn_length, !skipn_length. lia.
  - intros i Hi. rewrite app_nth2; rewrite firstn_length; [|lia].
    rewrite app_nth1; [|rewrite firstn_length, skipn_length; lia].
    rewrite nth_firstn' by lia. rewrite nth_skipn'. f_equal. lia.
  - intros i Hi. rewrite app_nth1; [|rewrite firstn_length; lia]. apply nth_firstn'. lia.
Qed.

Lemma prefix_nth at_ n : forall p i, (i < n)%nat -> nth i (prefix at_ p n) 0 = at_ (p + Z.of_nat i).
Proof.
  induction n as [|n IH]; intros p i H; [lia|]. cbn [prefix]. destruct i as [|i]; cbn [nth].
  - f_equal. lia.
  - rewrite IH by lia. f_equal. lia.
Qed.
Lemma prefix_len at_ n : forall p, length (prefix at_ p n) = n.
Proof. induction n as [|n IH]; intros p; cbn; auto. Qed.

(** ** The buffer holds a window of the input *)
Definition last_ok (b : lexbuf) (start cur : Z) (last : option (Z * Z)) : Prop :=
  match last with
  | Some (a, q) => lexLastAction b = Some a /\ lexLastPos b = q - lexAbsPos b /\ start <= q <= cur
  | None => lexLastAction b = None
  end.

(** positions, and the characters of the token that can still be needed *)
Record Win (at_ : Z -> Z) (b : lexbuf) (start cur : Z) (last : option (Z * Z)) : Prop := {
  w_start : lexStartPos b = start - lexAbsPos b;
  w_cur : lexCurrPos b = cur - lexAbsPos b;
  w_le : 0 <= start <= cur;
  w_in : 0 <= lexStartPos b;
  w_end : lexCurrPos b <= zlen (lexBuffer b);
  w_last : last_ok b start cur last;
  w_buf : forall i, 0 <= i < zlen (lexBuffer b) -> 0 <= lexAbsPos b + i ->
            zn (lexBuffer b) i = at_ (lexAbsPos b + i)
}.

(** a buffer that is refilled by a reader *)
Record Rd (at_ : Z -> Z) (b : lexbuf) : Prop := {
  r_kind : refillBuff b = RefillFun;
  r_len : zlen (lexBuffer b) = 2048;
  r_abs : -2048 <= lexAbsPos b;
  r_conf : Forall conforming (reader b);
  r_rest : forall j, 0 <= j -> at_ (lexAbsPos b + 2048 + j) = stream (reader b) j
}.

Lemma stream_cons x f j : 0 <= j ->
  stream (x :: f) j = if j <? zlen (delivered x) then zn (delivered x) j else stream f (j - zlen (delivered x)).
Proof.
  intros Hj. unfold stream, zlen, zn. cbn [map concat].
  destruct (j <? Z.of_nat (length (delivered x))) eqn:E.
  - apply app_nth1. lia.
  - rewrite app_nth2 by lia. f_equal. lia.
Qed.

Lemma delivered_len x : conforming x -> 1 <= zlen (delivered x) <= 1024.
Proof.
  intros [H1 H2]. unfold delivered, zlen. destruct (snd x >? 0) eqn:E; [rewrite firstn_length; lia|cbn; lia].
Qed.

(** what lexRefill gets from the reader: the first [n] characters of the array *)
Lemma refill_fetch x : conforming x ->
  exists aux, (if snd x >? 0 then Some (fst x, snd x)
    else match set_nth_char (fst x) 0 0 with Some a => Some (a, 1) | None => None end)
      = Some (aux, zlen (delivered x)) /\ zlen aux = 1024 /\
    forall i, 0 <= i < zlen (delivered x) -> zn aux i = zn (delivered x) i.
Proof.
  intros [H1 H2]. unfold delivered. destruct (snd x >? 0) eqn:E.
  - exists (fst x). split; [|split].
    + unfold zlen. rewrite firstn_length. do 2 f_equal. lia.
    + unfold zlen. lia.
    + unfold zlen, zn. rewrite firstn_length. intros i Hi. rewrite nth_firstn' by lia. auto.
  - unfold set_nth_char, zlen. rewrite H1.
    destruct ((0 <=? 0) && (0 <? Z.of_nat 1024)) eqn:E2; [|lia]. cbn [Z.to_nat firstn app].
    eexists. split; [reflexivity|]. split.
    + cbn [length]. rewrite skipn_length. lia.
    + cbn [length]. intros i Hi. assert (i = 0) by lia. subst i. reflexivity.
Qed.

Lemma lexRefill_spec at_ b start cur last :
  Win at_ b start cur last -> Rd at_ b -> lexCurrPos b = 2048 ->
  exists n b', 1 <= n <= 1024 /\ lexStartPos b' = lexStartPos b - n /\
    lexRefill b = (if lexStartPos b' <? 0 then LFail b' else LRet tt b') /\
    (0 <= lexStartPos b' -> Win at_ b' start cur last /\ Rd at_ b' /\ lexCurrPos b' = 2048 - n).
Proof.
  intros W D HC. destruct W as [W1 W2 W3 W4 W5 W6 W7]. destruct D as [D1 D2 D3 D4 D5].
  set (x := match reader b with [] => (repeat 0 1024, 0) | x :: _ => x end).
  set (f := match reader b with [] => [] | _ :: f => f end).
  assert (CX : conforming x).
  { unfold x. destruct (reader b) as [|y f0]; [split; cbn [fst snd]; [now rewrite repeat_length|lia]|].
    now inversion D4. }
  assert (CF : Forall conforming f).
  { unfold f. destruct (reader b) as [|y f0]; [constructor|]. now inversion D4. }
  assert (SX : forall j, 0 <= j -> stream (reader b) j =
     if j <? zlen (delivered x) then zn (delivered x) j else stream f (j - zlen (delivered x))).
  { unfold x, f. intros j Hj. destruct (reader b) as [|y f0]; [|now apply stream_cons].
    unfold stream, delivered, zlen, zn. cbn [snd Z.gtb Z.compare map concat length]. cbn [Z.of_nat Pos.of_succ_nat].
    destruct (j <? 1) eqn:E.
    - assert (j = 0) by lia. subst j. reflexivity.
    - now destruct (Z.to_nat j), (Z.to_nat (j - 1)). }
  pose proof (delivered_len x CX) as LX.
  destruct (refill_fetch x CX) as (aux & EA & LA & NA).
  set (n := zlen (delivered x)) in *.
  destruct (blit_spec (lexBuffer b) n (lexBuffer b) 0 (2048 - n)) as (buf1 & E1 & L1 & N1 & _); try lia.
  destruct (blit_spec aux 0 buf1 (2048 - n) n) as (buf2 & E2 & L2 & N2 & N3); try lia.
  set (b' := LEXBUF (refillBuff b) buf2 (lexAbsPos b + n) (lexStartPos b - n)
                    (lexCurrPos b - n) (lexLastPos b - n) (lexLastAction b) f).
  exists n, b'. split; [lia|]. split; [reflexivity|]. split.
  - unfold lexRefill.
    assert (ER : match reader b with [] => (repeat 0 1024, 0, []) | (a, r) :: f0 => (a, r, f0) end = (fst x, snd x, f)).
    { unfold x, f. destruct (reader b) as [|[a r] f0]; reflexivity. }
    rewrite ER. rewrite EA. rewrite E1. rewrite E2. reflexivity.
  - intros HS. split; [|split]; [constructor|constructor|]; cbn -[Z.add Z.sub zlen zn stream] in *; try lia.
    + unfold last_ok in *. cbn. destruct last as [[a q]|]; [|exact W6]. destruct W6 as (X1 & X2 & X3). lia || (split; [auto|lia]).
    + intros i Hi Hp. destruct (Z.ltb i (2048 - n)) eqn:Ei.
      * rewrite N3 by lia. rewrite N1 by lia. rewrite W7 by lia. f_equal. lia.
      * rewrite N2 by lia. rewrite NA by lia.
        replace (lexAbsPos b + n + i) with (lexAbsPos b + 2048 + (i - (2048 - n))) by lia.
        rewrite D5 by lia. rewrite SX by lia.
        destruct (i - (2048 - n) <? n) eqn:Ej; [f_equal; lia|lia].
    + exact D1.
    + exact CF.
    + intros j Hj. replace (lexAbsPos b + n + 2048 + j) with (lexAbsPos b + 2048 + (n + j)) by lia.
      rewrite D5 by lia. rewrite SX by lia. destruct (n + j <? n) eqn:Ej; [lia|]. f_equal. lia.
Qed.

(** reading a character that is in the buffer *)
Lemma read_win at_ b start cur last : Win at_ b start cur last -> lexCurrPos b < zlen (lexBuffer b) ->
  nth_char (lexBuffer b) (lexCurrPos b) = Some (at_ cur) /\
  Win at_ (setLexCurrPos b (lexCurrPos b + 1)) start (cur + 1) last.
Proof.
  intros [W1 W2 W3 W4 W5 W6 W7] H. split.
  - rewrite nth_char_some by lia. f_equal. rewrite W7 by lia. f_equal. lia.
  - constructor; cbn; auto; try lia. unfold last_ok in *. cbn. destruct last as [[a q]|]; [|exact W6].
    destruct W6 as (X1 & X2 & X3). split; [auto|]. split; [auto|lia].
Qed.

Lemma next_rd at_ b start cur last :
  Win at_ b start cur last -> Rd at_ b ->
  (exists b', get_next_char b = LRet (at_ cur) b' /\ Win at_ b' start (cur + 1) last /\ Rd at_ b')
  \/ (exists b', get_next_char b = LFail b') /\ up_to_1024 start cur = false.
Proof.
  intros W D. pose proof W as [W1 W2 W3 W4 W5 W6 W7]. pose proof D as [D1 D2 D3 D4 D5].
  unfold get_next_char.
  destruct ((lexCurrPos b <? 0) || (lexCurrPos b >=? zlen (lexBuffer b))) eqn:E.
  - unfold refill. rewrite D1.
    destruct (lexRefill_spec at_ b start cur last W D ltac:(lia)) as (n & b' & Hn & HS & -> & HW).
    destruct (lexStartPos b' <? 0) eqn:E2.
    + right. split; [eauto|]. unfold up_to_1024. lia.
    + left. destruct HW as (W' & D' & C'); [lia|].
      pose proof D' as [D1' D2' D3' D4' D5'].
      destruct (read_win _ _ _ _ _ W' ltac:(lia)) as [-> W2'].
      eexists. split; [reflexivity|]. split; [exact W2'|]. constructor; assumption.
  - left. destruct (read_win _ _ _ _ _ W ltac:(lia)) as [-> W2'].
    eexists. split; [reflexivity|]. split; [exact W2'|]. constructor; assumption.
Qed.

(** operations that do not read *)
Lemma entry_win at_ b start cur last : Win at_ b start cur last ->
  Win at_ (setLexStartPos (setLexLastAction b None) (lexCurrPos b)) cur cur None.
Proof. intros [W1 W2 W3 W4 W5 W6 W7]. constructor; cbn; auto; lia. Qed.
Lemma remember_win at_ b start cur last a : Win at_ b start cur last ->
  Win at_ (setLexLastAction (setLexLastPos b (lexCurrPos b)) (Some a)) start cur (Some (a, cur)).
Proof. intros [W1 W2 W3 W4 W5 W6 W7]. constructor; cbn; auto; try lia. split; [auto|]. lia. Qed.
Lemma backtrack_win at_ b start cur a q : Win at_ b start cur (Some (a, q)) ->
  lexLastAction b = Some a /\ Win at_ (setLexCurrPos b (lexLastPos b)) start q (Some (a, q)).
Proof.
  intros [W1 W2 W3 W4 W5 W6 W7]. unfold last_ok in W6. destruct W6 as (X1 & X2 & X3). split; [auto|].
  constructor; cbn; auto; try lia. split; [auto|]. lia.
Qed.
Lemma lexeme_win at_ b start cur last : Win at_ b start cur last ->
  getLexeme b = LRet (prefix at_ start (Z.to_nat (cur - start))) b.
Proof.
  intros [W1 W2 W3 W4 W5 W6 W7]. unfold getLexeme.
  destruct (lexCurrPos b - lexStartPos b <? 0) eqn:E; [lia|].
  replace (lexCurrPos b - lexStartPos b) with (cur - start) by lia.
  destruct (blit_spec (lexBuffer b) (lexStartPos b) (repeat 0 (Z.to_nat (cur - start))) 0 (cur - start))
    as (r & -> & L & N & _); try lia; [unfold zlen; rewrite repeat_length; lia|].
  f_equal. unfold zlen in L. rewrite repeat_length in L.
  apply (nth_ext _ _ 0 0); [rewrite prefix_len; lia|].
  intros i Hi. rewrite prefix_nth by lia. specialize (N (Z.of_nat i) ltac:(lia)).
  unfold zn in N at 1. rewrite Nat2Z.id in N. rewrite N. rewrite W7 by lia. f_equal. lia.
Qed.
Lemma lexchar_win at_ b start cur last i : Win at_ b start cur last -> 0 <= i < cur - start ->
  getLexemeChar b i = LRet (at_ (start + i)) b.
Proof.
  intros [W1 W2 W3 W4 W5 W6 W7] H. unfold getLexemeChar. rewrite nth_char_some by lia.
  f_equal. rewrite W7 by lia. f_equal. lia.
Qed.

(** ** Programs on a buffer with a reader *)

(** the result that the specification asks for *)
Definition agrees {R} (x : pres R) (y : ires R) : Prop :=
  match y with
  | IResult r => x = Result r
  | ICut => x = Cut
  | IStop | IMisuse => True
  end.

Lemma run_rd {R} at_ may (p : prog R) : forall b start cur last,
  Win at_ b start cur last -> Rd at_ b ->
  agrees (run p b) (ideal may at_ p start cur last) \/ run p b = TooLong /\ may <> up_to_1024.
Proof.
  assert (KR : forall b b' : lexbuf, refillBuff b' = refillBuff b -> lexBuffer b' = lexBuffer b -> lexAbsPos b' = lexAbsPos b ->
     reader b' = reader b -> Rd at_ b -> Rd at_ b').
  { intros b b' E1 E2 E3 E4 [D1 D2 D3 D4 D5]. constructor; rewrite ?E1, ?E2, ?E3, ?E4; auto. }
  induction p as [r0| |k IH|a k IH|k IH|k IH|k IH|i k IH|k IH|k IH]; intros b start cur last W D; cbn [ideal run] in *.
  - left. reflexivity.
  - left. reflexivity.
  - eapply IH; [eapply entry_win; exact W|eapply KR; [..|exact D]; reflexivity].
  - eapply IH; [eapply remember_win; exact W|eapply KR; [..|exact D]; reflexivity].
  - destruct (may start cur) eqn:EM; [|left; exact I].
    destruct (next_rd at_ b start cur last W D) as [(b' & -> & W' & D')|[(b' & ->) U]].
    + eapply IH; eauto.
    + right. split; [auto|]. intros ->. congruence.
  - destruct last as [[a q]|].
    + destruct (backtrack_win _ _ _ _ _ _ W) as [-> W'].
      eapply IH; [exact W'|eapply KR; [..|exact D]; reflexivity].
    + pose proof (w_last _ _ _ _ _ W) as L. cbn in L. rewrite L.
      left. destruct (k None) as [r0| | | | | | | | |] eqn:E; try exact I. reflexivity.
  - rewrite (lexeme_win _ _ _ _ _ W). eapply IH; eauto.
  - destruct ((0 <=? i) && (i <? cur - start)) eqn:E; [|left; exact I].
    rewrite (lexchar_win _ _ _ _ _ i W) by lia. eapply IH; eauto.
  - pose proof W as [W1 W2 W3 W4 W5 W6 W7]. unfold getLexemeStart.
    replace (lexAbsPos b + lexStartPos b) with start by lia. eapply IH; eauto.
  - pose proof W as [W1 W2 W3 W4 W5 W6 W7]. unfold getLexemeEnd.
    replace (lexAbsPos b + lexCurrPos b) with cur by lia. eapply IH; eauto.
Qed.

Lemma create_win f junk : length junk = 2048%nat -> Forall conforming f ->
  Win (stream f) (createLexer junk f) 0 0 None /\ Rd (stream f) (createLexer junk f).
Proof.
  intros L C. assert (LZ : zlen junk = 2048) by (unfold zlen; lia).
  unfold createLexer. split; constructor; cbn -[Z.add Z.mul zlen]; auto; try lia.
Qed.

(** ** Programs on a buffer with a string *)
Record Sb (s : list Z) (b : lexbuf) : Prop := {
  s_buf : lexBuffer b = s ++ [0];
  s_abs : lexAbsPos b = 0
}.

Lemma run_sb {R} s (p : prog R) : forall b start cur last,
  Win (string_stream s) b start cur last -> Sb s b ->
  agrees (run p b) (ideal (up_to_end s) (string_stream s) p start cur last).
Proof.
  assert (KR : forall b b' : lexbuf, lexBuffer b' = lexBuffer b -> lexAbsPos b' = lexAbsPos b -> Sb s b -> Sb s b').
  { intros b b' E1 E2 [D1 D2]. constructor; rewrite ?E1, ?E2; auto. }
  set (at_ := string_stream s).
  induction p as [r0| |k IH|a k IH|k IH|k IH|k IH|i k IH|k IH|k IH]; intros b start cur last W D; cbn [ideal run] in *.
  - reflexivity.
  - reflexivity.
  - eapply IH; [eapply entry_win; exact W|eapply KR; [..|exact D]; reflexivity].
  - eapply IH; [eapply remember_win; exact W|eapply KR; [..|exact D]; reflexivity].
  - destruct (up_to_end s start cur) eqn:EM; [|exact I]. unfold up_to_end in EM.
    pose proof W as [W1 W2 W3 W4 W5 W6 W7]. pose proof D as [D1 D2].
    assert (LB : zlen (lexBuffer b) = Z.of_nat (length s) + 1).
    { rewrite D1. unfold zlen. rewrite app_length. cbn. lia. }
    unfold get_next_char.
    destruct ((lexCurrPos b <? 0) || (lexCurrPos b >=? zlen (lexBuffer b))) eqn:E; [lia|].
    destruct (read_win _ _ _ _ _ W ltac:(lia)) as [-> W2'].
    eapply IH; [exact W2'|eapply KR; [..|exact D]; reflexivity].
  - destruct last as [[a q]|].
    + destruct (backtrack_win _ _ _ _ _ _ W) as [-> W'].
      eapply IH; [exact W'|eapply KR; [..|exact D]; reflexivity].
    + pose proof (w_last _ _ _ _ _ W) as L. cbn in L. rewrite L.
      destruct (k None) as [r0| | | | | | | | |] eqn:E; try exact I. reflexivity.
  - rewrite (lexeme_win _ _ _ _ _ W). eapply IH; eauto.
  - destruct ((0 <=? i) && (i <? cur - start)) eqn:E; [|exact I].
    rewrite (lexchar_win _ _ _ _ _ i W) by lia. eapply IH; eauto.
  - pose proof W as [W1 W2 W3 W4 W5 W6 W7]. unfold getLexemeStart.
    replace (lexAbsPos b + lexStartPos b) with start by lia. eapply IH; eauto.
  - pose proof W as [W1 W2 W3 W4 W5 W6 W7]. unfold getLexemeEnd.
    replace (lexAbsPos b + lexCurrPos b) with cur by lia. eapply IH; eauto.
Qed.

Lemma create_string_win s :
  Win (string_stream s) (createLexerString s) 0 0 None /\ Sb s (createLexerString s).
Proof.
  unfold createLexerString. split; constructor; cbn -[zn zlen string_stream]; auto; try lia; [unfold zlen; lia|].
  intros i Hi Hp. unfold zn, string_stream, zlen in *.
  rewrite app_length in Hi. cbn [length] in Hi.
  destruct (Z.ltb i (Z.of_nat (length s))) eqn:E.
  - rewrite app_nth1 by lia. auto.
  - rewrite app_nth2 by lia. rewrite (nth_overflow s) by lia.
    replace (Z.to_nat i - length s)%nat with O by lia. reflexivity.
Qed.

(** ** Facts about the specification *)
Lemma ideal_ext {R} may at1 at2 (p : prog R) : (forall q, 0 <= q -> at1 q = at2 q) ->
  forall start cur last, 0 <= start <= cur -> (forall a q, last = Some (a, q) -> start <= q <= cur) ->
  ideal may at1 p start cur last = ideal may at2 p start cur last.
Proof.
  intros E.
  assert (EP : forall n p, 0 <= p -> prefix at1 p n = prefix at2 p n).
  { induction n as [|n IHn]; intros q Hq; cbn; [auto|]. rewrite E by lia. rewrite IHn by lia. reflexivity. }
  induction p as [r0| |k IH|a k IH|k IH|k IH|k IH|i k IH|k IH|k IH]; intros start cur last HS HL; cbn [ideal]; auto.
  - apply IH; [lia|]. discriminate.
  - apply IH; [lia|]. intros a0 q [= <- <-]. lia.
  - destruct (may start cur); [|auto]. rewrite E by lia. apply IH; [lia|]. intros a q Hq. specialize (HL a q Hq). lia.
  - destruct last as [[a q]|]; [|auto]. pose proof (HL a q eq_refl). apply IH; [lia|]. intros a0 q0 [= <- <-]. lia.
  - rewrite EP by lia. auto.
  - destruct ((0 <=? i) && (i <? cur - start)) eqn:Ei; [|auto]. rewrite E by lia. auto.
Qed.

Lemma ideal_may {R} (m1 m2 : Z -> Z -> bool) at_ (p : prog R) : (forall a b, m1 a b = true -> m2 a b = true) ->
  forall start cur last r, ideal m1 at_ p start cur last = IResult r -> ideal m2 at_ p start cur last = IResult r.
Proof.
  intros E.
  induction p as [r0| |k IH|a k IH|k IH|k IH|k IH|i k IH|k IH|k IH]; intros start cur last r H; cbn [ideal] in *; eauto.
  - destruct (m1 start cur) eqn:E1; [|discriminate]. rewrite (E _ _ E1). eauto.
  - destruct last as [[a q]|]; eauto.
  - destruct ((0 <=? i) && (i <? cur - start)); eauto.
Qed.

(** ** Generated lexers *)
Definition pick {R} (may : Z -> Z -> bool) at_ (act : location -> prog R) (ill : prog R) (bad : R) start lst (x : lexres) : ires R :=
  match x with
  | Token l q => ideal may at_ (act l) start q lst
  | Illegal => match ill with PDone r => IResult r | _ => IMisuse end
  | NotCompiled => IResult bad
  end.

Lemma gen_state_ideal {R} d (act : location -> prog R) ill bad at_ start fuel : forall n cur last,
  exists lst, ideal any_length at_ (gen_state d act ill bad fuel n) start cur last =
    match run_state fuel d at_ n cur last with
    | Ret x => pick any_length at_ act ill bad start lst x
    | _ => ICut
    end.
Proof.
  induction fuel as [|fuel IH]; intros n cur last; cbn [run_state gen_state] in *; [exists None; reflexivity|].
  destruct (asub (d_states d) n) as [[a|what moves]|e| |]; try (exists None; reflexivity).
  destruct (output_all_trans moves) as [k|e| |]; cbn [bind];
    try (exists None; destruct what; reflexivity).
  set (last1 := match what with No_remember => last | Remember i => Some (i, cur) end) in *.
  assert (G : exists lst, ideal any_length at_ (PNextChar (fun c =>
      match run_code k c with
      | Backtrack => gen_backtrack d act ill bad
      | Goto dest => match asub (d_states d) dest with
                     | Ret (Perform a) => gen_action d act bad a
                     | Ret (Shift _ _) => gen_state d act ill bad fuel dest
                     | _ => PCut end
      end)) start cur last1 = match (match run_code k (at_ cur) with
          | Backtrack => Ret (backtrack d last1)
          | Goto dest =>
              do st <- asub (d_states d) dest;
              match st with
              | Perform a => Ret (run_action d a (cur + 1))
              | Shift _ _ => run_state fuel d at_ dest (cur + 1) last1
              end
          end) with Ret x => pick any_length at_ act ill bad start lst x | _ => ICut end).
  { cbn [ideal any_length]. destruct (run_code k (at_ cur)) as [|dest].
    - unfold gen_backtrack, backtrack. cbn [ideal]. destruct last1 as [[a q]|].
      + unfold gen_action, run_action. exists (Some (a, q)). destruct (find_action (concat (d_actions d)) a); reflexivity.
      + exists None. cbn. destruct ill; reflexivity.
    - destruct (asub (d_states d) dest) as [[a|w m]|e| |]; cbn [bind]; try (exists None; reflexivity).
      + unfold gen_action, run_action. exists last1. destruct (find_action (concat (d_actions d)) a); reflexivity.
      + apply IH. }
  unfold last1 in *. destruct what; exact G.
Qed.
