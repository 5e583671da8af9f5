(** Properties C04 and C05: scanning and formatting of integers and words. *)
From Verif Require Import Base Arith_Model Arith_Proofs Arith_WordProofs Arith_Props Scan_Model Scan_Spec
  Scan_Proofs Scan_Proofs2 Scan_Proofs3 Scan_Proofs4.

(** *** Lemmas *)
Lemma body_unique (P : list Z -> Prop) r l pre ds pre' ds' :
  (forall q, P q -> q = [] \/ exists x t, q = 48 :: x :: t /\ (x = 119 \/ x = 120 \/ x = 88)) ->
  (forall q1 q2 a b t1 t2, P q1 -> P q2 -> digit r a -> digit r b -> q1 <> [] -> q2 <> [] ->
     q1 ++ a :: t1 = q2 ++ b :: t2 -> q1 = q2) ->
  l = pre ++ ds -> l = pre' ++ ds' -> P pre -> P pre' -> ds <> [] -> ds' <> [] ->
  Forall (digit r) ds -> Forall (digit r) ds' -> ds = ds'.
Proof.
  intros HP HU -> E P1 P2 N1 N2 D1 D2.
  assert (Mixed : forall q e e', P q -> q <> [] -> Forall (digit r) e' -> e' = q ++ e -> False).
  { intros q e e' Pq Nq De Eq. destruct (HP q Pq) as [-> | (x & t & -> & Hx)]; [easy|].
    cbn in Eq. subst e'. inversion De as [|? ? _ D3]; subst. inversion D3 as [|? ? D4 _]; subst.
    now apply (not_digit_x r x Hx). }
  destruct pre as [|a0 t0].
  - destruct pre' as [|a1 t1]; [exact E|]. exfalso.
    exact (Mixed (a1 :: t1) ds' ds P2 ltac:(easy) D1 E).
  - destruct pre' as [|a1 t1].
    + exfalso. exact (Mixed (a0 :: t0) ds ds' P1 ltac:(easy) D2 (eq_sym E)).
    + destruct ds as [|d ds]; [easy|]. destruct ds' as [|d' ds']; [easy|].
      assert (a0 :: t0 = a1 :: t1) as Eq.
      { apply (HU _ _ d d' ds ds'); try easy; [now inversion D1|now inversion D2]. }
      rewrite Eq in E. now apply app_inv_head in E.
Qed.

Lemma int_prefix_shape r q : int_prefix r q -> q = [] \/ exists x t, q = 48 :: x :: t /\ (x = 119 \/ x = 120 \/ x = 88).
Proof. intros [-> | (_ & [-> | ->])]; [now left|right|right]; eexists; eexists; (split; [reflexivity|lia]). Qed.
Lemma word_prefix_shape r q : word_prefix r q -> q = [] \/ exists x t, q = 48 :: x :: t /\ (x = 119 \/ x = 120 \/ x = 88).
Proof.
  intros [-> | [-> | (_ & [-> | [-> | [-> | ->]]])]]; [now left|right..]; eexists; eexists; (split; [reflexivity|lia]).
Qed.

Lemma int_numeral_unique r p v v' : int_numeral r p v -> int_numeral r p v' -> v = v'.
Proof.
  intros (ws & sg & s & pre & ds & -> & W & Sg & P & Ne & D & ->) (ws' & sg' & s' & pre' & ds' & E & W' & Sg' & P' & Ne' & D' & ->).
  assert (NS : forall sg s pre ds, signed sg s -> int_prefix r pre -> ds <> [] -> Forall (digit r) ds ->
     nospace (sg ++ pre ++ ds) /\ sg ++ pre ++ ds <> []).
  { clear. intros sg s pre ds Sg P Ne D. destruct ds as [|d ds]; [easy|]. inversion D as [|? ? Dd _]; subst. split.
    - destruct Sg as [(-> & _)|[(-> & _)|[(-> & _)|(-> & _)]]]; cbn; try lia.
      destruct P as [-> | (_ & [-> | ->])]; cbn; try lia. now apply (digit_nospace r).
    - intros H. apply app_eq_nil in H. destruct H as [_ H]. apply app_eq_nil in H. now destruct H. }
  destruct (NS _ _ _ _ Sg P Ne D) as [N1 _]. destruct (NS _ _ _ _ Sg' P' Ne' D') as [N2 N3].
  destruct (spaces_unique2 _ _ _ _ W W' N1 N2 N3 E) as [_ E2]. clear E NS N1 N2 N3 W W'.
  assert (Hd : forall pre ds, int_prefix r pre -> ds <> [] -> Forall (digit r) ds ->
      exists c t, pre ++ ds = c :: t /\ (48 <= c <= 57 \/ 65 <= c <= 70 \/ 97 <= c <= 102)).
  { clear. intros pre ds P Ne D. destruct ds as [|d ds]; [easy|]. inversion D as [|? ? Dd _]; subst.
    destruct P as [-> | (_ & [-> | ->])]; cbn; eexists; eexists; (split; [reflexivity|]); try lia.
    now apply (digit_char r). }
  destruct (Hd _ _ P Ne D) as (c1 & t1 & H1 & R1). destruct (Hd _ _ P' Ne' D') as (c2 & t2 & H2 & R2).
  assert (pre ++ ds = pre' ++ ds' /\ s = s') as [E3 ->].
  { rewrite H1, H2 in *.
    destruct Sg as [(-> & ->)|[(-> & ->)|[(-> & ->)|(-> & ->)]]];
    destruct Sg' as [(-> & ->)|[(-> & ->)|[(-> & ->)|(-> & ->)]]]; cbn in E2;
      (split; [congruence|]) || (exfalso; injection E2 as E2; lia) ; try reflexivity; try (exfalso; injection E2 as E2; lia). }
  f_equal. f_equal.
  apply (body_unique (int_prefix r) r (pre ++ ds) pre ds pre' ds'); try assumption; try reflexivity.
  - apply int_prefix_shape.
  - intros q1 q2 a b u1 u2 [-> | (_ & Q1)] [-> | (_ & Q2)] Da Db M1 M2 Eq; try easy.
    destruct Q1 as [-> | ->], Q2 as [-> | ->]; cbn in Eq; congruence.
Qed.

Lemma word_numeral_unique r p v v' : word_numeral r p v -> word_numeral r p v' -> v = v'.
Proof.
  intros (ws & pre & ds & -> & W & P & Ne & D & ->) (ws' & pre' & ds' & E & W' & P' & Ne' & D' & ->).
  assert (NS : forall pre ds, word_prefix r pre -> ds <> [] -> Forall (digit r) ds ->
     nospace (pre ++ ds) /\ pre ++ ds <> []).
  { clear. intros pre ds P Ne D. destruct ds as [|d ds]; [easy|]. inversion D as [|? ? Dd _]; subst. split.
    - destruct P as [-> | [-> | (_ & [-> | [-> | [-> | ->]]])]]; cbn; try lia. now apply (digit_nospace r).
    - intros H. apply app_eq_nil in H. now destruct H. }
  destruct (NS _ _ P Ne D) as [N1 _]. destruct (NS _ _ P' Ne' D') as [N2 N3].
  destruct (spaces_unique2 _ _ _ _ W W' N1 N2 N3 E) as [_ E2]. clear E NS N1 N2 N3 W W'.
  f_equal. apply (body_unique (word_prefix r) r (pre ++ ds) pre ds pre' ds'); try assumption; try reflexivity.
  - apply word_prefix_shape.
  - intros q1 q2 a b u1 u2 Q1 Q2 Da Db M1 M2 Eq.
    destruct Q1 as [-> | [-> | (_ & [-> | [-> | [-> | ->]]])]]; [easy|..];
    (destruct Q2 as [-> | [-> | (_ & [-> | [-> | [-> | ->]]])]]; [easy|..]; cbn in Eq; try reflexivity; try congruence);
    injection Eq as Eq; subst; exfalso;
      first [revert Da; apply not_digit_x; lia | revert Db; apply not_digit_x; lia].
Qed.

(** *** C04: integers *)

(** A text has at most one reading as a numeral. *)
Theorem C04_unambiguous : forall r p v v', int_numeral r p v -> int_numeral r p v' -> v = v'.
Proof. exact int_numeral_unique. Qed.

(** Int.scan r getc src, for every reader [getc] and every source whose (finitely many) characters are
    [l]: the longest prefix of [l] that is a numeral is consumed and its value returned, or Overflow
    raised when it is not an ML integer; NONE when no prefix is a numeral.  The fuel only has to exceed
    the number of characters, so the scan terminates. *)
Theorem C04_scan : forall (S : Type) (getc : S -> option (Z * S)) src l r fuel,
  contents getc src l -> (length l < fuel)%nat ->
  (exists p rest v, longest_numeral (int_numeral r) l p rest v /\
     (in_int v -> exists s, int_scan getc r fuel src = Ret (Some (v, s)) /\ reads getc src p s /\ contents getc s rest) /\
     (~ in_int v -> int_scan getc r fuel src = Raise Overflow)) \/
  (no_numeral (int_numeral r) l /\ int_scan getc r fuel src = Ret None).
Proof.
  intros S getc src l r fuel C Hf.
  pose proof (int_scan_sim getc (at_ getc src l) (at_step getc src l) r fuel src l (at_start getc src l C)) as Sim.
  destruct (int_scan_list r l fuel Hf) as [(p & rest & v & L & E)|(N & E)]; rewrite E in Sim.
  - left. exists p, rest, v. split; [exact L|]. unfold ok_or_overflow in Sim. split.
    + intros Hv. rewrite in_intb_yes in Sim by assumption.
      destruct (int_scan getc r fuel src) as [[[v1 s1]|]| | |]; cbn in Sim; try easy.
      destruct Sim as [-> A]. exists s1. split; [reflexivity|]. split; [|apply A].
      apply (at_reads getc src l p s1 rest); [apply L|exact A].
    + intros Hv. rewrite in_intb_no in Sim by assumption.
      destruct (int_scan getc r fuel src) as [[[v1 s1]|]| | |]; cbn in Sim; try easy. now subst.
  - right. split; [exact N|].
    destruct (int_scan getc r fuel src) as [[[v1 s1]|]| | |]; cbn in Sim; try easy.
Qed.

(** Int.fmt: the standard text of every ML integer. *)
Theorem C04_fmt : forall r i, in_int i ->
  exists ds, canonical r (Z.abs i) ds /\ int_fmt r i = Ret ((if i <? 0 then [126] else []) ++ ds).
Proof.
  intros r i Hi. destruct (Z.ltb_spec i 0) as [L|L].
  - exists (digits_acc 64 (base r) (- i) []). rewrite conv_neg by assumption. split; [|reflexivity].
    rewrite Z.abs_neq by lia. apply digits64. unfold in_int, two62, two63 in *. lia.
  - exists (digits_acc 64 (base r) i []). rewrite conv_nonneg by assumption. split; [|reflexivity].
    rewrite Z.abs_eq by lia. apply digits64. unfold in_int, two62, two63 in *. lia.
Qed.

Lemma canonical_digits r n ds : canonical r n ds -> Forall (digit r) ds.
Proof. intros (U & _). eapply Forall_impl; [|exact U]. now intros a (D & _). Qed.

(** Scanning the text produced by Int.fmt gives the integer back and consumes all of the text. *)
Theorem C04_roundtrip : forall r i text, in_int i -> int_fmt r i = Ret text ->
  forall (S : Type) (getc : S -> option (Z * S)) src fuel, contents getc src text -> (length text < fuel)%nat ->
  exists s, int_scan getc r fuel src = Ret (Some (i, s)) /\ reads getc src text s /\ getc s = None.
Proof.
  intros r i text Hi Ef S getc src fuel C Hf.
  destruct (C04_fmt r i Hi) as (ds & Cn & E). rewrite E in Ef. injection Ef as Ef.
  assert (Num : int_numeral r text i).
  { exists [], (if i <? 0 then [126] else []), (if i <? 0 then -1 else 1), [], ds.
    pose proof Cn as (_ & Ne & V & _).
    split; [now symmetry|]. split; [constructor|]. split; [|split; [now left|split; [assumption|split]]].
    - destruct (i <? 0); [right; right; now left|now left].
    - now apply canonical_digits in Cn.
    - rewrite V. destruct (Z.ltb_spec i 0); lia. }
  destruct (C04_scan S getc src text r fuel C Hf) as [(p & rest & v & (El & Np & Mx) & Ok & _)|(N & _)].
  - assert (rest = []) as ->.
    { specialize (Mx text [] i ltac:(now rewrite app_nil_r) Num). rewrite El, app_length in Mx.
      destruct rest; [reflexivity|cbn in Mx; lia]. }
    rewrite app_nil_r in El. subst p. rewrite (int_numeral_unique r text v i Np Num) in *.
    destruct (Ok Hi) as (s & E1 & R1 & C1). exists s. repeat split; try assumption.
    destruct C1 as (e & Re & Ge). inversion Re; subst. exact Ge.
  - exfalso. apply (N text [] i); [now rewrite app_nil_r|exact Num].
Qed.

(** a string as a source *)
Lemma string_contents p l : contents (string_getc (p ++ l)) (Z.of_nat (length p)) l.
Proof.
  revert p. induction l as [|c l IH]; intros p.
  - exists (Z.of_nat (length p)). split; [constructor|]. unfold string_getc. rewrite app_nil_r.
    destruct (Z.geb_spec (Z.of_nat (length p)) (Z.of_nat (length p))); [reflexivity|lia].
  - destruct (IH (p ++ [c])) as (e & R & G). rewrite <- app_assoc in R, G. cbn [app] in R, G.
    exists e. split; [|exact G].
    econstructor; [|rewrite app_length in R; cbn [length] in R; replace (Z.of_nat (length p + 1)) with (Z.of_nat (length p) + 1) in R by lia; exact R].
    unfold string_getc. rewrite app_length. cbn [length].
    destruct (Z.geb_spec (Z.of_nat (length p)) (Z.of_nat (length p + S (length l)))); [lia|].
    rewrite Nat2Z.id, app_nth2, Nat.sub_diag by lia. reflexivity.
Qed.

(** Int.fromString: the value of the longest decimal numeral at the start of the string. *)
Theorem C04_fromString : forall s,
  (exists p rest v, longest_numeral (int_numeral DEC) s p rest v /\
     (in_int v -> int_fromString s = Ret (Some v)) /\ (~ in_int v -> int_fromString s = Raise Overflow)) \/
  (no_numeral (int_numeral DEC) s /\ int_fromString s = Ret None).
Proof.
  intros s. unfold int_fromString, scanString.
  destruct (C04_scan Z (string_getc s) 0 s DEC (S (length s)) (string_contents [] s) ltac:(lia))
    as [(p & rest & v & L & Ok & Ov)|(N & E)].
  - left. exists p, rest, v. split; [exact L|]. split.
    + intros H. destruct (Ok H) as (s1 & -> & _). reflexivity.
    + intros H. now rewrite (Ov H).
  - right. split; [exact N|]. now rewrite E.
Qed.

(** Int.toString is Int.fmt DEC. *)
Theorem C04_toString : forall i, in_int i -> int_fmt DEC i = Ret (sml_string_of_int (rep i)).
Proof.
  intros i Hi. unfold sml_string_of_int, rep. rewrite Long_val_odd. unfold sprintf_ld.
  destruct (Z.ltb_spec i 0) as [L|L].
  - rewrite conv_neg by assumption. cbn [base mkSMLMinus_loop Z.eqb Pos.eqb].
    rewrite mkSMLMinus_digits; [reflexivity|].
    apply (digits64 DEC (- i)). unfold in_int, two62, two63 in *. lia.
  - rewrite conv_nonneg by assumption. cbn [base].
    rewrite mkSMLMinus_digits; [reflexivity|].
    apply (digits64 DEC i). unfold in_int, two62, two63 in *. lia.
Qed.

(** Integer literals: the exact value, or Failure when it is not an ML integer. *)
Theorem C04_literals : forall sg s ds, (sg = [] /\ s = 1) \/ (sg = [126] /\ s = -1) ->
  (Forall (digit DEC) ds -> let v := s * value DEC ds in
     (in_int v -> sml_int_of_string (sg ++ ds) = Ret (rep v)) /\
     (~ in_int v -> sml_int_of_string (sg ++ ds) = Raise FailExn)) /\
  (Forall (digit HEX) ds -> let v := s * value HEX ds in
     (in_int v -> sml_int_of_hex (sg ++ [48; 120] ++ ds) = Ret (rep v)) /\
     (~ in_int v -> sml_int_of_hex (sg ++ [48; 120] ++ ds) = Raise FailExn)).
Proof.
  intros sg s ds Sg.
  assert (Hs : s = 1 \/ s = -1) by (destruct Sg as [(_ & ->)|(_ & ->)]; lia).
  assert (M : 0 < Min_long_u <= two64) by (split; reflexivity || discriminate).
  split; intros D v.
  - assert (E : sml_int_of_string (sg ++ ds) = do n <- scandec ds Min_long_u; int_literal s n).
    { unfold sml_int_of_string. destruct Sg as [(-> & ->)|(-> & ->)]; [|reflexivity].
      destruct ds as [|d ds]; [reflexivity|]. inversion D as [|? ? Dd _]; subst. apply digit_char in Dd.
      cbn [app cchar]. destruct (Z.eqb_spec d 126); [lia|reflexivity]. }
    rewrite E, scandec_spec, int_literal_spec by (assumption || now apply value_nonneg).
    subst v. split; intros H; [rewrite in_intb_yes by assumption|rewrite in_intb_no by assumption]; reflexivity.
  - assert (E : sml_int_of_hex (sg ++ [48; 120] ++ ds) = do n <- scanhex ds Min_long_u; int_literal s n).
    { unfold sml_int_of_hex. destruct Sg as [(-> & ->)|(-> & ->)]; reflexivity. }
    rewrite E, scanhex_spec, int_literal_spec by (assumption || now apply value_nonneg).
    subst v. split; intros H; [rewrite in_intb_yes by assumption|rewrite in_intb_no by assumption]; reflexivity.
Qed.

Example C04_example :
  (* " ~4611686018427387904 " in decimal: the least integer, which has no positive counterpart *)
  int_fromString ([32; 126] ++ [52; 54; 49; 49; 54; 56; 54; 48; 49; 56; 52; 50; 55; 51; 56; 55; 57; 48; 52] ++ [32])
    = Ret (Some (- two62)) /\
  int_fromString [52; 54; 49; 49; 54; 56; 54; 48; 49; 56; 52; 50; 55; 51; 56; 55; 57; 48; 52] = Raise Overflow /\
  int_scan (string_getc [48; 120; 71]) HEX 10 0 = Ret (Some (0, 1)) /\ (* 0xG *)
  int_fmt HEX (- two62) = Ret (126 :: 52 :: repeat 48 15) /\
  contents (string_getc [49; 50]) 0 [49; 50] /\ in_int (- two62) /\
  sml_int_of_string [126; 49; 50] = Ret (rep (-12)).
Proof.
  split; [vm_compute; reflexivity|]. split; [vm_compute; reflexivity|]. split; [reflexivity|].
  split; [vm_compute; reflexivity|]. split; [exact (string_contents [] [49; 50])|].
  split; [unfold in_int, two62; lia|reflexivity].
Qed.

(** *** C05: words *)

Theorem C05_unambiguous : forall r p v v', word_numeral r p v -> word_numeral r p v' -> v = v'.
Proof. exact word_numeral_unique. Qed.

(** Word.scan: the longest numeral prefix is consumed and its value modulo 2^63 returned. *)
Theorem C05_scan : forall (S : Type) (getc : S -> option (Z * S)) src l r fuel,
  contents getc src l -> (length l < fuel)%nat ->
  (exists p rest v s, longest_numeral (word_numeral r) l p rest v /\
     word_scan getc r fuel src = Ret (Some (wrep (v mod 2 ^ 63), s)) /\ reads getc src p s /\ contents getc s rest) \/
  (no_numeral (word_numeral r) l /\ word_scan getc r fuel src = Ret None).
Proof.
  intros S getc src l r fuel C Hf.
  pose proof (word_scan_sim getc (at_ getc src l) (at_step getc src l) r fuel src l (at_start getc src l C)) as Sim.
  destruct (word_scan_list r l fuel Hf) as [(p & rest & v & L & E)|(N & E)]; rewrite E in Sim.
  - left. destruct (word_scan getc r fuel src) as [[[v1 s1]|]| | |]; cbn in Sim; try easy.
    destruct Sim as [-> A]. exists p, rest, v, s1. split; [exact L|]. split; [|split; [|apply A]].
    + rewrite wrep_tagw. reflexivity.
    + apply (at_reads getc src l p s1 rest); [apply L|exact A].
  - right. split; [exact N|].
    destruct (word_scan getc r fuel src) as [[[v1 s1]|]| | |]; cbn in Sim; try easy.
Qed.

Theorem C05_fmt : forall r w, word_range w ->
  exists ds, canonical r w ds /\ word_fmt r (wrep w) = Ret ds.
Proof.
  intros r w Hw. exists (digits_acc 64 (base r) w []). rewrite wrep_tagw, word_fmt_eq by assumption.
  split; [|reflexivity]. now apply digits64.
Qed.

Theorem C05_roundtrip : forall r w text, word_range w -> word_fmt r (wrep w) = Ret text ->
  forall (S : Type) (getc : S -> option (Z * S)) src fuel, contents getc src text -> (length text < fuel)%nat ->
  exists s, word_scan getc r fuel src = Ret (Some (wrep w, s)) /\ reads getc src text s /\ getc s = None.
Proof.
  intros r w text Hw Ef S getc src fuel C Hf.
  destruct (C05_fmt r w Hw) as (ds & Cn & E). rewrite E in Ef. injection Ef as Ef.
  assert (Num : word_numeral r text w).
  { exists [], [], ds. pose proof Cn as (_ & Ne & V & _).
    split; [now symmetry|]. split; [constructor|]. split; [now left|]. split; [assumption|].
    split; [now apply canonical_digits in Cn|now symmetry]. }
  destruct (C05_scan S getc src text r fuel C Hf) as [(p & rest & v & s & (El & Np & Mx) & E1 & R1 & C1)|(N & _)].
  - assert (rest = []) as ->.
    { specialize (Mx text [] w ltac:(now rewrite app_nil_r) Num). rewrite El, app_length in Mx.
      destruct rest; [reflexivity|cbn in Mx; lia]. }
    rewrite app_nil_r in El. subst p. rewrite (word_numeral_unique r text v w Np Num) in *.
    exists s. rewrite Z.mod_small in E1 by exact Hw. repeat split; try assumption.
    destruct C1 as (e & Re & Ge). inversion Re; subst. exact Ge.
  - exfalso. apply (N text [] w); [now rewrite app_nil_r|exact Num].
Qed.

Theorem C05_fromString : forall s,
  (exists p rest v, longest_numeral (word_numeral HEX) s p rest v /\
     word_fromString s = Ret (Some (wrep (v mod 2 ^ 63)))) \/
  (no_numeral (word_numeral HEX) s /\ word_fromString s = Ret None).
Proof.
  intros s. unfold word_fromString, scanString.
  destruct (C05_scan Z (string_getc s) 0 s HEX (S (length s)) (string_contents [] s) ltac:(lia))
    as [(p & rest & v & s1 & L & E & _)|(N & E)].
  - left. exists p, rest, v. split; [exact L|]. now rewrite E.
  - right. split; [exact N|]. now rewrite E.
Qed.

(** Word.toString and the compiler's printing of words *)
Theorem C05_toString : forall w, word_range w ->
  exists ds, canonical HEX w ds /\ word_toString (wrep w) = Ret ds /\
             sml_hexstring_of_word (wrep w) = [48; 119; 120] ++ ds.
Proof.
  intros w Hw. exists (digits_acc 64 16 w []). split; [now apply (digits64 HEX)|]. split.
  - rewrite wrep_tagw. exact (word_fmt_eq HEX w Hw).
  - unfold sml_hexstring_of_word, sprintf_lX. rewrite wrep_tagw, u64_tagw by exact Hw.
    change (Z.shiftr (2 * w + 1) 1) with (Long_val (2 * w + 1)). now rewrite Long_val_odd.
Qed.

(** Word literals: the exact value, or Failure when it is not an ML word. *)
Theorem C05_literals : forall ds,
  (Forall (digit DEC) ds ->
     (word_range (value DEC ds) -> sml_word_of_dec ([48; 119] ++ ds) = Ret (wrep (value DEC ds))) /\
     (~ word_range (value DEC ds) -> sml_word_of_dec ([48; 119] ++ ds) = Raise FailExn)) /\
  (Forall (digit HEX) ds ->
     (word_range (value HEX ds) -> sml_word_of_hex ([48; 119; 120] ++ ds) = Ret (wrep (value HEX ds))) /\
     (~ word_range (value HEX ds) -> sml_word_of_hex ([48; 119; 120] ++ ds) = Raise FailExn)).
Proof.
  intros ds. assert (M : 0 < u64 (2 * Min_long_u) <= two64) by (split; reflexivity || discriminate).
  split; intros D.
  - unfold sml_word_of_dec. cbn [app cnext tl].
    rewrite scandec_spec, word_literal_spec by (assumption || now apply value_nonneg).
    unfold word_range. change (2 ^ 63) with two63. pose proof (value_nonneg DEC ds D).
    rewrite wrep_tagw. destruct (Z.ltb_spec (value DEC ds) two63); split; intros; try reflexivity; lia.
  - unfold sml_word_of_hex. cbn [app cnext tl].
    rewrite scanhex_spec, word_literal_spec by (assumption || now apply value_nonneg).
    unfold word_range. change (2 ^ 63) with two63. pose proof (value_nonneg HEX ds D).
    rewrite wrep_tagw. destruct (Z.ltb_spec (value HEX ds) two63); split; intros; try reflexivity; lia.
Qed.

(** Word.sig documents "Raises Overflow if the scanned number cannot be represented as a word":
    false, 2^63 in decimal scans as 0w0. *)
Theorem C05_documented_overflow_refuted : exists s v,
  word_numeral DEC s v /\ ~ word_range v /\
  word_scan (string_getc s) DEC (S (length s)) 0 = Ret (Some (wrep 0, Z.of_nat (length s))).
Proof.
  exists [57; 50; 50; 51; 51; 55; 50; 48; 51; 54; 56; 53; 52; 55; 55; 53; 56; 48; 56], (2 ^ 63).
  split; [|split; [unfold word_range; lia|vm_compute; reflexivity]].
  exists [], [], [57; 50; 50; 51; 51; 55; 50; 48; 51; 54; 56; 53; 52; 55; 55; 53; 56; 48; 56].
  split; [reflexivity|]. split; [constructor|]. split; [now left|]. split; [easy|]. split; [|reflexivity].
  repeat constructor; (eexists; split; [reflexivity|cbn; lia]).
Qed.

(** Word.sig documents the hexadecimal numerals as (0wx|0wX|0x|0X)?[0-9a-fA-F]+, so that of "0wA" only
    the "0" is a numeral; the code also takes "0w" as a prefix and returns 10. *)
Definition documented_hex_numeral (p : list Z) (v : Z) : Prop :=
  exists ws pre ds, p = ws ++ pre ++ ds /\ Forall space ws /\
    In pre [[]; [48; 119; 120]; [48; 119; 88]; [48; 120]; [48; 88]] /\
    ds <> [] /\ Forall (digit HEX) ds /\ v = value HEX ds.
Theorem C05_documented_prefix_refuted : exists s p rest v,
  longest_numeral documented_hex_numeral s p rest v /\
  word_scan (string_getc s) HEX (S (length s)) 0 <> Ret (Some (wrep v, Z.of_nat (length p))).
Proof.
  exists [48; 119; 65], [48], [119; 65], 0. split; [|vm_compute; congruence].
  split; [reflexivity|]. split.
  - exists [], [], [48]. split; [reflexivity|]. split; [constructor|]. split; [now left|]. split; [easy|].
    split; [|reflexivity]. constructor; [apply digit48|constructor].
  - intros p' rest' v' E (ws & pre & ds & -> & W & P & Ne & D & _).
    assert (ws = []) as ->.
    { destruct W as [|c ws Hc W]; [reflexivity|]. cbn in E. injection E as <- _. cbn in Hc. lia. }
    cbn [app] in *. destruct ds as [|d ds]; [easy|]. inversion D as [|? ? Dd D']; subst.
    destruct P as [<-|[<-|[<-|[<-|[<-|[]]]]]]; cbn in E; try congruence.
    injection E as <- E. destruct ds as [|d ds]; [cbn; lia|]. injection E as <- _.
    inversion D' as [|? ? Dw _]; subst. exfalso. revert Dw. apply not_digit_x. lia.
Qed.

Example C05_example :
  word_range (2 ^ 63 - 1) /\ word_fmt HEX (wrep (2 ^ 63 - 1)) = Ret (55 :: repeat 70 15) /\
  word_fromString (48 :: 119 :: 120 :: 55 :: repeat 102 15) = Ret (Some (wrep (2 ^ 63 - 1))) /\
  word_scan (string_getc [48; 119; 120; 120]) HEX 5 0 = Ret (Some (wrep 0, 1)).
Proof. split; [unfold word_range; lia|]. repeat split; vm_compute; reflexivity. Qed.

Print Assumptions C04_unambiguous.
Print Assumptions C04_scan.
Print Assumptions C04_fmt.
Print Assumptions C04_roundtrip.
Print Assumptions C04_fromString.
Print Assumptions C04_toString.
Print Assumptions C04_literals.
Print Assumptions C05_unambiguous.
Print Assumptions C05_scan.
Print Assumptions C05_fmt.
Print Assumptions C05_roundtrip.
Print Assumptions C05_fromString.
Print Assumptions C05_toString.
Print Assumptions C05_literals.
Print Assumptions C05_documented_overflow_refuted.
Print Assumptions C05_documented_prefix_refuted.
