(** C06: escapes, printing and reading back strings and characters. *)
From Verif Require Import Base ArrayLib Arith_Model Arith_Proofs Buffer_Model Buffer_Props Substring_Spec Substring_Proofs Substring_Proofs2.
From Verif Require Scan_Model Scan_Spec Scan_Proofs Scan_Proofs3.
From Verif Require Import Substring_Model Escape_Model Escape_Spec Escape_Proofs Escape_Proofs2.

(** *** One character *)
Lemma chars_ok junk cs : chars junk cs = Ret cs.
Proof. unfold chars. apply (init_ok cs []); [reflexivity|]. apply zlen_create_Z, zlen_nonneg. Qed.
Definition ml_piece (c : Z) (e : list Z) : Prop :=
  zlen e <= 4 /\ ((e = [c] /\ printable c /\ c <> 92 /\ c <> 34) \/ exists x, e = 92 :: x /\ Forall printable x /\ ml_char x c).
Definition c_piece (c : Z) (e : list Z) : Prop :=
  zlen e <= 4 /\ ((e = [c] /\ printable c /\ c <> 92 /\ c <> 34 /\ c <> 39 /\ c <> 63) \/ exists x, e = 92 :: x /\ Forall printable x /\ forall rest, c_char x rest c).
Lemma div10 c : 0 <= c <= 255 -> 0 <= c / 100 <= 2 /\ 0 <= (c / 10) mod 10 <= 9 /\ 0 <= c mod 10 <= 9 /\ ((c / 100) * 10 + (c / 10) mod 10) * 10 + c mod 10 = c.
Proof. intros H. Z.div_mod_to_equations. lia. Qed.
Lemma div8 c : 0 <= c <= 255 -> 0 <= c / 64 <= 3 /\ 0 <= (c / 8) mod 8 <= 7 /\ 0 <= c mod 8 <= 7 /\ ((c / 64) * 8 + (c / 8) mod 8) * 8 + c mod 8 = c.
Proof. intros H. Z.div_mod_to_equations. lia. Qed.
Ltac printables := unfold digit; repeat (apply Forall_cons; [unfold printable; lia|]); constructor.
Lemma toMLescape_ok junk c : byte_char c -> exists e, toMLescape junk c = Ret e /\ ml_piece c e.
Proof.
  intros B. unfold byte_char in B. unfold toMLescape, ml_piece. rewrite !chars_ok.
  assert (S : forall x, In (x, c) simple_ml -> zlen [92; x] <= 4 /\ (([92; x] = [c] /\ printable c /\ c <> 92 /\ c <> 34) \/ exists y, [92; x] = 92 :: y /\ Forall printable y /\ ml_char y c)).
  { intros x H. split; [unfold zlen; cbn [length]; lia|]. right. exists [x]. split; [reflexivity|]. split; [|apply ml_char_intro; left; now split].
    constructor; [|constructor]. unfold simple_ml in H. cbn [In] in H. unfold printable. repeat (destruct H as [[= <- _]|H]; [lia|]). destruct H. }
  unfold simple_ml in S. cbn [In] in S.
  destruct (Z.eqb_spec c 92) as [->|N1]; [eexists; split; [reflexivity|apply S; tauto]|]. destruct (Z.eqb_spec c 34) as [->|N2]; [eexists; split; [reflexivity|apply S; tauto]|].
  destruct (Z.leb_spec 32 c) as [L|L].
  - destruct (Z.leb_spec c 126) as [L2|L2].
    + eexists; split; [reflexivity|]. split; [unfold zlen; cbn [length]; lia|]. left. unfold printable. auto.
    + eexists; split; [reflexivity|]. split; [unfold zlen; cbn [length]; lia|]. right. eexists. split; [reflexivity|]. destruct (div10 c B) as (D1 & D2 & D3 & D4). split; [printables|].
      assert (V : dec_value [digit (c / 100); digit ((c / 10) mod 10); digit (c mod 10)] = c) by (rewrite dec3 by (unfold digit; lia); unfold digit; lia).
      rewrite <- V at 4. constructor; try (apply dec_digit_iff; unfold digit; lia). lia.
  - destruct (Z.eqb_spec c 7) as [->|N3]; [eexists; split; [reflexivity|apply S; tauto]|]. destruct (Z.eqb_spec c 8) as [->|N4]; [eexists; split; [reflexivity|apply S; tauto]|].
    destruct (Z.eqb_spec c 9) as [->|N5]; [eexists; split; [reflexivity|apply S; tauto]|]. destruct (Z.eqb_spec c 10) as [->|N6]; [eexists; split; [reflexivity|apply S; tauto]|].
    destruct (Z.eqb_spec c 13) as [->|N7]; [eexists; split; [reflexivity|apply S; tauto]|]. destruct (Z.eqb_spec c 11) as [->|N8]; [eexists; split; [reflexivity|apply S; tauto]|].
    destruct (Z.eqb_spec c 12) as [->|N9]; [eexists; split; [reflexivity|apply S; tauto]|].
    eexists; split; [reflexivity|]. split; [unfold zlen; cbn [length]; lia|]. right. eexists. split; [reflexivity|]. split; [printables|].
    assert (V : c + 64 - 64 = c) by lia. rewrite <- V at 2. constructor. lia.
Qed.
Lemma toCescape_ok junk c : byte_char c -> exists e, toCescape junk c = Ret e /\ c_piece c e.
Proof.
  intros B. unfold byte_char in B. unfold toCescape, c_piece. rewrite !chars_ok.
  assert (S : forall x, In (x, c) simple_c -> zlen [92; x] <= 4 /\ (([92; x] = [c] /\ printable c /\ c <> 92 /\ c <> 34 /\ c <> 39 /\ c <> 63) \/ exists y, [92; x] = 92 :: y /\ Forall printable y /\ forall rest, c_char y rest c)).
  { intros x H. split; [unfold zlen; cbn [length]; lia|]. right. exists [x]. split; [reflexivity|]. split; [|intros rest; now constructor].
    constructor; [|constructor]. unfold simple_c in H. cbn [In] in H. unfold printable. repeat (destruct H as [[= <- _]|H]; [lia|]). destruct H. }
  unfold simple_c in S. cbn [In] in S.
  destruct (Z.eqb_spec c 92) as [->|N1]; [eexists; split; [reflexivity|apply S; tauto]|]. destruct (Z.eqb_spec c 63) as [->|N2]; [eexists; split; [reflexivity|apply S; tauto]|].
  destruct (Z.eqb_spec c 39) as [->|N3]; [eexists; split; [reflexivity|apply S; tauto]|]. destruct (Z.eqb_spec c 34) as [->|N4]; [eexists; split; [reflexivity|apply S; tauto]|].
  destruct ((32 <=? c) && (c <=? 126)) eqn:L.
  - eexists; split; [reflexivity|]. split; [unfold zlen; cbn [length]; lia|]. left. unfold printable. repeat split; auto; lia.
  - destruct (Z.eqb_spec c 10) as [->|N5]; [eexists; split; [reflexivity|apply S; tauto]|]. destruct (Z.eqb_spec c 13) as [->|N6]; [eexists; split; [reflexivity|apply S; tauto]|].
    destruct (Z.eqb_spec c 9) as [->|N7]; [eexists; split; [reflexivity|apply S; tauto]|]. destruct (Z.eqb_spec c 11) as [->|N8]; [eexists; split; [reflexivity|apply S; tauto]|].
    destruct (Z.eqb_spec c 8) as [->|N9]; [eexists; split; [reflexivity|apply S; tauto]|]. destruct (Z.eqb_spec c 12) as [->|N10]; [eexists; split; [reflexivity|apply S; tauto]|].
    destruct (Z.eqb_spec c 7) as [->|N11]; [eexists; split; [reflexivity|apply S; tauto]|].
    eexists; split; [reflexivity|]. split; [unfold zlen; cbn [length]; lia|]. right. eexists. split; [reflexivity|]. destruct (div8 c B) as (D1 & D2 & D3 & D4). split; [printables|]. intros rest.
    assert (O : Forall oct_digit [digit (c / 64); digit ((c / 8) mod 8); digit (c mod 8)]) by (repeat (apply Forall_cons; [apply oct_digit_iff; unfold digit; lia|]); constructor).
    assert (V : oct_value [digit (c / 64); digit ((c / 8) mod 8); digit (c mod 8)] = c) by (rewrite oct_value_eq by exact O; cbn [fold_left]; unfold digit; lia).
    rewrite <- V at 4. constructor; auto; [cbn [length]; lia|lia].
Qed.
(** *** Strings *)
Lemma translate_h_ok (P : Z -> list Z -> Prop) f fuel : forall s pre j res, j = zlen pre -> (length s < fuel)%nat -> Forall (fun c => exists e, f c = Ret e /\ P c e) s ->
  exists es, translate_h fuel f (pre ++ s) (zlen (pre ++ s)) j res = Ret (rev es ++ res) /\ Forall2 P s es.
Proof.
  induction fuel as [|fuel IH]; intros s pre j res Hj Hf F; [lia|]. cbn [translate_h]. rewrite Z.geb_leb, zlen_app. destruct s as [|c s].
  - rewrite zl_nil. destruct (Z.leb_spec (zlen pre + 0) j); [|lia]. exists []. split; [reflexivity|constructor].
  - rewrite zlen_cons. pose proof (zlen_nonneg s). destruct (Z.leb_spec (zlen pre + (1 + zlen s)) j); [lia|]. apply Forall_cons_iff in F as ((e & E & Pe) & F).
    rewrite (sub_mid pre c s) by assumption. cbn [bind]. rewrite E. cbn [bind]. cbn [length] in Hf.
    destruct (IH s (pre ++ [c]) (j + 1) (e :: res)) as (es & R & Q); auto; try (rewrite ?zlen_snoc; lia). rewrite <- app_assoc in R. cbn [app] in R. rewrite zlen_app, zlen_cons in R.
    rewrite R. exists (e :: es). split; [cbn [rev]; now rewrite <- app_assoc|now constructor].
Qed.
Definition printed (t : list Z) (r : outcome (list Z)) : Prop :=
  (zlen t <= maxSize -> r = Ret t) /\ (maxSize < zlen t < two62 -> r = Raise Size) /\ (two62 <= zlen t -> r = Raise Overflow).
Lemma translate_ok (P : Z -> list Z -> Prop) junk f s : Forall (fun c => exists e, f c = Ret e /\ P c e) s -> (forall c e, P c e -> zlen e <= 4) ->
  exists es, printed (List.concat es) (translate_ junk f s) /\ Forall2 P s es.
Proof.
  intros F L. unfold translate_. destruct (translate_h_ok P f (loop (zlen s)) s [] 0 []) as (es & R & Q); auto; [rewrite loop_zlen; lia|]. cbn [app] in R. rewrite app_nil_r in R. rewrite R. cbn [bind].
  exists es. split; [|exact Q]. assert (S : small_strs (rev es)).
  { unfold small_strs. apply Forall_rev. clear -Q L. induction Q as [|c e s es Pe Q IH]; constructor; auto. specialize (L _ _ Pe). unfold lim. lia. }
  pose proof (revconcat_ok junk (rev es) S) as J. rewrite rev_involutive in J. exact J.
Qed.
Lemma pieces_len (P : Z -> list Z -> Prop) s es : (forall c e, P c e -> 1 <= zlen e <= 4) -> Forall2 P s es -> zlen s <= zlen (List.concat es) <= 4 * zlen s.
Proof. intros L. induction 1 as [|c e s es Pe Q IH]; cbn [List.concat]; [rewrite zl_nil; lia|]. rewrite zlen_app, zlen_cons. specialize (L _ _ Pe). lia. Qed.
Lemma ml_piece_len c e : ml_piece c e -> 1 <= zlen e <= 4.
Proof. intros (L & [(-> & _)|(x & -> & _)]); split; auto; rewrite zlen_cons; [rewrite zl_nil; lia|pose proof (zlen_nonneg x); lia]. Qed.
Lemma c_piece_len c e : c_piece c e -> 1 <= zlen e <= 4.
Proof. intros (L & [(-> & _)|(x & -> & _)]); split; auto; rewrite zlen_cons; [rewrite zl_nil; lia|pose proof (zlen_nonneg x); lia]. Qed.
Lemma ml_pieces s es : Forall2 ml_piece s es -> ml_literal (List.concat es) s.
Proof.
  induction 1 as [|c e s es (_ & H) Q IH]; [constructor|]. cbn [List.concat]. destruct H as [(-> & P & N & N')|(x & -> & P & M)]; [now constructor|]. cbn [app]. now constructor.
Qed.
Lemma c_pieces s es : Forall2 c_piece s es -> c_literal (List.concat es) s.
Proof.
  induction 1 as [|c e s es (_ & H) Q IH]; [constructor|]. cbn [List.concat]. destruct H as [(-> & P & N & N' & N1 & N2)|(x & -> & P & M)]; [now constructor|]. cbn [app]. now constructor.
Qed.
Lemma ml_literal_text t r : ml_literal t r -> Forall printable t /\ ml_text t r.
Proof.
  induction 1 as [|c t r P N N' M (IH1 & IH2)|e c t r P M L (IH1 & IH2)]; [now split; constructor|now split; constructor|]. split; [|now constructor].
  constructor; [unfold printable; lia|]. now apply Forall_app.
Qed.
Lemma c_literal_text t r : c_literal t r -> Forall printable t /\ c_text t r.
Proof.
  induction 1 as [|c t r P N N' N1 N2 M (IH1 & IH2)|e c t r P M L (IH1 & IH2)]; [now split; constructor|now split; constructor|]. split; [|now constructor].
  constructor; [unfold printable; lia|]. now apply Forall_app.
Qed.
(** String.toString: printable text, quotes and backslashes escaped, that denotes the string; at most
    four characters per character.  Size (or Overflow) exactly if the text is too long for a string. *)
Theorem C06_toString : forall junk s, Forall byte_char s -> exists t, ml_literal t s /\ Forall printable t /\ zlen s <= zlen t <= 4 * zlen s /\ printed t (toString junk s).
Proof.
  intros junk s B. destruct (translate_ok ml_piece junk (toMLescape junk) s) as (es & P & Q).
  - apply Forall_forall. intros c Hc. rewrite Forall_forall in B. now apply toMLescape_ok, B.
  - intros c e H. now apply ml_piece_len in H.
  - exists (List.concat es). pose proof (ml_pieces _ _ Q) as L. split; [exact L|]. split; [now apply (ml_literal_text _ s)|]. split; [|exact P]. now apply (pieces_len ml_piece); [apply ml_piece_len|].
Qed.
Example toString_ex : toString (fun _ => 0) [97; 34; 200; 10; 0; 49] = Ret [97; 92; 34; 92; 50; 48; 48; 92; 110; 92; 94; 64; 49].
Proof. reflexivity. Qed.
Example toString_hyp : Forall byte_char [97; 34; 200; 10; 0; 49].
Proof. repeat (apply Forall_cons; [unfold byte_char; lia|]). constructor. Qed.
Theorem C06_toCString : forall junk s, Forall byte_char s -> exists t, c_literal t s /\ Forall printable t /\ zlen s <= zlen t <= 4 * zlen s /\ printed t (toCString junk s).
Proof.
  intros junk s B. destruct (translate_ok c_piece junk (toCescape junk) s) as (es & P & Q).
  - apply Forall_forall. intros c Hc. rewrite Forall_forall in B. now apply toCescape_ok, B.
  - intros c e H. now apply c_piece_len in H.
  - exists (List.concat es). pose proof (c_pieces _ _ Q) as L. split; [exact L|]. split; [now apply (c_literal_text _ s)|]. split; [|exact P]. now apply (pieces_len c_piece); [apply c_piece_len|].
Qed.
Example toCString_ex : toCString (fun _ => 0) [97; 34; 200; 49; 0; 49] = Ret [97; 92; 34; 92; 51; 49; 48; 49; 92; 48; 48; 48; 49].
Proof. reflexivity. Qed.
(** String.fromString: exactly the texts with well-formed ML escapes are accepted, with the characters
    they denote. *)
Theorem C06_fromString : forall junk s, zlen s <= maxSize ->
  (exists r, ml_text s r /\ fromString junk s = Ret (Some r)) \/ ((forall r, ~ ml_text s r) /\ fromString junk s = Ret None).
Proof.
  intros junk s H. unfold fromString. destruct (fromString_h_ok junk (S (length s)) s [] 0 []) as [(r & M & R)|(M & R)]; auto; try (rewrite ?zl_nil; lia).
  - left. exists r. now split.
Qed.
Example fromString_ex1 : fromString (fun _ => 0) [97; 92; 50; 48; 48; 92; 32; 10; 92; 98] = Ret (Some [97; 200; 98]).
Proof. reflexivity. Qed.
Example fromString_ex2 : fromString (fun _ => 0) [97; 92; 51; 48; 48] = Ret None.
Proof. reflexivity. Qed.
Theorem C06_ml_text_unambiguous : forall t r r', ml_text t r -> ml_text t r' -> r = r'.
Proof. intros t r r' H. now apply ml_text_unique. Qed.
(** strings of less than 2^31 characters: for longer ones the copying primitive truncates lengths
    (C43_refuted_long); Overflow in a hexadecimal escape counts as ill-formed *)
Theorem C06_fromCString_partial : forall junk s, zlen s < lim ->
  (exists r, c_text s r /\ fromCString junk s = Ret (Some r)) \/ ((forall r, ~ c_text s r) /\ fromCString junk s = Ret None).
Proof.
  intros junk s H. unfold fromCString. destruct (fromCString_h_ok junk (S (length s)) s [] 0 [] (create_ junk 1) 1 0) as [(r & M & R)|(M & R)]; auto; try (rewrite ?zl_nil; lia).
  - left. exists r. split; [exact M|]. cbn [app] in R. now rewrite R.
  - right. split; [exact M|]. cbn [app] in R. destruct R as [-> | ->]; reflexivity.
Qed.
Example fromCString_ex1 : fromCString (fun _ => 0) [97; 92; 120; 52; 49; 103; 92; 48; 49; 49; 49] = Ret (Some [97; 65; 103; 9; 49]).
Proof. reflexivity. Qed.
Example fromCString_ex2 : fromCString (fun _ => 0) [92; 120; 49; 48; 48] = Ret None.
Proof. reflexivity. Qed.
Theorem C06_c_text_unambiguous : forall t r r', c_text t r -> c_text t r' -> r = r'.
Proof. intros t r r' H. now apply c_text_unique. Qed.
(** round trips: every byte string whose printed form fits in a string *)
Theorem C06_roundtrip : forall junk junk' s, Forall byte_char s -> 4 * zlen s <= maxSize ->
  exists t, toString junk s = Ret t /\ Forall printable t /\ fromString junk' t = Ret (Some s).
Proof.
  intros junk junk' s B H. destruct (C06_toString junk s B) as (t & L & P & Len & Pr). exists t. split; [apply Pr; lia|]. split; [exact P|]. apply ml_literal_text in L as (_ & L).
  destruct (C06_fromString junk' t) as [(r & M & R)|(M & R)]; [lia| |destruct (M _ L)]. now rewrite (ml_text_unique _ _ L _ M).
Qed.
Theorem C06_C_roundtrip_partial : forall junk junk' s, Forall byte_char s -> 4 * zlen s < lim ->
  exists t, toCString junk s = Ret t /\ Forall printable t /\ fromCString junk' t = Ret (Some s).
Proof.
  intros junk junk' s B H. destruct (C06_toCString junk s B) as (t & L & P & Len & Pr). exists t. split; [apply Pr; unfold lim, maxSize in *; lia|]. split; [exact P|]. apply c_literal_text in L as (_ & L).
  destruct (C06_fromCString_partial junk' t) as [(r & M & R)|(M & R)]; [unfold lim in *; lia| |destruct (M _ L)]. now rewrite (c_text_unique _ _ L _ M).
Qed.
Theorem C06_toString_injective : forall junk junk' s s' t, Forall byte_char s -> Forall byte_char s' -> toString junk s = Ret t -> toString junk' s' = Ret t -> s = s'.
Proof.
  intros junk junk' s s' t B B' E E'. destruct (C06_toString junk s B) as (u & L & _ & _ & P1 & P2 & P3). destruct (C06_toString junk' s' B') as (u' & L' & _ & _ & P1' & P2' & P3').
  assert (u = t). { destruct (Z_le_gt_dec (zlen u) maxSize) as [H|H]; [rewrite P1 in E by exact H; congruence|]. destruct (Z_lt_ge_dec (zlen u) two62); [rewrite P2 in E by lia|rewrite P3 in E by lia]; discriminate. }
  assert (u' = t). { destruct (Z_le_gt_dec (zlen u') maxSize) as [H0|H0]; [rewrite P1' in E' by exact H0; congruence|]. destruct (Z_lt_ge_dec (zlen u') two62); [rewrite P2' in E' by lia|rewrite P3' in E' by lia]; discriminate. }
  subst. apply (ml_text_unique t); now apply ml_literal_text.
Qed.
(** characters *)
Theorem C06_char_roundtrip : forall junk c, byte_char c ->
  exists t, char_toString junk c = Ret t /\ Forall printable t /\ char_fromString t = Ret (Some c).
Proof.
  intros junk c B. destruct (toMLescape_ok junk c B) as (e & E & L & [(-> & P & N & _)|(x & -> & P & M)]); eexists; (split; [exact E|]).
  - split; [constructor; [exact P|constructor]|]. unfold char_fromString, char_from. rewrite (getc_at [] [c]) by reflexivity. cbn [bind]. destruct (Z.eqb_spec c 92); [congruence|reflexivity].
  - split; [constructor; [unfold printable; lia|exact P]|]. unfold char_fromString, char_from. rewrite (getc_at [] (92 :: x)) by reflexivity. cbn [bind]. change (92 =? 92) with true. cbn match.
    unfold fromMLescape. destruct (mlescape_ok (S (length (92 :: x))) x [92] (0 + 1)) as (H & _); [reflexivity|cbn [length]; lia|]. cbn [app] in H.
    destruct H as [(e' & rest & c' & E' & M' & R)|(M' & R)].
    + rewrite R. cbn [bind]. destruct (ml_char_unique _ _ M [] e' c' rest M') as (_ & -> & _); [now rewrite app_nil_r|reflexivity].
    + destruct (M' x [] c); [now rewrite app_nil_r|assumption].
Qed.
Theorem C06_char_C_roundtrip : forall junk c, byte_char c ->
  exists t, char_toCString junk c = Ret t /\ Forall printable t /\ char_fromCString t = Ret (Some c).
Proof.
  intros junk c B. destruct (toCescape_ok junk c B) as (e & E & L & [(-> & P & N & _)|(x & -> & P & M)]); eexists; (split; [exact E|]).
  - split; [constructor; [exact P|constructor]|]. unfold char_fromCString, char_from. rewrite (getc_at [] [c]) by reflexivity. cbn [bind]. destruct (Z.eqb_spec c 92); [congruence|reflexivity].
  - split; [constructor; [unfold printable; lia|exact P]|]. unfold char_fromCString, char_from. rewrite (getc_at [] (92 :: x)) by reflexivity. cbn [bind]. change (92 =? 92) with true. cbn match.
    unfold fromCescape. destruct (cescape_ok x [92] (0 + 1)) as [(e' & rest & c' & E' & M' & R)|(M' & R)]; [reflexivity| |]; cbn [app] in R.
    + rewrite R. cbn [handle_both bind]. destruct (c_char_unique x [] c e' rest c' (M []) M') as (_ & _ & ->); [now rewrite app_nil_r|reflexivity].
    + destruct (M' x [] c); [now rewrite app_nil_r|apply M].
Qed.
Example char_roundtrip_ex : char_toString (fun _ => 0) 127 = Ret [92; 49; 50; 55] /\ char_fromString [92; 49; 50; 55] = Ret (Some 127) /\ byte_char 127.
Proof. split; [reflexivity|split; [reflexivity|unfold byte_char; lia]]. Qed.
(** Finding: a gap at the end of the text, legal in a literal, is refused *)
Example trailing_gap : fromString (fun _ => 0) [97; 92; 32; 92] = Ret None.
Proof. reflexivity. Qed.

Print Assumptions C06_toString.
Print Assumptions C06_toCString.
Print Assumptions C06_fromString.
Print Assumptions C06_ml_text_unambiguous.
Print Assumptions C06_fromCString_partial.
Print Assumptions C06_c_text_unambiguous.
Print Assumptions C06_roundtrip.
Print Assumptions C06_C_roundtrip_partial.
Print Assumptions C06_toString_injective.
Print Assumptions C06_char_roundtrip.
Print Assumptions C06_char_C_roundtrip.
