(** C54: what Msp.urlencode and Msp.htmlencode write is read back as it was, and the fields of a CGI request are those it carries. *)
From Verif Require Import Base ArrayLib Copy_Model Buffer_Model Substring_Model Substring_Spec Substring_Proofs Substring_Proofs2 Substring_Props Cgi_Model Cgi_Spec Cgi_Proofs.

(** ** URL encoding *)
(** Only safe characters are written: no "&", no "=", no space, no quote. *)
Theorem C54_url_chars : forall junk s e, Forall (fun c => 0 <= c < 256) s -> urlencode junk s = Ret e -> Forall url_safe e.
Proof.
  intros junk s e B H. apply urlencode_ret in H as (-> & _); [|exact B]. apply Forall_forall. intros x Hx.
  apply in_concat in Hx as (l & Hl & Hx). apply in_map_iff in Hl as (c & <- & Hc). rewrite Forall_forall in B.
  pose proof (enc_safe c (B c Hc)) as S. rewrite Forall_forall in S. auto.
Qed.
Example C54_url_chars_ex : urlencode (fun _ => 7) [97; 32; 38; 10; 255] = Ret [97; 43; 37; 50; 54; 37; 48; 65; 37; 70; 70].
Proof. vm_compute. reflexivity. Qed.

(** The encoding is defined whenever it can fit in a string, and stands for the string encoded. *)
Theorem C54_urlencode : forall junk s, Forall (fun c => 0 <= c < 256) s -> 3 * zlen s <= maxSize ->
  exists e, urlencode junk s = Ret e /\ url_text e = Some s.
Proof.
  intros junk s B L. exists (List.concat (List.map enc s)). split; [|apply url_text_encs; exact B].
  apply (urlencode_joined junk s B). unfold total. pose proof (encs_len s). lia.
Qed.

(** decode reads any substring as a form value, a malformed one as the empty string. *)
Theorem C54_decode : forall junk ss, valid ss -> zlen (text ss) <= maxSize ->
  decode junk ss = Ret (match url_text (text ss) with Some s => s | None => [] end).
Proof. exact decode_ok. Qed.
Example C54_decode_ex : decode (fun _ => 7) ([120; 97; 43; 37; 50; 102; 98; 120], 1, 6) = Ret [97; 32; 47; 98] /\
  decode (fun _ => 7) ([97; 37; 50], 0, 3) = Ret [].
Proof. vm_compute. split; reflexivity. Qed.

Theorem C54_url_roundtrip : forall junk junk' s e, Forall (fun c => 0 <= c < 256) s -> urlencode junk s = Ret e ->
  decode junk' (full e) = Ret s.
Proof.
  intros junk junk' s e B H. apply urlencode_ret in H as (-> & L); [|exact B]. unfold full. rewrite C54_decode; [|apply valid_full|rewrite text_full; exact L].
  rewrite text_full, url_text_encs by exact B. reflexivity.
Qed.
Example C54_url_roundtrip_ex : forall junk, exists e, urlencode junk [0; 32; 37; 43; 200] = Ret e.
Proof.
  intros junk. destruct (C54_urlencode junk [0; 32; 37; 43; 200]) as (e & H & _); [repeat constructor; lia|cbv; discriminate|]. eauto.
Qed.

(** ** The fields of a request *)
(** the text of a form value, "" if malformed *)
Definition form_value (t : list Z) : list Z := match url_text t with Some s => s | None => [] end.
(** the pairs of a query split into fields: those parts with exactly one "=" *)
Definition pairs_of (fss : list (list (list Z))) : list (list Z * list Z) :=
  flat_map (fun fs => match fs with [k; v] => [(form_value k, form_value v)] | _ => [] end) fss.

Lemma values_cons name p ps : values_of name (p :: ps) = if list_eq_dec Z.eq_dec name (fst p) then snd p :: values_of name ps else values_of name ps.
Proof. unfold values_of. cbn [filter]. destruct (list_eq_dec Z.eq_dec name (fst p)); reflexivity. Qed.
Definition found (l : list (list Z)) : option (list (list Z)) := match l with [] => None | _ => Some l end.
Definition short (ss : substring) : Prop := valid ss /\ zlen (text ss) <= maxSize.

Lemma addFields_ok junk ls : Forall (Forall short) ls ->
  exists d, addFields junk ls d_empty = Ret d /\ forall name, d name = found (values_of name (pairs_of (List.map (List.map text) ls))).
Proof.
  induction 1 as [|l ls Hl _ (d & E & I)].
  - exists d_empty. split; reflexivity.
  - cbn [addFields]. rewrite E. cbn [bind]. destruct l as [|k [|v [|x l]]].
    1,2,4: exists d; split; [reflexivity|exact I].
    inversion Hl as [|? ? (Vk & Lk) Hl']; subst. inversion Hl' as [|? ? (Vv & Lv) _]; subst.
    cbn [addField]. rewrite !C54_decode by assumption. cbn [bind]. eexists. split; [reflexivity|]. intros name.
    cbn [List.map pairs_of flat_map app]. rewrite values_cons. cbn [fst snd]. unfold addItem, d_insert, str_eqb. fold (form_value (text k)) (form_value (text v)).
    change (flat_map _ ?x) with (pairs_of x).
    destruct (list_eq_dec Z.eq_dec name (form_value (text k))) as [->|_]; [|apply I].
    rewrite I. destruct (values_of _ _); reflexivity.
Qed.

Lemma mapM_fields p l : Forall valid l ->
  exists ls, mapM (fields p) l = Ret ls /\ Forall2 (fun ss l' => Forall (inside ss) l' /\ fields_of p (text ss) (List.map text l')) l ls.
Proof.
  induction 1 as [|ss l V _ (ls & E & F)]; [exists []; split; [reflexivity|constructor]|].
  destruct (C33_fields p ss V) as (l' & E' & I & Fi). cbn [mapM]. rewrite E'. cbn [bind]. rewrite E. cbn [bind].
  eexists. split; [reflexivity|]. constructor; auto.
Qed.
Lemma inside_short ss ss' : zlen (text ss) <= maxSize -> valid ss -> inside ss ss' -> short ss'.
Proof.
  intros L V (V' & _ & S1 & S2). split; [exact V'|]. rewrite (len_text _ V'). rewrite (len_text _ V) in L.
  destruct ss as [[s i] n], ss' as [[s' i'] n']. unfold start, stop, len_of in *. cbn [fst snd] in *. lia.
Qed.
Lemma texts_unique p l ls ts fss : Forall2 (fun ss l' => Forall (inside ss) l' /\ fields_of p (text ss) (List.map text l')) l ls ->
  List.map text l = ts -> Forall2 (fields_of p) ts fss -> List.map (List.map text) ls = fss.
Proof.
  intros F. revert ts fss. induction F as [|ss l' l ls (_ & H) _ IH]; intros ts fss <- G; inversion G; subst; [reflexivity|].
  cbn [List.map]. f_equal; [|apply (IH _ _ eq_refl); assumption]. eapply C33_fields_unique; eassumption.
Qed.
(** Any query: each part between "&"s that has exactly one "=" gives one value to one name; the
    values of a name are kept in the order of the query. *)
Theorem C54_fields : forall junk q ts fss, zlen q <= maxSize ->
  tokens_of (fun c => c =? 38) q ts -> Forall2 (fields_of (fun c => c =? 61)) ts fss ->
  exists d, cgi_dict junk q = Ret d /\
    forall name, cgi_field_strings d name = values_of name (pairs_of fss) /\ cgi_field_string d name = hd_error (values_of name (pairs_of fss)).
Proof.
  intros junk q ts fss L T F. unfold cgi_dict.
  assert (V : valid (full q)) by apply valid_full. assert (Tq : text (full q) = q) by apply text_full.
  destruct (C33_tokens (fun c => c =? 38) (full q) V) as (l & -> & In1 & T'). cbn [bind]. rewrite Tq in T'.
  assert (Et : List.map text l = ts) by (eapply C33_tokens_unique; eassumption).
  assert (Sl : Forall short l). { eapply Forall_impl; [|exact In1]. intros ss' H. eapply inside_short; [|exact V|exact H]. rewrite Tq. exact L. }
  destruct (mapM_fields (fun c => c =? 61) l) as (ls & -> & F2). { eapply Forall_impl; [|exact Sl]. intros ss' (H & _). exact H. }
  cbn [bind]. pose proof (texts_unique _ _ _ _ _ F2 Et F) as Ef.
  assert (Sls : Forall (Forall short) ls).
  { clear - Sl F2. induction F2 as [|ss l' l ls (H & _) _ IH]; constructor; inversion Sl as [|? ? (V & L) Sl']; subst; auto.
    eapply Forall_impl; [|exact H]. intros ss' Hi. eapply inside_short; eassumption. }
  destruct (addFields_ok junk ls Sls) as (d & -> & I). exists d. split; [reflexivity|]. intros name.
  unfold cgi_field_strings, cgi_field_string. rewrite I, Ef. destruct (values_of name (pairs_of fss)); split; reflexivity.
Qed.
(* "a=1&&b&a=%2" *)
Example C54_fields_ex : let q := [97; 61; 49; 38; 38; 98; 38; 97; 61; 37; 50] in
  tokens_of (fun c => c =? 38) q [[97; 61; 49]; [98]; [97; 61; 37; 50]] /\
  Forall2 (fields_of (fun c => c =? 61)) [[97; 61; 49]; [98]; [97; 61; 37; 50]] [[[97]; [49]]; [[98]]; [[97]; [37; 50]]] /\
  values_of [97] (pairs_of [[[97]; [49]]; [[98]]; [[97]; [37; 50]]]) = [[49]; []].
Proof.
  assert (S : forall (p : Z -> bool) fs, (forallb (fun f => forallb (fun c => negb (p c)) f) fs = true) -> forall f c, In f fs -> In c f -> p c = false).
  { intros p fs H f c Hf Hc. rewrite forallb_forall in H. specialize (H f Hf). rewrite forallb_forall in H. apply negb_true_iff. auto. }
  assert (D : forall (p : Z -> bool) seps, forallb p seps = true -> forall d, In d seps -> p d = true) by (intros p seps H; apply forallb_forall; exact H).
  cbn zeta. split; [|split; [|reflexivity]].
  - exists [[97; 61; 49]; []; [98]; [97; 61; 37; 50]]. split; [|reflexivity]. split; [apply S; reflexivity|].
    exists [38; 38; 38]. split; [apply D; reflexivity|split; reflexivity].
  - repeat constructor; try (apply S; reflexivity).
    + exists [61]. split; [apply D; reflexivity|split; reflexivity].
    + exists []. split; [apply D; reflexivity|split; reflexivity].
    + exists [61]. split; [apply D; reflexivity|split; reflexivity].
Qed.

Lemma safe_not c : url_safe c -> (c =? 38) = false /\ (c =? 61) = false.
Proof. unfold url_safe. cbn [In]. intros H. split; apply Z.eqb_neq; lia. Qed.
Definition safe_pair (e : list Z * list Z) : Prop := Forall url_safe (fst e) /\ Forall url_safe (snd e).
Lemma pair_fields e : safe_pair e -> fields_of (fun c => c =? 61) (pair_text e) [fst e; snd e].
Proof.
  intros (Sk & Sv). rewrite Forall_forall in Sk, Sv. split.
  - intros f c [<-|[<-|[]]] Hc; apply safe_not; auto.
  - exists [61]. split; [intros d [<-|[]]; reflexivity|]. split; reflexivity.
Qed.
Lemma query_fields e es : Forall safe_pair (e :: es) -> fields_of (fun c => c =? 38) (query_text (e :: es)) (List.map pair_text (e :: es)).
Proof.
  intros S. split.
  - intros f c Hf Hc. apply in_map_iff in Hf as (p & <- & Hp). rewrite Forall_forall in S. destruct (S p Hp) as (Sk & Sv). rewrite Forall_forall in Sk, Sv.
    unfold pair_text in Hc. apply in_app_or in Hc as [Hc|[<-|Hc]]; [apply safe_not; auto|reflexivity|apply safe_not; auto].
  - exists (repeat 38 (length es)). split; [intros d Hd; apply repeat_spec in Hd; now subst|]. split; [cbn [List.map length]; now rewrite map_length, repeat_length|].
    clear S. revert e. induction es as [|e' es IH]; intros e; [reflexivity|]. specialize (IH e').
    cbn [length repeat List.map interleave] in *. rewrite IH. reflexivity.
Qed.
Lemma query_tokens es : Forall safe_pair es -> tokens_of (fun c => c =? 38) (query_text es) (List.map pair_text es).
Proof.
  intros S. destruct es as [|e es].
  - exists [[]]. split; [|reflexivity]. split; [intros f c [<-|[]] []|]. exists []. split; [intros d []|split; reflexivity].
  - exists (List.map pair_text (e :: es)). split; [apply query_fields; exact S|]. generalize (e :: es). intros l.
    induction l as [|p l IH]; [reflexivity|]. cbn [List.map filter]. replace (nonempty (pair_text p)) with true; [now f_equal|]. unfold pair_text. destruct (fst p); reflexivity.
Qed.

(** Names and values encoded by urlencode and sent as k1=v1&...&kn=vn arrive unchanged and in order. *)
Theorem C54_query : forall junk junk' ps es,
  Forall (fun p => Forall (fun c => 0 <= c < 256) (fst p) /\ Forall (fun c => 0 <= c < 256) (snd p)) ps ->
  Forall2 (fun p e => urlencode junk (fst p) = Ret (fst e) /\ urlencode junk (snd p) = Ret (snd e)) ps es ->
  zlen (query_text es) <= maxSize ->
  exists d, cgi_dict junk' (query_text es) = Ret d /\
    forall name, cgi_field_strings d name = values_of name ps /\ cgi_field_string d name = hd_error (values_of name ps).
Proof.
  intros junk junk' ps es B F L.
  assert (S : Forall safe_pair es /\ pairs_of (List.map (fun e => [fst e; snd e]) es) = ps).
  { clear L. induction F as [|[k v] [ek ev] ps es (Hk & Hv) _ IH]; [split; [constructor|reflexivity]|].
    inversion B as [|? ? (Bk & Bv) B']; subst. destruct (IH B') as (S & P). cbn [fst snd] in *. split.
    - constructor; [|exact S]. split; cbn [fst snd]; [exact (C54_url_chars _ _ _ Bk Hk)|exact (C54_url_chars _ _ _ Bv Hv)].
    - cbn [List.map pairs_of flat_map app fst snd]. f_equal; [|exact P]. unfold form_value.
      apply urlencode_ret in Hk as (-> & _); [|exact Bk]. apply urlencode_ret in Hv as (-> & _); [|exact Bv].
      now rewrite !url_text_encs. }
  destruct S as (S & P). rewrite <- P. apply C54_fields with (ts := List.map pair_text es); [exact L|apply query_tokens; exact S|].
  clear - S. induction S as [|e es H _ IH]; constructor; [apply pair_fields; exact H|exact IH].
Qed.
(* names "a b" and "&", values "=" and "" *)
Example C54_query_ex : Forall2 (fun p e => urlencode (fun _ => 7) (fst p) = Ret (fst e) /\ urlencode (fun _ => 7) (snd p) = Ret (snd e))
  [([97; 32; 98], [61]); ([38], [])] [([97; 43; 98], [37; 51; 68]); ([37; 50; 54], [])] /\
  zlen (query_text [([97; 43; 98], [37; 51; 68]); ([37; 50; 54], [])]) <= maxSize.
Proof. split; [repeat constructor; vm_compute; reflexivity|cbv; discriminate]. Qed.

(** ** HTML encoding *)
Lemma html_len c : zlen (html_encode c) <= 5.
Proof. unfold html_encode. destruct (c =? 60); [cbv; discriminate|]. destruct (c =? 62); [cbv; discriminate|]. destruct (c =? 38); cbv; discriminate. Qed.
Lemma html_joined junk s : joined (List.map html_encode s) (htmlencode junk s).
Proof.
  unfold htmlencode, s_translate. rewrite <- (text_full s) at 1. apply C33_translate_partial; [apply valid_full|].
  intros c _. pose proof (html_len c). unfold lim. lia.
Qed.
Lemma html_all s : html_shows (List.concat (List.map html_encode s)) s.
Proof.
  induction s as [|c s IH]; [constructor|]. cbn [List.map List.concat]. unfold html_encode.
  destruct (Z.eqb_spec c 60) as [->|H1]; [now apply hs_lt|]. destruct (Z.eqb_spec c 62) as [->|H2]; [now apply hs_gt|].
  destruct (Z.eqb_spec c 38) as [->|H3]; [now apply hs_amp|]. now apply hs_char.
Qed.
Lemma shows_chars t s : html_shows t s -> ~ In 60 t /\ ~ In 62 t.
Proof. induction 1 as [|c t s H1 H2 H3 _ (I1 & I2)|t s _ (I1 & I2)|t s _ (I1 & I2)|t s _ (I1 & I2)]; split; cbn [app In]; intuition lia. Qed.

(** The text written contains no tag, and a browser shows it as the string encoded. *)
Theorem C54_html : forall junk s, 5 * zlen s <= maxSize ->
  exists e, htmlencode junk s = Ret e /\ html_shows e s /\ ~ In 60 e /\ ~ In 62 e.
Proof.
  intros junk s L. exists (List.concat (List.map html_encode s)). pose proof (html_all s) as A. split; [|split; [exact A|apply (shows_chars _ _ A)]].
  apply (html_joined junk s). unfold total. clear A.
  enough (zlen (List.concat (List.map html_encode s)) <= 5 * zlen s) by lia. clear L. induction s as [|c s IH]; [cbv; discriminate|].
  cbn [List.map List.concat]. rewrite zlen_app. pose proof (html_len c). change (c :: s) with ([c] ++ s). rewrite zlen_app. change (zlen [c]) with 1. lia.
Qed.
Example C54_html_ex : htmlencode (fun _ => 7) [97; 60; 38; 62] = Ret [97; 38; 108; 116; 59; 38; 97; 109; 112; 59; 38; 103; 116; 59].
Proof. vm_compute. reflexivity. Qed.
(** A text is shown as one string only: different strings are encoded differently. *)
Theorem C54_html_unique : forall t s s', html_shows t s -> html_shows t s' -> s = s'.
Proof.
  intros t s s' H. revert s'. induction H as [|c t s H1 H2 H3 _ IH|t s _ IH|t s _ IH|t s _ IH]; intros s' H'; inversion H'; subst; try congruence; try (now f_equal; apply IH).
Qed.
Example C54_html_unique_ex : html_shows [38; 108; 116; 59; 97] [60; 97].
Proof. apply (hs_lt [97]). apply hs_char; try lia. constructor. Qed.

Print Assumptions C54_url_chars.
Print Assumptions C54_urlencode.
Print Assumptions C54_decode.
Print Assumptions C54_url_roundtrip.
Print Assumptions C54_fields.
Print Assumptions C54_query.
Print Assumptions C54_html.
Print Assumptions C54_html_unique.
