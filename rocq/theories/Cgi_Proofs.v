(** Proofs for C54. *)
From Verif Require Import Base ArrayLib Copy_Model Buffer_Model Substring_Model Substring_Spec Substring_Proofs Substring_Proofs2 Substring_Props Cgi_Model Cgi_Spec.
From Verif Require Scan_Model.

Definition byte (c : Z) : Prop := 0 <= c < 256.
Lemma all_bytes (P : Z -> bool) : forallb P (List.map Z.of_nat (seq 0 256)) = true -> forall b, byte b -> P b = true.
Proof.
  intros H b Hb. rewrite forallb_forall in H. apply H. apply in_map_iff. exists (Z.to_nat b). unfold byte in Hb.
  split; [lia|]. apply in_seq. lia.
Qed.

(** ** Encoding one character *)
Definition digit (d : Z) : Z := if d <? 10 then 48 + d else 55 + d.
Definition plain (c : Z) : bool := (c =? 45) || (c =? 95) || (c =? 46) || isAlphaNum c.
Definition enc (c : Z) : list Z :=
  if c =? 32 then [43] else if plain c then [c] else [37; digit (c / 16); digit (c mod 16)].

Definition fmt_check (c : Z) : bool :=
  match Scan_Model.int_fmt Scan_Model.HEX c with
  | Ret h => (zlen h <=? 2) && (if list_eq_dec Z.eq_dec (repeat 48 (Z.to_nat (2 - zlen h)) ++ h) [digit (c / 16); digit (c mod 16)] then true else false)
  | _ => false
  end.
Lemma fmt_ok c : byte c -> fmt_check c = true.
Proof. apply all_bytes. vm_compute. reflexivity. Qed.

Lemma url_encode_ok junk c : byte c -> url_encode junk c = Ret (enc c).
Proof.
  intros B. unfold url_encode, enc, plain.
  destruct (Z.eqb_spec c 32); [reflexivity|]. destruct (Z.eqb_spec c 45); [subst; reflexivity|].
  destruct (Z.eqb_spec c 95); [subst; reflexivity|]. destruct (Z.eqb_spec c 46); [subst; reflexivity|].
  cbn [orb]. destruct (isAlphaNum c); [reflexivity|].
  pose proof (fmt_ok c B) as F. unfold fmt_check in F. destruct (Scan_Model.int_fmt Scan_Model.HEX c) as [h| | |]; try discriminate.
  apply andb_true_iff in F as (F1 & F2). apply Z.leb_le in F1.
  destruct (list_eq_dec Z.eq_dec _ _) as [E|]; [|discriminate]. cbn [bind].
  destruct (C33_pad_partial junk 48 2 h) as (-> & _); [unfold lim; lia|unfold maxSize; lia|]. rewrite E. reflexivity.
Qed.

(** [t] is the encoding of the single character [c] *)
Definition enc_check (c : Z) : bool :=
  match enc c with
  | [x] => negb (x =? 37) && ((if x =? 43 then 32 else x) =? c)
  | [p; a; b] => (p =? 37) && match hex_value a, hex_value b with Some x, Some y => 16 * x + y =? c | _, _ => false end
  | _ => false
  end.
Lemma enc_check_ok c : byte c -> enc_check c = true.
Proof. apply all_bytes. vm_compute. reflexivity. Qed.
Lemma url_text_enc c r : byte c -> url_text (enc c ++ r) = match url_text r with Some s => Some (c :: s) | None => None end.
Proof.
  intros B. pose proof (enc_check_ok c B) as E. unfold enc_check in E.
  destruct (enc c) as [|x [|a [|b [|? ?]]]]; try discriminate.
  - apply andb_true_iff in E as (E1 & E2). apply negb_true_iff in E1. apply Z.eqb_eq in E2. cbn [app url_text]. rewrite E1, E2. reflexivity.
  - apply andb_true_iff in E as (E1 & E2). cbn [app url_text]. rewrite E1.
    destruct (hex_value a); [|discriminate]. destruct (hex_value b); [|discriminate]. apply Z.eqb_eq in E2. rewrite E2. reflexivity.
Qed.
Lemma url_text_encs s : Forall byte s -> url_text (List.concat (List.map enc s)) = Some s.
Proof.
  induction 1 as [|c s B _ IH]; [reflexivity|]. cbn [List.map List.concat]. rewrite url_text_enc by assumption. now rewrite IH.
Qed.

Definition safe_check (c : Z) : bool :=
  forallb (fun x => ((48 <=? x) && (x <=? 57)) || ((65 <=? x) && (x <=? 90)) || ((97 <=? x) && (x <=? 122)) || existsb (Z.eqb x) [43; 45; 46; 95; 37]) (enc c).
Lemma enc_safe c : byte c -> Forall url_safe (enc c).
Proof.
  intros B. assert (E : safe_check c = true) by (revert c B; apply all_bytes; vm_compute; reflexivity).
  unfold safe_check in E. rewrite forallb_forall in E. apply Forall_forall. intros x Hx. specialize (E x Hx). unfold url_safe.
  rewrite !orb_true_iff, !andb_true_iff, !Z.leb_le in E. destruct E as [[[E|E]|E]|E]; auto.
  right. right. right. apply existsb_exists in E as (y & Hy & E). apply Z.eqb_eq in E. now subst.
Qed.
Lemma enc_len c : 1 <= zlen (enc c) <= 3.
Proof. unfold enc. destruct (c =? 32); [cbv; split; discriminate|]. destruct (plain c); cbv; split; discriminate. Qed.
Lemma encs_len s : zlen s <= zlen (List.concat (List.map enc s)) <= 3 * zlen s.
Proof.
  induction s as [|c s IH]; [cbv; split; discriminate|]. cbn [List.map List.concat]. rewrite zlen_app. pose proof (enc_len c).
  change (c :: s) with ([c] ++ s). rewrite zlen_app. change (zlen [c]) with 1. lia.
Qed.

Lemma urlencode_joined junk s : Forall byte s -> joined (List.map enc s) (urlencode junk s).
Proof.
  intros B. unfold urlencode, s_translate.
  assert (E : List.map (pure_of (url_encode junk)) s = List.map enc s).
  { apply map_ext_in. intros c Hc. unfold pure_of. rewrite url_encode_ok; [reflexivity|]. rewrite Forall_forall in B. auto. }
  rewrite <- E. rewrite <- (text_full s) at 1. apply C33_translate_partial; [apply valid_full|].
  intros c Hc. rewrite text_full in Hc. unfold pure_of. rewrite Forall_forall in B. rewrite url_encode_ok by auto. pose proof (enc_len c). unfold lim. lia.
Qed.
Lemma urlencode_ret junk s e : Forall byte s -> urlencode junk s = Ret e -> e = List.concat (List.map enc s) /\ zlen e <= maxSize.
Proof.
  intros B H. destruct (urlencode_joined junk s B) as (J1 & J2 & J3). rewrite H in *.
  destruct (Z.leb_spec (total (List.map enc s)) maxSize) as [L|L].
  - specialize (J1 L). injection J1 as ->. split; [reflexivity|exact L].
  - destruct (Z.ltb_spec (total (List.map enc s)) two62) as [M|M]; [specialize (J2 ltac:(lia)); discriminate|specialize (J3 M); discriminate].
Qed.

(** ** Decoding *)
Lemma dehex_ok c : dehex c = match hex_value c with Some x => Ret x | None => Raise FailExn end.
Proof.
  unfold dehex, hex_value. destruct ((48 <=? c) && (c <=? 57)); [reflexivity|].
  destruct ((65 <=? c) && (c <=? 70)); [f_equal; lia|]. destruct ((97 <=? c) && (c <=? 102)); [f_equal; lia|reflexivity].
Qed.
Lemma hex_range c x : hex_value c = Some x -> 0 <= x <= 15.
Proof.
  unfold hex_value. destruct (Z.leb_spec 48 c), (Z.leb_spec c 57), (Z.leb_spec 65 c), (Z.leb_spec c 70), (Z.leb_spec 97 c), (Z.leb_spec c 102);
    cbn [andb]; intros H'; try discriminate; injection H' as <-; lia.
Qed.
Lemma sub_at ss pre r k : valid ss -> text ss = pre ++ r -> 0 <= k ->
  sub ss (zlen pre + k) = match zget r k with Some c => Ret c | None => Raise Subscript end.
Proof.
  intros V E K. rewrite C33_sub by assumption. rewrite E, zget_app. pose proof (zlen_nonneg pre).
  destruct (Z.ltb_spec (zlen pre + k) (zlen pre)); [lia|]. now replace (zlen pre + k - zlen pre) with k by lia.
Qed.
Lemma decode_one_ok ss pre p r : valid ss -> text ss = pre ++ p :: r ->
  match r with
  | a :: b :: _ => match hex_value a, hex_value b with
                   | Some x, Some y => decode_one ss (zlen pre) = Ret (16 * x + y)
                   | _, _ => exists e, decode_one ss (zlen pre) = Raise e
                   end
  | _ => exists e, decode_one ss (zlen pre) = Raise e
  end.
Proof.
  intros V E. unfold decode_one. rewrite !(sub_at ss pre (p :: r)) by (assumption || lia).
  destruct r as [|a [|b r]].
  - exists Subscript. reflexivity.
  - change (zget [p; a] 1) with (Some a). cbn [bind]. rewrite dehex_ok. destruct (hex_value a); cbn [bind]; eauto.
    exists Subscript. reflexivity.
  - change (zget (p :: a :: b :: r) 1) with (Some a). change (zget (p :: a :: b :: r) 2) with (Some b). cbn [bind]. rewrite !dehex_ok.
    destruct (hex_value a) as [x|] eqn:Ea; cbn [bind]; [|eauto]. destruct (hex_value b) as [y|] eqn:Eb; cbn [bind]; [|eauto].
    apply hex_range in Ea, Eb. unfold Scan_Model.chr. destruct (Z.ltb_spec (16 * x + y) 0); [lia|]. rewrite Z.gtb_ltb. destruct (Z.ltb_spec 255 (16 * x + y)); [lia|reflexivity].
Qed.
Lemma dec_ok ss fuel : valid ss -> forall t pre, text ss = pre ++ t -> (length t < fuel)%nat ->
  match url_text t with Some s => dec fuel ss (zlen pre) = Ret s | None => exists e, dec fuel ss (zlen pre) = Raise e end.
Proof.
  intros V. assert (L : size ss = zlen (text ss)) by (symmetry; apply (len_text _ V)).
  induction fuel as [|fuel IH]; intros t pre E F; [lia|].
  destruct t as [|c r].
  - cbn [url_text dec]. rewrite L, E, app_nil_r, Z.geb_leb, Z.leb_refl. reflexivity.
  - cbn [dec]. assert (G : (zlen pre >=? size ss) = false).
    { rewrite L, E, zlen_app, Z.geb_leb. apply Z.leb_gt. change (c :: r) with ([c] ++ r). rewrite zlen_app. change (zlen [c]) with 1. pose proof (zlen_nonneg r). lia. }
    rewrite G. pose proof (sub_at ss pre (c :: r) 0 V E ltac:(lia)) as S0. rewrite Z.add_0_r in S0. rewrite S0. change (zget (c :: r) 0) with (Some c). cbn [bind].
    assert (N : forall s' : list Z, (length s' <= length r)%nat -> (length s' < fuel)%nat) by (cbn [length] in F; lia).
    assert (E1 : text ss = (pre ++ [c]) ++ r) by (rewrite <- app_assoc; exact E).
    pose proof (IH r (pre ++ [c]) E1 (N r (le_n _))) as I1. rewrite zlen_app in I1. change (zlen [c]) with 1 in I1.
    cbn [url_text]. destruct (Z.eqb_spec c 43) as [->|C43].
    + change (43 =? 37) with false. cbn iota. destruct (url_text r); [rewrite I1; reflexivity|]. destruct I1 as (e & ->). exists e. reflexivity.
    + destruct (Z.eqb_spec c 37) as [->|C37].
      * pose proof (decode_one_ok ss pre 37 r V E) as D. destruct r as [|a [|b r]].
        -- destruct D as (e & ->). exists e. reflexivity.
        -- destruct D as (e & ->). exists e. reflexivity.
        -- destruct (hex_value a) as [x|]; [|destruct D as (e & ->); exists e; reflexivity].
           destruct (hex_value b) as [y|]; [|destruct D as (e & ->); exists e; reflexivity].
           rewrite D. cbn [bind]. assert (E3 : text ss = (pre ++ [37; a; b]) ++ r) by (rewrite <- app_assoc; exact E).
           pose proof (IH r (pre ++ [37; a; b]) E3 (N r ltac:(cbn [length]; lia))) as I3. rewrite zlen_app in I3. change (zlen [37; a; b]) with 3 in I3.
           destruct (url_text r); [rewrite I3; reflexivity|]. destruct I3 as (e & ->). exists e. reflexivity.
      * destruct (url_text r); [rewrite I1; reflexivity|]. destruct I1 as (e & ->). exists e. reflexivity.
Qed.
Lemma url_text_len t : forall s, url_text t = Some s -> zlen s <= zlen t.
Proof.
  remember (length t) as n eqn:En. assert (Hn : (length t <= n)%nat) by lia. clear En. revert t Hn.
  assert (C : forall (x : Z) l, zlen (x :: l) = 1 + zlen l) by (intros x l; unfold zlen; cbn [length]; lia).
  induction n as [|n IH]; intros [|c r] Hn s H; cbn [length] in Hn; try lia; cbn [url_text] in H.
  - injection H as <-. lia.
  - injection H as <-. lia.
  - destruct (c =? 37).
    + destruct r as [|a [|b r]]; try discriminate. destruct (hex_value a); [|discriminate]. destruct (hex_value b); [|discriminate].
      destruct (url_text r) eqn:E; [|discriminate]. injection H as <-. apply IH in E; [|cbn [length] in Hn; lia]. rewrite !C. lia.
    + destruct (url_text r) eqn:E; [|discriminate]. injection H as <-. apply IH in E; [|lia]. rewrite !C. lia.
Qed.
Lemma decode_ok junk ss : valid ss -> zlen (text ss) <= maxSize ->
  decode junk ss = Ret (match url_text (text ss) with Some s => s | None => [] end).
Proof.
  intros V M. unfold decode. pose proof (dec_ok ss (loop (size ss)) V (text ss) [] eq_refl) as D. change (zlen (@nil Z)) with 0 in D.
  assert (F : (length (text ss) < loop (size ss))%nat). { unfold loop, size. rewrite <- (len_text _ V). unfold zlen. lia. }
  specialize (D F). destruct (url_text (text ss)) as [s|] eqn:E.
  - rewrite D. cbn [bind]. rewrite C33_implode. apply url_text_len in E. destruct (Z.leb_spec (zlen s) maxSize); [reflexivity|lia].
  - destruct D as (e & ->). reflexivity.
Qed.
