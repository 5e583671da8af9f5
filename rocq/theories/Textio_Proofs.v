(** Proofs for C49. *)
From Verif Require Import Base ArrayLib Mem Io_Model Io_Spec Io_Out Io_In Buffer_Model Textio_Model Textio_Spec.

Lemma nil_zlen {A} (l : list A) : l = [] -> zlen l = 0.
Proof. intros ->. reflexivity. Qed.
Lemma skipn_zget {A} (l : list A) p x : 0 <= p -> zget l p = Some x ->
  skipn (Z.to_nat p) l = x :: skipn (Z.to_nat (p + 1)) l.
Proof.
  intros Hp H. apply list_ext. intros k. rewrite zget_skipn by lia.
  destruct (Z.eq_dec k 0) as [->|K].
  - cbn [Z.ltb]. rewrite Z.add_0_r. cbn. exact H.
  - destruct (Z.ltb_spec k 0); [now rewrite zget_none by lia|].
    change (x :: skipn (Z.to_nat (p + 1)) l) with ([x] ++ skipn (Z.to_nat (p + 1)) l).
    rewrite zget_app. change (zlen [x]) with 1. destruct (Z.ltb_spec k 1); [lia|].
    rewrite zget_skipn by lia. destruct (Z.ltb_spec (k - 1) 0); [lia|]. f_equal. lia.
Qed.
Lemma zlen_skipn' {A} p (l : list A) : 0 <= p <= zlen l -> zlen (skipn (Z.to_nat p) l) = zlen l - p.
Proof. unfold zlen. rewrite skipn_length. lia. Qed.

Lemma iinv_p f c p : iinv f c p -> 0 <= p.
Proof. intros []. lia. Qed.

Section I.
Variable f : list Z.
Variable amount : Z -> Z -> Z.
Variable ready : Z -> bool.
Variable junk : Z -> list Z.
Hypothesis AM : forall t n, 0 < n -> 1 <= amount t n <= n.
Hypothesis JK : forall n, 0 <= n -> zlen (junk n) = n.

(** the characters to come *)
Definition St (c : ichan) (l : list Z) : Prop :=
  exists pos, iinv f c pos /\ pos <= zlen f /\ l = skipn (Z.to_nat pos) f.

Lemma St_len c l : St c l -> zlen l <= zlen f.
Proof using. clear AM JK amount ready junk. intros (p & V & P & ->). pose proof (iinv_p f c p V). rewrite zlen_skipn' by lia. lia. Qed.

Lemma at_skipn p l : 0 <= p -> at_ f p l -> p + zlen l <= zlen f ->
  skipn (Z.to_nat p) f = l ++ skipn (Z.to_nat (p + zlen l)) f.
Proof using. clear AM JK amount ready junk.
  intros Hp H B. pose proof (zlen_nonneg l). apply list_ext. intros k. rewrite zget_skipn, zget_app by lia.
  destruct (Z.ltb_spec k 0).
  - destruct (Z.ltb_spec k (zlen l)); [|lia]. now rewrite zget_none by lia.
  - destruct (Z.ltb_spec k (zlen l)).
    + symmetry. apply H. lia.
    + rewrite zget_skipn by lia. destruct (Z.ltb_spec (k - zlen l) 0); [lia|]. f_equal. lia.
Qed.

Lemma getch_st c l : St c l -> exists c', getch f amount ready c = Ret (hd_error l, c') /\ St c' (tl l).
Proof.
  intros (p & V & P & ->). pose proof (iinv_p f c p V) as P0.
  destruct (getch_ok f amount ready AM c p V) as (r & c' & E & H). rewrite E. exists c'. destruct r as [ch|].
  - destruct H as [G V']. pose proof (zget_range _ _ _ G). rewrite (skipn_zget f p ch P0 G). cbn [hd_error tl]. split; [reflexivity|].
    exists (p + 1). split; [exact V'|]. split; [lia|reflexivity].
  - destruct H as [G V']. assert (p = zlen f) by lia. subst p.
    assert (skipn (Z.to_nat (zlen f)) f = []) as -> by (apply skipn_all2; unfold zlen; lia). cbn [hd_error tl].
    split; [reflexivity|]. exists (zlen f). split; [exact V'|]. split; [lia|].
    symmetry. apply skipn_all2. unfold zlen. lia.
Qed.

Lemma getblock_st n nb c l : St c l -> 0 <= n ->
  exists r c', getblock f amount ready n nb c = Ret (r, c') /\
    match r with
    | Some s => exists l', l = s ++ l' /\ St c' l' /\ zlen s <= n /\ (zlen s = 0 -> n = 0 \/ l = [])
    | None => nb = true /\ St c' l
    end.
Proof.
  intros (p & V & P & ->) Hn. pose proof (iinv_p f c p V) as P0.
  destruct (getblock_ok f amount ready AM n nb c p V Hn) as (r & c' & E & H). rewrite E. exists r, c'. split; [reflexivity|].
  destruct r as [s|].
  - destruct H as (A & L & Z0 & V'). pose proof (zlen_nonneg s).
    assert (B : p + zlen s <= zlen f) by (destruct (Z.eq_dec (zlen s) 0); [lia|apply at_bound; [exact A|lia]]).
    exists (skipn (Z.to_nat (p + zlen s)) f). split; [now apply at_skipn|]. split; [exists (p + zlen s); auto|].
    split; [exact L|]. intros Hs. destruct (Z0 Hs); [now left|]. right. apply skipn_all2. unfold zlen in *. lia.
  - destruct H as (A & B & V'). split; [exact A|]. now exists p.
Qed.

Lemma look_st c l c' r : St c l -> getch f amount ready c = Ret (Some r, c') ->
  exists c2, seek_in (pos_in c) c' = Ret c2 /\ St c2 l.
Proof.
  intros (p & V & P & ->) E. pose proof (iinv_p f c p V) as P0.
  destruct (getch_ok f amount ready AM c p V) as (r' & c1 & E1 & H). rewrite E in E1. injection E1 as <- <-.
  destruct H as [G V']. assert (pos_in c = p) as ->.
  { destruct V. unfold pos_in. lia. }
  destruct (seek_in_ok f amount ready AM c' _ p V' P0) as (c2 & E2 & V2). exists c2. split; [exact E2|]. now exists p.
Qed.

(** *** the string functions *)
Lemma to_int_small n : 0 <= n < 2 ^ 31 -> to_int n = n.
Proof using. clear AM JK amount ready junk. intros H. unfold to_int. lia. Qed.
Lemma blit_ok s d n : 0 <= n < 2 ^ 31 -> n <= zlen s -> n <= zlen d ->
  exists d', blit_string_ s 0 d 0 n = Ret d' /\ zlen d' = zlen d /\ forall k, zget d' k = if (0 <=? k) && (k <? n) then zget s k else zget d k.
Proof using. clear AM JK amount ready junk.
  intros Hn Hs Hd. unfold blit_string_. rewrite to_int_small by lia. destruct (Z.ltb_spec n 0); [lia|].
  rewrite getn_ok by lia. cbn [bind]. change (Z.to_nat 0) with O. rewrite skipn_O.
  assert (L : zlen (firstn (Z.to_nat n) s) = n) by (apply zlen_firstn; lia).
  destruct (putn_spec d 0 (firstn (Z.to_nat n) s)) as (d' & E & L' & G); [lia|lia|]. exists d'.
  split; [exact E|]. split; [exact L'|]. intros k. rewrite G, L, Z.add_0_l, Z.sub_0_r. rewrite zget_firstn.
  destruct (Z.leb_spec 0 k), (Z.ltb_spec k n); reflexivity.
Qed.
(** the first characters of [tmp] are [s] *)
Definition pre (tmp s : list Z) : Prop := zlen s <= zlen tmp /\ forall k, 0 <= k < zlen s -> zget tmp k = zget s k.
Lemma sub_ok tmp s : pre tmp s -> zlen s < 2 ^ 31 -> sub_string_ junk tmp 0 (zlen s) = Ret s.
Proof using JK. clear AM amount ready f.
  intros [P G] H. pose proof (zlen_nonneg s). unfold sub_string_.
  destruct (blit_ok tmp (junk (zlen s)) (zlen s)) as (d & E & L & K); [lia|lia|rewrite JK; lia|].
  rewrite JK in L by lia. rewrite E. f_equal. apply list_ext. intros k.
  destruct (Z_lt_dec k 0); [rewrite !zget_none by lia; reflexivity|].
  destruct (Z_lt_dec k (zlen s)); [|rewrite !zget_none by lia; reflexivity]. rewrite K.
  destruct (Z.leb_spec 0 k), (Z.ltb_spec k (zlen s)); try lia. apply G. lia.
Qed.
Lemma put_pre tmp s t : pre tmp s -> zlen s + zlen t <= zlen tmp ->
  exists tmp', putn tmp (zlen s) t = Ret tmp' /\ zlen tmp' = zlen tmp /\ pre tmp' (s ++ t).
Proof using. clear AM JK amount ready junk.
  intros [P G] H. pose proof (zlen_nonneg s). pose proof (zlen_nonneg t).
  destruct (putn_spec tmp (zlen s) t) as (d & E & L & K); [lia|lia|]. exists d. split; [exact E|]. split; [exact L|].
  split; [rewrite zlen_app; lia|]. intros k Hk. rewrite zlen_app in Hk. rewrite K, zget_app.
  destruct (Z.ltb_spec k (zlen s)), (Z.leb_spec (zlen s) k); try lia; cbn [andb].
  - apply G. lia.
  - destruct (Z.ltb_spec k (zlen s + zlen t)); [reflexivity|lia].
Qed.
Lemma pre_nil tmp : pre tmp [].
Proof using. clear AM JK amount ready junk. split; [pose proof (zlen_nonneg tmp); cbn; lia|]. intros k. cbn. lia. Qed.

(** *** input *)
Lemma fast_input_ok c l s buff n : St c l -> pre buff s -> 0 <= n < 2 ^ 32 -> zlen s + n <= zlen buff ->
  exists t l' buff' c', fast_input f amount ready c buff (zlen s) n = Ret (zlen t, buff', c') /\
    l = t ++ l' /\ St c' l' /\ pre buff' (s ++ t) /\ zlen buff' = zlen buff /\ zlen t <= n /\ (zlen t = 0 -> n = 0 \/ l = []).
Proof.
  intros V P Hn Hb. unfold fast_input, Io_Model.input.
  assert (to_unsigned n = n) as -> by (unfold to_unsigned; lia).
  destruct (getblock_st n false c l V ltac:(lia)) as (r & c' & E & H). rewrite E. cbn [bind].
  destruct r as [t|]; [|destruct H as [H _]; discriminate H]. destruct H as (l' & A & B & L & Z0).
  destruct (put_pre buff s t P ltac:(lia)) as (buff' & E2 & L2 & P2). rewrite E2. cbn [bind].
  exists t, l', buff', c'. auto 10.
Qed.
Lemma fast_input_nb_ok c l buff n : St c l -> 0 <= n < 2 ^ 32 -> n <= zlen buff ->
  exists r buff' c', fast_input_nonblocking f amount ready c buff 0 n = Ret (r, buff', c') /\
    match r with
    | Some m => exists t l', m = zlen t /\ l = t ++ l' /\ St c' l' /\ pre buff' t /\ zlen t <= n /\ (zlen t = 0 -> n = 0 \/ l = [])
    | None => St c' l
    end.
Proof.
  intros V Hn Hb. unfold fast_input_nonblocking, Io_Model.input.
  assert (to_unsigned n = n) as -> by (unfold to_unsigned; lia).
  destruct (getblock_st n true c l V ltac:(lia)) as (r & c' & E & H). rewrite E. cbn [bind].
  destruct r as [t|].
  - destruct H as (l' & A & B & L & Z0).
    destruct (put_pre buff [] t (pre_nil buff) ltac:(cbn; lia)) as (buff' & E2 & L2 & P2).
    change (zlen (@nil Z)) with 0 in E2. rewrite E2. cbn [bind].
    eexists (Some (zlen t)), buff', c'. split; [reflexivity|]. exists t, l'. auto 10.
  - eexists None, buff, c'. split; [reflexivity|]. tauto.
Qed.

Lemma app_nil_len {A} (s t : list A) : zlen t = 0 -> s ++ t = s.
Proof using. clear AM JK amount ready junk. intros H. apply zlen_0 in H. subst. apply app_nil_r. Qed.

Lemma inputN_loop_ok : forall fuel n c l s buff, St c l -> pre buff s -> zlen buff = n -> zlen s <= n < 2 ^ 32 ->
  zlen s + zlen l < 2 ^ 31 -> n - zlen s < Z.of_nat fuel ->
  exists t l' c', inputN_loop f amount ready junk fuel n buff (zlen s) c = Ret (s ++ t, c') /\ l = t ++ l' /\ St c' l' /\
    zlen t = Z.min (n - zlen s) (zlen l).
Proof.
  induction fuel as [|fuel IH]; intros n c l s buff V P Hb Hn Hl Hf; [lia|]. cbn [inputN_loop].
  pose proof (zlen_nonneg l) as Nl. pose proof (zlen_nonneg s) as Ns.
  destruct (Z.eqb_spec (zlen s) n) as [E|E].
  - exists [], l, c. rewrite app_nil_r. split; [|split; [reflexivity|split; [exact V|cbn; lia]]].
    repeat f_equal. apply list_ext. intros k. destruct P as [P G].
    destruct (Z_lt_dec k 0); [rewrite !zget_none by lia; reflexivity|].
    destruct (Z_lt_dec k (zlen s)); [apply G; lia|]. rewrite !zget_none by lia. reflexivity.
  - destruct (fast_input_ok c l s buff (n - zlen s) V P ltac:(lia) ltac:(lia)) as (t & l' & b' & c' & E1 & A & B & P' & Lb & Lt & Z0).
    rewrite E1. cbn [bind]. pose proof (zlen_nonneg t) as Nt. destruct (Z.eqb_spec (zlen t) 0) as [T|T].
    + destruct (Z0 T); [lia|]. rewrite (app_nil_len s t T) in P'.
      rewrite (sub_ok b' s P' ltac:(lia)). cbn [bind]. exists [], l, c'. rewrite app_nil_r. split; [reflexivity|].
      split; [reflexivity|]. apply zlen_0 in T. subst t. cbn [app] in A. subst l'. split; [exact B|]. subst l. cbn. lia.
    + assert (Ll : zlen l = zlen t + zlen l') by (rewrite A, zlen_app; lia).
      destruct (IH n c' l' (s ++ t) b' B P' ltac:(lia)) as (t2 & l2 & c2 & E2 & A2 & B2 & L2); rewrite ?zlen_app; try lia.
      rewrite zlen_app in E2, L2. rewrite E2. exists (t ++ t2), l2, c2. rewrite app_assoc. split; [reflexivity|].
      split; [rewrite <- app_assoc; congruence|]. split; [exact B2|]. rewrite zlen_app. lia.
Qed.

(** realloc is called while max is below 2^31 *)
Lemma realloc_ok max tmp s : pre tmp s -> zlen tmp = max -> 0 < max < 2 ^ 31 ->
  exists tmp', realloc junk max tmp = Ret (2 * max, tmp') /\ zlen tmp' = 2 * max /\ pre tmp' s.
Proof using JK. clear AM amount ready f.
  intros [P G] L M. unfold realloc, maxSize. destruct (Z.eqb_spec max 144115188075855863); [lia|].
  rewrite Z.geb_leb. destruct (Z.leb_spec 144115188075855863 (2 * max)); [lia|]. cbn [bind].
  destruct (blit_ok tmp (junk (2 * max)) max) as (d & E & Ld & K); [lia|lia|rewrite JK; lia|].
  rewrite E. cbn [bind]. exists d. rewrite JK in Ld by lia. split; [reflexivity|]. split; [exact Ld|].
  split; [lia|]. intros k Hk. rewrite K. destruct (Z.leb_spec 0 k), (Z.ltb_spec k max); try lia. apply G. lia.
Qed.
Definition pow127 (max : Z) : Prop := exists k, 0 <= k <= 25 /\ max = 127 * 2 ^ k.
Lemma pow127_small max : pow127 max -> max < 127 * 2 ^ 25 -> 127 <= max < 2 ^ 31 /\ pow127 (2 * max).
Proof using. clear AM JK amount ready junk.
  intros (k & K & ->) H. assert (k < 25). { destruct (Z.eq_dec k 25); [subst; lia|lia]. }
  pose proof (Z.pow_pos_nonneg 2 k ltac:(lia) ltac:(lia)).
  assert (2 ^ k <= 2 ^ 24) by (apply Z.pow_le_mono_r; lia). change (2 ^ 24) with 16777216 in *.
  split; [lia|]. exists (k + 1). split; [lia|]. rewrite Z.pow_add_r by lia. lia.
Qed.

(** inputAll up to the final copy *)
Lemma inputAll_h_ok : forall fuel max c l s tmp, St c l -> pre tmp s -> zlen tmp = max -> pow127 max ->
  zlen s + 127 <= max -> zlen s + zlen l + 127 < 127 * 2 ^ 25 -> zlen l < Z.of_nat fuel ->
  exists tmp' c', inputAll_h f amount ready junk fuel max tmp (zlen s) c =
      (do r <- sub_string_ junk tmp' 0 (zlen (s ++ l)); Ret (r, c')) /\
    pre tmp' (s ++ l) /\ St c' [].
Proof.
  induction fuel as [|fuel IH]; intros max c l s tmp V P Lt PW H1 H2 Hf; [pose proof (zlen_nonneg l); lia|]. cbn [inputAll_h].
  pose proof (zlen_nonneg l) as Nl. pose proof (zlen_nonneg s) as Ns.
  assert (C : 127 <= chunksize (max - zlen s) <= max - zlen s /\ chunksize (max - zlen s) <= 4096).
  { unfold chunksize. rewrite Z.gtb_ltb. destruct (Z.ltb_spec 4096 (max - zlen s)); lia. }
  destruct (fast_input_ok c l s tmp (chunksize (max - zlen s)) V P ltac:(lia) ltac:(lia)) as (t & l' & b' & c' & E1 & A & B & P' & Lb & Lt' & Z0).
  rewrite E1. cbn [bind]. pose proof (zlen_nonneg t) as Nt. destruct (Z.eqb_spec (zlen t) 0) as [T|T].
  - destruct (Z0 T); [lia|]. rewrite (app_nil_len s t T) in P'. subst l. apply zlen_0 in T. subst t. cbn [app] in *. subst l'.
    rewrite app_nil_r. exists b', c'. auto.
  - assert (Ll : zlen l = zlen t + zlen l') by (rewrite A, zlen_app; lia).
    assert (exists max1 tmp1, (if max - (zlen s + zlen t) <? 127 then realloc junk max b' else Ret (max, b')) = Ret (max1, tmp1) /\
              zlen tmp1 = max1 /\ pow127 max1 /\ pre tmp1 (s ++ t) /\ zlen s + zlen t + 127 <= max1) as (max1 & tmp1 & E2 & L1 & PW1 & P1 & B1).
    { destruct (Z.ltb_spec (max - (zlen s + zlen t)) 127).
      - pose proof (zlen_nonneg l') as Nl'. destruct (pow127_small max PW ltac:(lia)) as [M1 M2].
        destruct (realloc_ok max b' (s ++ t) P' ltac:(lia) ltac:(lia)) as (tmp1 & E2 & L2 & P2).
        exists (2 * max), tmp1. split; [exact E2|]. split; [exact L2|]. split; [exact M2|]. split; [exact P2|].
        destruct P' as [P' _]. rewrite zlen_app in P'. lia.
      - exists max, b'. split; [reflexivity|]. split; [lia|]. split; [exact PW|]. split; [exact P'|]. lia. }
    rewrite E2. cbn [bind]. destruct (IH max1 c' l' (s ++ t) tmp1 B P1 L1 PW1 ltac:(rewrite ?zlen_app; lia) ltac:(rewrite ?zlen_app; lia) ltac:(rewrite ?zlen_app; lia)) as (tmp2 & c2 & E3 & P3 & V3).
    rewrite (zlen_app s t) in E3. rewrite E3. exists tmp2, c2. rewrite A, app_assoc. auto.
Qed.

(** inputLine up to the final copy *)
Lemma inputLine_h_ok : forall fuel max c l s tmp, St c l -> pre tmp s -> zlen tmp = max -> pow127 max ->
  zlen s <= max -> zlen s + zlen l < 127 * 2 ^ 25 -> zlen l < Z.of_nat fuel ->
  exists tmp' c' t l', inputLine_h f amount ready junk fuel max tmp (zlen s) c =
      (do r <- sub_string_ junk tmp' 0 (zlen (s ++ t ++ [10])); Ret (r, c')) /\
    pre tmp' (s ++ t ++ [10]) /\ St c' l' /\ ~ In 10 t /\ (l = t ++ 10 :: l' \/ l = t /\ l' = []).
Proof.
  induction fuel as [|fuel IH]; intros max c l s tmp V P Lt PW H1 H2 Hf; [pose proof (zlen_nonneg l); lia|]. cbn [inputLine_h].
  pose proof (zlen_nonneg l) as Nl. pose proof (zlen_nonneg s) as Ns.
  assert (exists max1 tmp1, (if zlen s >=? max then realloc junk max tmp else Ret (max, tmp)) = Ret (max1, tmp1) /\
            zlen tmp1 = max1 /\ pow127 max1 /\ pre tmp1 s /\ zlen s + 1 <= max1) as (max1 & tmp1 & E2 & L1 & PW1 & P1 & B1).
  { rewrite Z.geb_leb. destruct (Z.leb_spec max (zlen s)).
    - destruct (pow127_small max PW ltac:(lia)) as [M1 M2].
      destruct (realloc_ok max tmp s P ltac:(lia) ltac:(lia)) as (tmp1 & E2 & L2 & P2).
      exists (2 * max), tmp1. split; [exact E2|]. split; [exact L2|]. split; [exact M2|]. split; [exact P2|]. lia.
    - exists max, tmp. split; [reflexivity|]. split; [lia|]. split; [exact PW|]. split; [exact P|]. lia. }
  rewrite E2. cbn [bind]. unfold try_input_char_. destruct (getch_st c l V) as (c' & E3 & V3). rewrite E3. cbn [bind].
  unfold set_nth_char_. destruct l as [|ch l]; cbn [hd_error tl] in *.
  - destruct (put_pre tmp1 s [10] P1 ltac:(cbn; lia)) as (tmp2 & E4 & L4 & P4). rewrite E4. cbn [bind].
    exists tmp2, c', [], []. cbn [app]. rewrite zlen_app. split; [reflexivity|]. split; [exact P4|]. split; [exact V3|]. auto.
  - destruct (put_pre tmp1 s [ch] P1 ltac:(cbn; lia)) as (tmp2 & E4 & L4 & P4). rewrite E4. cbn [bind].
    destruct (Z.eqb_spec ch 10) as [->|N].
    + exists tmp2, c', [], l. cbn [app]. rewrite zlen_app. split; [reflexivity|]. split; [exact P4|]. split; [exact V3|]. auto.
    + change (zlen (ch :: l)) with (zlen ([ch] ++ l)) in *. rewrite zlen_app in *. change (zlen [ch]) with 1 in *.
      destruct (IH max1 c' l (s ++ [ch]) tmp2 V3 P4 ltac:(lia) PW1 ltac:(rewrite ?zlen_app; change (zlen [ch]) with 1; lia) ltac:(rewrite ?zlen_app; change (zlen [ch]) with 1; lia) ltac:(rewrite ?zlen_app; change (zlen [ch]) with 1; lia)) as (tmp3 & c3 & t & l' & E5 & P5 & V5 & N5 & D5).
      rewrite (zlen_app s [ch]) in E5. change (zlen [ch]) with 1 in E5. rewrite E5. exists tmp3, c3, (ch :: t), l'.
      rewrite <- app_assoc in P5. rewrite <- app_assoc. cbn [app] in *. split; [reflexivity|]. split; [exact P5|].
      split; [exact V5|]. split; [intros [X|X]; [congruence|contradiction]|].
      destruct D5 as [->|[-> ->]]; [now left|right; auto].
Qed.

(** *** all operations *)
Lemma lookahead_ok c l : St c l ->
  exists c', lookahead f amount ready (mkIn false c) = Ret (hd_error l, mkIn false c') /\ St c' l.
Proof.
  intros V. unfold lookahead, try_input_char_. cbn [closed ic]. destruct (getch_st c l V) as (c1 & E & V1). rewrite E. cbn [bind].
  destruct l as [|ch l]; cbn [hd_error tl] in *.
  - exists c1. auto.
  - destruct (look_st c _ c1 ch V E) as (c2 & E2 & V2). rewrite E2. cbn [bind]. eauto.
Qed.
Lemma pow127_127 : pow127 127.
Proof using. clear AM JK amount ready junk. exists 0. split; [lia|reflexivity]. Qed.

Lemma tstep_ok o c l : zlen f < 2 ^ 31 - 1 -> St c l -> top_ok o ->
  exists r c' l', tstep f amount ready junk o (mkIn false c) = Ret (r, mkIn (match o with TCloseIn => true | _ => false end) c') /\
    St c' l' /\ stream_op l o r l'.
Proof.
  intros Hf V K. pose proof (St_len c l V) as Ll. pose proof (zlen_nonneg l) as Nl.
  assert (Fu : zlen l < Z.of_nat (S (length f))) by (unfold zlen in *; lia).
  destruct o as [| | |n| | | | |]; cbn [tstep stream_op top_ok] in *.
  - unfold input1, try_input_char_. cbn [closed ic]. destruct (getch_st c l V) as (c' & E & V'). rewrite E. cbn [bind].
    destruct l as [|ch l]; cbn [hd_error tl] in *; eauto 10.
  - unfold input. cbn [closed ic].
    destruct (fast_input_ok c l [] (junk 60) 60 V (pre_nil _) ltac:(lia) ltac:(rewrite JK by lia; cbn; lia))
      as (t & l' & b' & c' & E & A & B & P & Lb & Lt & Z0).
    change (zlen (@nil Z)) with 0 in E. rewrite E. cbn [bind app] in *. pose proof (zlen_nonneg t) as Nt.
    assert ((if zlen t =? 0 then Ret [] else sub_string_ junk b' 0 (zlen t)) = Ret t) as ->.
    { destruct (Z.eqb_spec (zlen t) 0) as [T|T]; [apply zlen_0 in T; now subst|]. apply sub_ok; [exact P|lia]. }
    cbn [bind]. eexists _, c', l'. split; [reflexivity|]. split; [exact B|]. exists t. split; [reflexivity|]. split; [exact A|].
    intros ->. destruct (Z0 eq_refl); [lia|assumption].
  - unfold inputNoBlock. cbn [closed ic].
    destruct (fast_input_nb_ok c l (junk 60) 60 V ltac:(lia) ltac:(rewrite JK by lia; lia)) as (r & b' & c' & E & H).
    rewrite E. cbn [bind]. destruct r as [m|].
    + destruct H as (t & l' & -> & A & B & P & Lt & Z0). pose proof (zlen_nonneg t) as Nt.
      assert ((if zlen t =? 0 then Ret [] else sub_string_ junk b' 0 (zlen t)) = Ret t) as ->.
      { destruct (Z.eqb_spec (zlen t) 0) as [T|T]; [apply zlen_0 in T; now subst|]. apply sub_ok; [exact P|lia]. }
      cbn [bind]. eexists _, c', l'. split; [reflexivity|]. split; [exact B|]. right. exists t. split; [reflexivity|]. split; [exact A|].
      intros ->. destruct (Z0 eq_refl); [lia|assumption].
    + eexists _, c', l. split; [reflexivity|]. split; [exact H|]. now left.
  - unfold inputN, maxSize. destruct (Z.ltb_spec n 0); [lia|]. rewrite Z.gtb_ltb.
    destruct (Z.ltb_spec 144115188075855863 n); [lia|]. cbn [orb closed ic].
    destruct (inputN_loop_ok (S (Z.to_nat n)) n c l [] (junk n) V (pre_nil _)) as (t & l' & c' & E & A & B & L);
      try (rewrite ?JK by lia; change (zlen (@nil Z)) with 0; lia).
    change (zlen (@nil Z)) with 0 in *. cbn [app] in *. rewrite E. cbn [bind]. eexists _, c', l'. split; [reflexivity|]. split; [exact B|].
    exists t. split; [reflexivity|]. split; [exact A|]. rewrite L. lia.
  - unfold inputAll. cbn [closed ic].
    destruct (inputAll_h_ok (S (length f)) 127 c l [] (junk 127) V (pre_nil _)) as (t & c' & E & P & B); try apply pow127_127;
      try (rewrite ?JK by lia; change (zlen (@nil Z)) with 0; lia).
    change (zlen (@nil Z)) with 0 in *. cbn [app] in *. rewrite E. rewrite (sub_ok t l P) by lia. cbn [bind]. eauto 10.
  - unfold inputLine, endOfStream. cbn [closed]. destruct (lookahead_ok c l V) as (c1 & E1 & V1). rewrite E1. cbn [bind].
    destruct l as [|ch l]; cbn [hd_error].
    + eexists _, c1, []. split; [reflexivity|]. split; [exact V1|]. now left.
    + cbn [ic]. set (ll := ch :: l) in *.
      destruct (inputLine_h_ok (S (length f)) 127 c1 ll [] (junk 127) V1 (pre_nil _)) as (tmp & c' & t & l' & E & P & B & N & D); try apply pow127_127;
        try (rewrite ?JK by lia; change (zlen (@nil Z)) with 0; lia).
      change (zlen (@nil Z)) with 0 in *. cbn [app] in *. rewrite E. rewrite (sub_ok tmp (t ++ [10]) P).
      * cbn [bind]. eexists _, c', l'. split; [reflexivity|]. split; [exact B|]. right. destruct D as [D|[D1 D2]].
        -- left. exists t. auto.
        -- right. subst t l'. split; [discriminate|]. auto.
      * rewrite zlen_app. change (zlen [10]) with 1. destruct D as [D|[-> _]]; [|lia]. rewrite D, zlen_app in Ll. pose proof (zlen_nonneg (10 :: l')). lia.
  - destruct (lookahead_ok c l V) as (c1 & E1 & V1). rewrite E1. cbn [bind]. eexists _, c1, l. split; [reflexivity|]. auto.
  - unfold endOfStream. destruct (lookahead_ok c l V) as (c1 & E1 & V1). rewrite E1. cbn [bind]. eexists _, c1, l. split; [reflexivity|].
    split; [exact V1|]. destruct l; cbn [hd_error]; split; try (split; [|reflexivity]); split; congruence.
  - exists TrUnit, c, l. auto.
Qed.
Lemma tstep_closed o c : top_ok o ->
  tstep f amount ready junk o (mkIn true c) = Ret (closed_op o, mkIn true c).
Proof.
  intros K. destruct o as [| | |n| | | | |]; try reflexivity. cbn [tstep top_ok] in *. unfold inputN, maxSize. destruct (Z.ltb_spec n 0); [lia|].
  rewrite Z.gtb_ltb. destruct (Z.ltb_spec 144115188075855863 n); [lia|]. reflexivity.
Qed.
Lemma trun_ok : zlen f < 2 ^ 31 - 1 -> forall ops cl c l, Forall top_ok ops -> (cl = false -> St c l) ->
  exists rs cl' c' l', trun f amount ready junk ops (mkIn cl c) = Ret (rs, mkIn cl' c') /\ stream_run cl l ops rs cl' l' /\
    (cl' = false -> St c' l').
Proof.
  intros Hf. induction ops as [|o ops IH]; intros cl c l K V; cbn [trun].
  - exists [], cl, c, l. cbn. auto.
  - inversion_clear K as [|? ? K1 K2]. destruct cl.
    + rewrite tstep_closed by exact K1. cbn [bind]. destruct (IH true c l K2 ltac:(discriminate)) as (rs & cl' & c' & l' & E & H & V').
      rewrite E. cbn [bind]. eexists _, cl', c', l'. split; [reflexivity|]. cbn. auto.
    + destruct (tstep_ok o c l Hf (V eq_refl) K1) as (r & c1 & l1 & E & V1 & H). rewrite E. cbn [bind].
      destruct (IH (match o with TCloseIn => true | _ => false end) c1 l1 K2 (fun _ => V1)) as (rs & cl' & c' & l' & E2 & H2 & V'). rewrite E2. cbn [bind].
      eexists _, cl', c', l'. split; [reflexivity|]. cbn. split; [|exact V']. exists l1. auto.
Qed.

(** *** scanStream *)
(** [n] characters of [l] have been read *)
Definition ring (buf l : list Z) (n : Z) : Prop :=
  zlen buf = 512 /\ 0 <= n <= zlen l /\ forall j, 0 <= j < n -> n - 512 <= j -> zget buf (j mod 512) = zget l j.
Lemma scan_run_ok {R} (sc : scanner R) : forall c l n buf, proper n sc -> ring buf l n -> St c (skipn (Z.to_nat n) l) ->
  match scan_list l n sc with
  | Some (r, n') => exists c', scan_run f amount ready sc false buf n c = Ret (r, c') /\ n <= n' <= zlen l /\ St c' (skipn (Z.to_nat n') l)
  | None => scan_run f amount ready sc false buf n c = Raise FailExn
  end.
Proof.
  induction sc as [r|i k IH]; intros c l n buf K (Lb & Hn & G) V; cbn [scan_list scan_run proper] in *.
  - exists c. split; [reflexivity|]. split; [lia|exact V].
  - destruct K as (Hi & KN & KS). unfold getc. rewrite Z.geb_leb.
    destruct (Z.ltb_spec i n) as [L|L].
    + destruct (Z.leb_spec (n - 512) i), (Z.ltb_spec i (n - 512)); try lia; [|reflexivity].
      destruct (zget_some l i) as [ch E]; [lia|]. rewrite E.
      unfold sub_raw. rewrite G by lia. rewrite E. cbn [bind].
      replace (Z.max n (i + 1)) with n by lia. apply IH; [|split; auto|exact V]. specialize (KS ch). now replace (Z.max n (i + 1)) with n in KS by lia.
    + assert (i = n) by lia. subst i. destruct (Z.ltb_spec n (n - 512)); [lia|].
      unfold try_input_char_. destruct (getch_st c _ V) as (c' & E & V'). rewrite E. cbn [bind].
      destruct (zget l n) as [ch|] eqn:Z.
      * pose proof (zget_range _ _ _ Z) as Rg. rewrite (skipn_zget l n ch ltac:(lia) Z) in *. cbn [hd_error tl] in *.
        pose proof (Z.mod_pos_bound n 512 ltac:(lia)) as M.
        destruct (putn_spec buf (n mod 512) [ch]) as (b' & E2 & L2 & G2); [lia|change (zlen [ch]) with 1; lia|]. change (zlen [ch]) with 1 in G2.
        rewrite E2. cbn [bind]. replace (Z.max n (n + 1)) with (n + 1) by lia.
        assert (RG : ring b' l (n + 1)).
        { split; [lia|]. split; [lia|]. intros j J1 J2. rewrite G2. destruct (Z.eq_dec j n) as [->|Nj].
          - destruct (Z.leb_spec (n mod 512) (n mod 512)), (Z.ltb_spec (n mod 512) (n mod 512 + 1)); try lia. cbn [andb]. rewrite Z.sub_diag. now rewrite Z.
          - assert (j mod 512 <> n mod 512) by lia.
            destruct (Z.leb_spec (n mod 512) (j mod 512)), (Z.ltb_spec (j mod 512) (n mod 512 + 1)); try lia; cbn [andb]; apply G; lia. }
        specialize (KS ch). replace (Z.max n (n + 1)) with (n + 1) in KS by lia.
        specialize (IH (Some (ch, n + 1)) c' l (n + 1) b' KS RG V').
        destruct (scan_list l (n + 1) (k (Some (ch, n + 1)))) as [[r n']|]; [|exact IH].
        destruct IH as (c2 & E3 & B & V3). exists c2. split; [exact E3|]. split; [lia|exact V3].
      * assert (n = zlen l). { destruct (Z_lt_dec n (zlen l)); [|lia]. destruct (zget_some l n) as [x X]; [lia|]. congruence. }
        assert (skipn (Z.to_nat n) l = []) as X by (apply skipn_all2; unfold zlen in *; lia). rewrite X in *. cbn [hd_error tl] in *.
        apply IH; [exact KN|split; auto|]. now rewrite X.
Qed.
Lemma scanStream_ok {R} (sc : scanner R) c l : proper 0 sc -> St c l ->
  match scan_list l 0 sc with
  | Some (r, n) => exists c', scanStream f amount ready junk sc (mkIn false c) = Ret (option_map fst r, mkIn false c') /\
                     0 <= n <= zlen l /\ St c' (skipn (Z.to_nat n) l)
  | None => scanStream f amount ready junk sc (mkIn false c) = Raise FailExn
  end.
Proof.
  intros K V. assert (RG : ring (junk 512) l 0).
  { split; [apply JK; lia|]. split; [pose proof (zlen_nonneg l); lia|]. intros; lia. }
  pose proof (scan_run_ok sc c l 0 (junk 512) K RG V) as H. unfold scanStream. cbn [closed ic].
  destruct (scan_list l 0 sc) as [[r n]|].
  - destruct H as (c' & E & B & V'). rewrite E. cbn [bind]. exists c'. split; [|auto]. now destruct r as [[x y]|].
  - rewrite H. reflexivity.
Qed.
Lemma scan_closed {R} (sc : scanner R) buf c : proper 0 sc ->
  exists r, scan_list [] 0 sc = Some (r, 0) /\ scan_run f amount ready sc true buf 0 c = Ret (r, c).
Proof.
  induction sc as [r|i k IH]; intros K; cbn [scan_list scan_run proper] in *.
  - exists r. auto.
  - destruct K as (Hi & KN & _). assert (i = 0) by lia. subst i. unfold getc. cbn. apply IH. exact KN.
Qed.
End I.

(** *** output *)
Section O.
Variable short : Z -> Z -> Z.
Hypothesis SH : forall t n, 0 < n -> 1 <= short t n <= n.

Lemma write_at_end fs l : write_at fs (zlen fs) l = fs ++ l.
Proof.
  unfold write_at. destruct l as [|x l]; [now rewrite app_nil_r|]. rewrite Z.sub_diag. cbn [Z.to_nat repeat]. rewrite app_nil_r.
  rewrite firstn_all2 by (unfold zlen; lia). rewrite (skipn_all2 fs) by (unfold zlen; lia). now rewrite app_nil_r.
Qed.
(** everything written up to now is [fs] *)
Definition Wr (err : bool) (o : outstream) (fs : list Z) : Prop :=
  oclosed o = false /\ oinv (oc o) fs (zlen fs) /\ ocur (oc o) = omax (oc o) /\ (err = true -> ofile (oc o) = fs).

Lemma flush_wr c fs : oinv c fs (zlen fs) -> ocur c = omax c ->
  exists c', flush short c = Ret c' /\ oinv c' fs (zlen fs) /\ ocur c' = omax c' /\ ofile c' = fs.
Proof.
  intros V Q. destruct (flush_ok short SH c fs _ V) as (c' & E & V' & C' & M' & F' & O'). exists c'. split; [exact E|].
  assert (zlen fs = ooff c + omax c) as -> by (destruct V; lia). split; [exact V'|]. split; [lia|exact F'].
Qed.
Lemma wstep_ok err w o fs : Wr err o fs -> oop_ok w ->
  exists o', wstep short err w o = Ret o' /\ Wr err o' (fs ++ written [w]).
Proof.
  intros (C & V & Q & F) K. destruct w as [s|ch|]; cbn [wstep oop_ok written] in *; rewrite ?app_nil_r.
  - unfold output. rewrite C. destruct (output_ok short SH (oc o) fs _ s V K (or_introl Q)) as (c1 & E1 & V1 & Q1). rewrite E1. cbn [bind].
    rewrite write_at_end, <- zlen_app in V1. specialize (Q1 Q). destruct err.
    + destruct (flush_wr c1 _ V1 Q1) as (c2 & E2 & V2 & Q2 & F2). rewrite E2. cbn [bind]. eexists. split; [reflexivity|]. repeat (split; [assumption||reflexivity|]). auto.
    + cbn [bind]. eexists. split; [reflexivity|]. repeat (split; [assumption||reflexivity|]). discriminate.
  - unfold output1. rewrite C. destruct (putch_ok short SH (oc o) fs _ ch V) as (c1 & E1 & V1 & Q1). rewrite E1. cbn [bind].
    rewrite write_at_end, Z.mod_small in V1 by lia. change (zlen fs + 1) with (zlen fs + zlen [ch]) in V1. rewrite <- zlen_app in V1. specialize (Q1 Q). destruct err.
    + destruct (flush_wr c1 _ V1 Q1) as (c2 & E2 & V2 & Q2 & F2). rewrite E2. cbn [bind]. eexists. split; [reflexivity|]. repeat (split; [assumption||reflexivity|]). auto.
    + cbn [bind]. eexists. split; [reflexivity|]. repeat (split; [assumption||reflexivity|]). discriminate.
  - unfold flushOut. rewrite C. destruct (flush_wr (oc o) _ V Q) as (c2 & E2 & V2 & Q2 & F2). rewrite E2. cbn [bind].
    eexists. split; [reflexivity|]. repeat (split; [assumption||reflexivity|]). auto.
Qed.
Lemma written_cons w l : written (w :: l) = written [w] ++ written l.
Proof. destruct w; cbn [written]; rewrite ?app_nil_r; reflexivity. Qed.
Lemma wrun_ok err : forall l o fs, Wr err o fs -> Forall oop_ok l ->
  exists o', wrun short err l o = Ret o' /\ Wr err o' (fs ++ written l).
Proof.
  induction l as [|w l IH]; intros o fs V K; cbn [wrun].
  - exists o. cbn [written]. rewrite app_nil_r. auto.
  - inversion_clear K as [|? ? K1 K2]. destruct (wstep_ok err w o fs V K1) as (o1 & E1 & V1). rewrite E1. cbn [bind].
    destruct (IH o1 _ V1 K2) as (o2 & E2 & V2). exists o2. split; [exact E2|]. now rewrite written_cons, app_assoc.
Qed.
End O.
