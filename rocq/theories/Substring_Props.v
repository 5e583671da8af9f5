(** C33: String and Substring operations are exact. *)
From Verif Require Import Base ArrayLib Copy_Model Copy_Proofs Copy_Props Buffer_Model Buffer_Props Substring_Model Substring_Spec Substring_Proofs Substring_Proofs2.

(** ** Splitting at the longest prefix or suffix *)
Theorem C33_splitl : forall p ss, valid ss ->
  exists a b, splitl p ss = Ret (a, b) /\ takel p ss = Ret a /\ dropl p ss = Ret b /\
    cut ss a b /\ text ss = text a ++ text b /\ longest_prefix p (text a) (text b).
Proof.
  intros p [[s i] n] V. destruct (valid_split _ _ _ V) as (pre & post & E & Ei & En). set (t := text (s, i, n)) in *. clearbody t. subst s i n.
  exists (pre ++ t ++ post, zlen pre, zlen (tw p t)), (pre ++ t ++ post, zlen pre + zlen (tw p t), zlen (dw p t)).
  assert (L : zlen t = zlen (tw p t) + zlen (dw p t)) by (rewrite <- zlen_app, <- tw_dw; reflexivity).
  assert (E1 : pre ++ t ++ post = pre ++ tw p t ++ (dw p t ++ post)) by (rewrite (tw_dw p t) at 1; now rewrite <- !app_assoc).
  assert (E2 : pre ++ t ++ post = (pre ++ tw p t) ++ dw p t ++ post) by (rewrite (tw_dw p t) at 1; now rewrite <- !app_assoc).
  assert (T1 : text (pre ++ t ++ post, zlen pre, zlen (tw p t)) = tw p t) by (rewrite E1; now apply text_at).
  assert (T2 : text (pre ++ t ++ post, zlen pre + zlen (tw p t), zlen (dw p t)) = dw p t) by (rewrite E2; apply text_at; rewrite ?zlen_app; reflexivity).
  assert (V1 : valid (pre ++ t ++ post, zlen pre, zlen (tw p t))) by (rewrite E1; now apply valid_at).
  assert (V2 : valid (pre ++ t ++ post, zlen pre + zlen (tw p t), zlen (dw p t))) by (rewrite E2; apply valid_at; rewrite ?zlen_app; reflexivity).
  split; [now apply splitl_at|]. split.
  { unfold takel, scanl. rewrite scanl_h_ok; [|reflexivity|reflexivity|rewrite loop_zlen; lia]. cbn [bind].
    now replace (zlen pre + zlen (tw p t) - zlen pre) with (zlen (tw p t)) by lia. }
  split; [now apply dropl_at|]. split.
  { repeat (split; [assumption || reflexivity|]). unfold stop. cbn [fst snd]. lia. }
  rewrite T1, T2.  split; [apply tw_dw|apply tw_longest].
Qed.
Theorem C33_splitr : forall p ss, valid ss ->
  exists a b, splitr p ss = Ret (a, b) /\ dropr p ss = Ret a /\ taker p ss = Ret b /\
    cut ss a b /\ text ss = text a ++ text b /\ longest_suffix p (text a) (text b).
Proof.
  intros p [[s i] n] V. destruct (valid_split _ _ _ V) as (pre & post & E & Ei & En). set (t := text (s, i, n)) in *. clearbody t. subst s i n.
  exists (pre ++ t ++ post, zlen pre, zlen (dwr p t)), (pre ++ t ++ post, zlen pre + zlen (dwr p t), zlen (twr p t)).
  assert (L : zlen t = zlen (dwr p t) + zlen (twr p t)) by (rewrite <- zlen_app, <- twr_dwr; reflexivity).
  assert (E1 : pre ++ t ++ post = pre ++ dwr p t ++ (twr p t ++ post)) by (rewrite (twr_dwr p t) at 1; now rewrite <- !app_assoc).
  assert (E2 : pre ++ t ++ post = (pre ++ dwr p t) ++ twr p t ++ post) by (rewrite (twr_dwr p t) at 1; now rewrite <- !app_assoc).
  assert (T1 : text (pre ++ t ++ post, zlen pre, zlen (dwr p t)) = dwr p t) by (rewrite E1; now apply text_at).
  assert (T2 : text (pre ++ t ++ post, zlen pre + zlen (dwr p t), zlen (twr p t)) = twr p t) by (rewrite E2; apply text_at; rewrite ?zlen_app; reflexivity).
  assert (V1 : valid (pre ++ t ++ post, zlen pre, zlen (dwr p t))) by (rewrite E1; now apply valid_at).
  assert (V2 : valid (pre ++ t ++ post, zlen pre + zlen (dwr p t), zlen (twr p t))) by (rewrite E2; apply valid_at; rewrite ?zlen_app; reflexivity).
  assert (K : zlen pre + zlen (dwr p t) - 1 - zlen pre + 1 = zlen (dwr p t)) by lia.
  assert (K2 : zlen t - zlen (dwr p t) = zlen (twr p t)) by lia.
  unfold splitr, dropr, taker, scanr. rewrite !scanr_h_ok by (try reflexivity; rewrite loop_zlen; lia). cbn [bind]. rewrite K, K2.
  repeat (split; [reflexivity|]). split.
  { repeat (split; [assumption || reflexivity|]). unfold stop. cbn [fst snd]. lia. }
  rewrite T1, T2.  split; [apply twr_dwr|apply twr_longest].
Qed.

(** ** Fields and tokens *)
Theorem C33_fields : forall p ss, valid ss ->
  exists l, fields p ss = Ret l /\ Forall (inside ss) l /\ fields_of p (text ss) (List.map text l).
Proof.
  intros p [[s i] n] V. destruct (valid_split _ _ _ V) as (pre & post & E & Ei & En). set (t := text (s, i, n)) in *. clearbody t. subst s i n.
  unfold fields. cbn [len_of]. destruct (fields_h_ok p (loop (zlen t)) t pre post (zlen pre) (zlen t) [] (pre ++ t ++ post, zlen pre, zlen t)) as (l & R); try reflexivity.
  - rewrite loop_zlen. lia.
  - exists l. exact R.
Qed.
Theorem C33_tokens : forall p ss, valid ss ->
  exists l, tokens p ss = Ret l /\ Forall (inside ss) l /\ tokens_of p (text ss) (List.map text l).
Proof.
  intros p [[s i] n] V. destruct (valid_split _ _ _ V) as (pre & post & E & Ei & En). set (t := text (s, i, n)) in *. clearbody t. subst s i n.
  unfold tokens. rewrite dropl_at by reflexivity. cbn [bind len_of].
  assert (L : zlen t = zlen (tw p t) + zlen (dw p t)) by (rewrite <- zlen_app, <- tw_dw; reflexivity). pose proof (zlen_nonneg (tw p t)).
  assert (E2 : pre ++ t ++ post = (pre ++ tw p t) ++ dw p t ++ post) by (rewrite (tw_dw p t) at 1; now rewrite <- !app_assoc). rewrite E2.
  destruct (tokens_h_ok p (loop (zlen t)) (dw p t) (pre ++ tw p t) post (zlen pre + zlen (tw p t)) (zlen (dw p t)) [] ((pre ++ tw p t) ++ dw p t ++ post, zlen pre, zlen t)) as (l & R1 & R2 & R3);
    try reflexivity.
  - now rewrite zlen_app.
  - rewrite loop_zlen. unfold zlen in *. lia.
  - unfold start. cbn [fst snd]. lia.
  - unfold stop. cbn [fst snd]. lia.
  - intros c t' Hc. exact (proj2 (tw_longest p t) _ _ Hc).
  - exists l. split; [exact R1|]. split; [exact R2|]. apply (tokens_of_drop p (tw p t)) in R3; [|apply (proj1 (tw_longest p t))].
    rewrite <- tw_dw in R3.  exact R3.
Qed.
(** the relations determine the lists *)
Theorem C33_fields_unique : forall p t fs fs', fields_of p t fs -> fields_of p t fs' -> fs = fs'.
Proof. exact fields_of_unique. Qed.
Theorem C33_tokens_unique : forall p t ts ts', tokens_of p t ts -> tokens_of p t ts' -> ts = ts'.
Proof. exact tokens_of_unique. Qed.

(** ** Iteration *)
Theorem C33_folds : forall B (f : Z * B -> B) e ss, valid ss ->
  foldl f e ss = Ret (fold_left (fun a c => f (c, a)) (text ss) e) /\
  foldr f e ss = Ret (fold_right (fun c a => f (c, a)) e (text ss)) /\
  explode ss = Ret (text ss).
Proof.
  intros B f e [[s i] n] V. destruct (valid_split _ _ _ V) as (pre & post & E & Ei & En). set (t := text (s, i, n)) in *. clearbody t. subst s i n.
  unfold foldl, explode, foldr.  rewrite foldl_h_ok, !foldr_h_ok by (try reflexivity; rewrite ?loop_zlen; lia).
  repeat split. f_equal. induction t as [|c t IH]; [reflexivity|]. cbn [fold_right]. rewrite IH; [reflexivity|now apply valid_at].
Qed.

(** ** Searching and comparing *)
Theorem C33_position : forall w ss, valid ss ->
  exists a b, position w ss = Ret (a, b) /\ cut ss a b /\ text ss = text a ++ text b /\
    ((occurs_after w (text ss) (text a) /\ forall pre, occurs_after w (text ss) pre -> zlen (text a) <= zlen pre) \/
     ((forall pre, ~ occurs_after w (text ss) pre) /\ a = ss /\ text b = [])).
Proof.
  intros w [[s i] n] V. destruct (valid_split _ _ _ V) as (pre & post & E & Ei & En). set (t := text (s, i, n)) in *. clearbody t. subst s i n.
  pose proof (zlen_nonneg pre). pose proof (zlen_nonneg t). pose proof (zlen_nonneg post).
  assert (TT : text (pre ++ t ++ post, zlen pre, zlen t) = t) by now apply text_at.
  destruct w as [|c w].
  - cbn [position]. exists (pre ++ t ++ post, zlen pre, 0), (pre ++ t ++ post, zlen pre, zlen t). split; [reflexivity|]. split; [|split].
    + split; [cbn [valid]; rewrite !zlen_app; lia|]. split; [assumption|]. repeat (split; [reflexivity|]). split; [unfold stop, start; cbn [fst snd]; lia|reflexivity].
    + now replace (text (pre ++ t ++ post, zlen pre, 0)) with (@nil Z) by reflexivity.
    + left. replace (text (pre ++ t ++ post, zlen pre, 0)) with (@nil Z) by reflexivity. split; [now exists (text (pre ++ t ++ post, zlen pre, zlen t))|].
      intros q _. rewrite zl_nil. apply zlen_nonneg.
  - cbn [position]. rewrite position_h_ok; [|discriminate|reflexivity|rewrite loop_zlen; lia|lia].
    destruct (find_at (c :: w) t) as [q|] eqn:F.
    + destruct (find_at_some _ _ _ F) as ((suf & O1) & O2). replace (zlen pre + zlen q - zlen pre) with (zlen q) by lia.
      assert (L : zlen t - zlen q = zlen ((c :: w) ++ suf)) by (rewrite O1, !zlen_app; lia). pose proof (zlen_nonneg q).
      assert (E1 : pre ++ t ++ post = pre ++ q ++ (((c :: w) ++ suf) ++ post)) by (rewrite O1; now rewrite <- !app_assoc).
      assert (E2 : pre ++ t ++ post = (pre ++ q) ++ ((c :: w) ++ suf) ++ post) by (rewrite O1; now rewrite <- !app_assoc).
      assert (T1 : text (pre ++ t ++ post, zlen pre, zlen q) = q) by (rewrite E1; now apply text_at).
      assert (T2 : text (pre ++ t ++ post, zlen pre + zlen q, zlen t - zlen q) = (c :: w) ++ suf) by (rewrite L, E2; apply text_at; rewrite ?zlen_app; reflexivity).
      assert (V1 : valid (pre ++ t ++ post, zlen pre, zlen q)) by (rewrite E1; now apply valid_at).
      assert (V2 : valid (pre ++ t ++ post, zlen pre + zlen q, zlen t - zlen q)) by (rewrite L, E2; apply valid_at; rewrite ?zlen_app; reflexivity).
      exists (pre ++ t ++ post, zlen pre, zlen q), (pre ++ t ++ post, zlen pre + zlen q, zlen t - zlen q). split; [reflexivity|]. split; [|split].
      * repeat (split; [assumption || reflexivity|]). unfold stop. cbn [fst snd]. lia.
      * rewrite T1, T2. assumption.
      * left. rewrite T1. split; [now exists suf|assumption].
    + exists (pre ++ t ++ post, zlen pre, zlen t), (pre ++ t ++ post, zlen pre + zlen t, 0). split; [reflexivity|]. split; [|split].
      * split; [assumption|]. split; [cbn [valid]; rewrite !zlen_app; lia|]. repeat (split; [reflexivity|]). unfold stop. cbn [fst snd]. lia.
      * replace (text (pre ++ t ++ post, zlen pre + zlen t, 0)) with (@nil Z) by reflexivity. now rewrite app_nil_r.
      * right. split; [apply (find_at_none _ _ F)|]. split; reflexivity.
Qed.
Theorem C33_tests : forall w ss, valid ss ->
  (exists b, isPrefix w ss = Ret b /\ (b = true <-> exists r, text ss = w ++ r)) /\
  (exists b, isSuffix w ss = Ret b /\ (b = true <-> exists r, text ss = r ++ w)) /\
  (exists b, isSubstring w ss = Ret b /\ (b = true <-> exists pre, occurs_after w (text ss) pre)).
Proof.
  intros w [[s i] n] V. destruct (valid_split _ _ _ V) as (pre & post & E & Ei & En). set (t := text (s, i, n)) in *. clearbody t. subst s i n.
  assert (TT : text (pre ++ t ++ post, zlen pre, zlen t) = t) by now apply text_at. split; [|split].
  - unfold isPrefix. destruct (Z.leb_spec (zlen w) (zlen t)) as [H|H].
    + assert (M : (if zlen w <? zlen t then zlen w else zlen t) = zlen w) by (destruct (Z.ltb_spec (zlen w) (zlen t)); lia). rewrite M.
      destruct (cut_at t (zlen w) (zlen t - zlen w)) as (x & y & -> & Lx & Ly); [apply zlen_nonneg|lia|lia|].
      exists (eqs w x). split.
      * rewrite <- (app_nil_r w) at 2. rewrite <- (app_assoc x). apply (eq_h_ok w x [] [] pre (y ++ post)).
        -- unfold zlen in Lx. lia.
        -- reflexivity.
        -- lia.
        -- reflexivity.
        -- rewrite loop_zlen. lia.
      * rewrite eqs_spec. split; [intros <-; eauto|]. intros (r & R). apply (f_equal (firstn (length w))) in R. rewrite firstn_exact in R.
        replace (length w) with (length x) in R by (unfold zlen in Lx; lia). now rewrite firstn_exact in R.
    + exists false. split; [reflexivity|]. split; [discriminate|]. intros (r & ->). rewrite zlen_app in H. pose proof (zlen_nonneg r). lia.
  - unfold isSuffix. destruct (Z.leb_spec (zlen w) (zlen t)) as [H|H].
    + destruct (cut_at t (zlen t - zlen w) (zlen w)) as (y & x & -> & Ly & Lx); [lia|lia|apply zlen_nonneg|].
      exists (eqs w x). split.
      * rewrite <- (app_nil_r w) at 2. rewrite <- (app_assoc y), (app_assoc pre). apply (eq_h_ok w x [] [] (pre ++ y) post).
        -- unfold zlen in Lx. lia.
        -- reflexivity.
        -- rewrite !zlen_app in *. lia.
        -- reflexivity.
        -- rewrite loop_zlen. lia.
      * rewrite eqs_spec. split; [intros <-; eauto|]. intros (r & R). apply (f_equal (@rev Z)) in R. rewrite !rev_app_distr in R.
        apply (f_equal (firstn (length (rev w)))) in R. rewrite firstn_exact in R.
        replace (length (rev w)) with (length (rev x)) in R by (rewrite !rev_length; unfold zlen in Lx; lia). rewrite firstn_exact in R.
        apply (f_equal (@rev Z)) in R. now rewrite !rev_involutive in R.
    + exists false. split; [reflexivity|]. split; [discriminate|]. intros (r & ->). rewrite zlen_app in H. pose proof (zlen_nonneg r). lia.
  - destruct w as [|c w].
    + exists true. split; [reflexivity|]. split; [|reflexivity]. intros _. now exists [], t.
    + eexists. split; [cbn [isSubstring]; apply (issub_ok (c :: w) t); [discriminate|reflexivity|rewrite loop_zlen; lia|lia]|].
      destruct (find_at (c :: w) t) as [q|] eqn:F.
      * split; [intros _; exists q; apply (find_at_some _ _ _ F)|reflexivity].
      * split; [discriminate|]. intros (q & Q). destruct (find_at_none _ _ F q Q).
Qed.
Theorem C33_collate : forall cmp ss1 ss2, valid ss1 -> valid ss2 ->
  collate cmp ss1 ss2 = Ret (lex cmp (text ss1) (text ss2)) /\
  compare ss1 ss2 = Ret (lex Z.compare (text ss1) (text ss2)).
Proof.
  assert (K : forall cmp ss1 ss2, valid ss1 -> valid ss2 -> collate cmp ss1 ss2 = Ret (lex cmp (text ss1) (text ss2))).
  { intros cmp [[s1 i1] n1] [[s2 i2] n2] V1 V2. destruct (valid_split _ _ _ V1) as (pre1 & post1 & E1 & Ei1 & En1). destruct (valid_split _ _ _ V2) as (pre2 & post2 & E2 & Ei2 & En2).
    set (t1 := text (s1, i1, n1)) in *. set (t2 := text (s2, i2, n2)) in *. clearbody t1 t2. subst. unfold collate. apply collate_h_ok; try lia.
    - destruct (Z.ltb_spec (zlen t1) (zlen t2)); lia.
    - unfold loop. pose proof (zlen_nonneg t1). pose proof (zlen_nonneg t2). destruct (Z.ltb_spec (zlen t1) (zlen t2)); lia. }
  intros cmp ss1 ss2 V1 V2. split; [now apply K|]. unfold compare. rewrite K by assumption. f_equal.
  generalize (text ss2). induction (text ss1) as [|c t IH]; intros [|d u]; try reflexivity. cbn [lex].
  replace (char_cmp c d) with (Z.compare c d); [now rewrite IH|]. unfold char_cmp. rewrite Z.gtb_ltb.
  destruct (Z.compare_spec c d); destruct (Z.ltb_spec c d); try lia; try reflexivity; destruct (Z.ltb_spec d c); try lia; reflexivity.
Qed.
(** the lexicographic order: equal exactly on equal texts, antisymmetric *)
Theorem C33_lex_equal : forall s t, lex Z.compare s t = Eq <-> s = t.
Proof.
  induction s as [|c s IH]; intros [|d t]; cbn [lex]; try (split; (reflexivity || discriminate)).
  destruct (Z.compare_spec c d) as [->|H|H]; rewrite ?IH; split; try discriminate; intros Q; try congruence; injection Q as -> ->; lia.
Qed.
Theorem C33_lex_less : forall s t, lex Z.compare s t = Lt <->
  exists u, (exists d t', s = u /\ t = u ++ d :: t') \/ (exists c s' d t', s = u ++ c :: s' /\ t = u ++ d :: t' /\ c < d).
Proof.
  induction s as [|c s IH]; intros [|d t]; cbn [lex].
  - split; [discriminate|]. intros (u & [(d & t' & <- & E)|(c & s' & d & t' & E & _)]); [discriminate|now destruct u].
  - split; [|reflexivity]. intros _. exists []. left. now exists d, t.
  - split; [discriminate|]. intros (u & [(d & t' & _ & E)|(c' & s' & d & t' & _ & E & _)]); now destruct u.
  - destruct (Z.compare_spec c d) as [->|H|H].
    + rewrite IH. split; intros (u & [(x & t' & E1 & E2)|(x & s' & y & t' & E1 & E2 & E3)]).
      * exists (d :: u). left. exists x, t'. now subst.
      * exists (d :: u). right. exists x, s', y, t'. now subst.
      * subst u. injection E2 as E2. exists s. left. eauto.
      * destruct u as [|z u]; injection E1 as Q1 E1; injection E2 as Q2 E2; [lia|]. exists u. right. exists x, s', y, t'. auto.
    + split; [|reflexivity]. intros _. exists []. right. exists c, s, d, t. auto.
    + split; [discriminate|]. intros (u & [(x & t' & E1 & E2)|(x & s' & y & t' & E1 & E2 & E3)]).
      * subst u. injection E2 as E2. lia.
      * destruct u as [|z u]; injection E1 as Q1 E1; injection E2 as Q2 E2; lia.
Qed.

(** ** Subscripts *)
Lemma isub_small x y : 0 <= x < two62 -> 0 <= y <= two62 -> isub x y = Ret (x - y).
Proof. intros H1 H2. unfold isub. assert (I : in_int (x - y)) by (unfold in_int, two62 in *; lia). apply in_intb_spec in I. now rewrite I. Qed.
Theorem C33_extract : forall s i n, zlen s <= maxSize -> in_int i -> in_int n ->
  extract s i None = (if (0 <=? i) && (i <=? zlen s) then Ret (s, i, zlen s - i) else Raise Subscript) /\
  extract s i (Some n) = (if (0 <=? i) && (0 <=? n) && (i + n <=? zlen s) then Ret (s, i, n) else Raise Subscript).
Proof.
  intros s i n Hs Hi Hn. pose proof (zlen_nonneg s). unfold in_int, maxSize, two62 in *. split; [reflexivity|]. cbn [extract]. destruct (Z.leb_spec 0 i); [|reflexivity]. destruct (Z.leb_spec 0 n); [|reflexivity]. cbn [andb].
  rewrite isub_small by (unfold two62; lia). cbn [bind]. destruct (Z.leb_spec n (zlen s - i)); destruct (Z.leb_spec (i + n) (zlen s)); try lia; reflexivity.
Qed.
Theorem C33_sub : forall ss i, valid ss ->
  sub ss i = match zget (text ss) i with Some c => Ret c | None => Raise Subscript end.
Proof.
  intros [[s i'] n'] i V. destruct (valid_split _ _ _ V) as (pre & post & E & Ei & En). set (t := text (s, i', n')) in *. clearbody t. subst s i' n'.
  unfold sub. rewrite Z.geb_leb. destruct (Z.ltb_spec i 0) as [H|H]; [|destruct (Z.leb_spec (zlen t) i) as [H'|H']]; cbn [orb].
  - rewrite zget_none by lia. reflexivity.
  - rewrite zget_none by lia. reflexivity.
  - destruct (zget_some t i ltac:(lia)) as (c & G). rewrite G. unfold sub_raw. pose proof (zlen_nonneg pre). rewrite zget_app. destruct (Z.ltb_spec (zlen pre + i) (zlen pre)); [lia|].
    replace (zlen pre + i - zlen pre) with i by lia. rewrite zget_app. destruct (Z.ltb_spec i (zlen t)); [|lia]. now rewrite G.
Qed.
Lemma text_pre s i n k : valid (s, i, n) -> 0 <= k <= n -> valid (s, i, k) /\ text (s, i, k) = firstn (Z.to_nat k) (text (s, i, n)).
Proof. intros (H1 & H2 & H3) H. split; [cbn [valid]; lia|]. cbn [text]. rewrite firstn_firstn. f_equal. lia. Qed.
Lemma text_suf s i n k : valid (s, i, n) -> 0 <= k <= n -> valid (s, i + k, n - k) /\ text (s, i + k, n - k) = skipn (Z.to_nat k) (text (s, i, n)).
Proof.
  intros V H. pose proof V as (H1 & H2 & H3). split; [cbn [valid]; lia|]. destruct (valid_split _ _ _ V) as (pre & post & E & Ei & En). set (t := text (s, i, n)) in *. clearbody t. subst s i n.
  destruct (cut_at t k (zlen t - k)) as (x & y & -> & Lx & Ly); try lia. rewrite <- app_assoc, app_assoc.
  rewrite (text_at (pre ++ x) y post); [|rewrite zlen_app; lia|lia]. replace (Z.to_nat k) with (length x) by (unfold zlen in Lx; lia). now rewrite skipn_exact.
Qed.
Theorem C33_trim : forall ss k, valid ss ->
  (k < 0 -> triml k ss = Raise Subscript /\ trimr k ss = Raise Subscript) /\
  (0 <= k -> exists a b, triml k ss = Ret a /\ trimr k ss = Ret b /\ inside ss a /\ inside ss b /\
     stop a = stop ss /\ start b = start ss /\
     text a = skipn (Z.to_nat k) (text ss) /\ text b = firstn (Z.to_nat (zlen (text ss) - k)) (text ss)).
Proof.
  intros [[s i] n] k V. pose proof (len_text _ V) as L. cbn [len_of] in L. pose proof V as (H1 & H2 & H3). unfold triml, trimr. split; intros H.
  - destruct (Z.ltb_spec k 0); [now split|lia].
  - destruct (Z.ltb_spec k 0); [lia|]. do 2 eexists. split; [reflexivity|]. split; [reflexivity|]. rewrite L. rewrite Z.gtb_ltb. destruct (Z.ltb_spec n k).
    + rewrite skipn_all2 by (unfold zlen in L; lia). replace (Z.to_nat (n - k)) with O by lia.
      repeat split; unfold start, stop; cbn [fst snd valid]; try lia; reflexivity.
    + destruct (text_suf s i n k V ltac:(lia)) as (VA & TA). destruct (text_pre s i n (n - k) V ltac:(lia)) as (VB & TB).
      rewrite TA, TB. repeat split; unfold start, stop; cbn [fst snd base]; try lia; try assumption; try reflexivity; cbn [valid] in *; lia.
Qed.
Theorem C33_splitAt : forall ss k, valid ss ->
  (0 <= k <= zlen (text ss) -> exists a b, splitAt ss k = Ret (a, b) /\ cut ss a b /\
     text a = firstn (Z.to_nat k) (text ss) /\ text b = skipn (Z.to_nat k) (text ss)) /\
  (~ (0 <= k <= zlen (text ss)) -> splitAt ss k = Raise Subscript).
Proof.
  intros [[s i] n] k V. pose proof (len_text _ V) as L. cbn [len_of] in L. rewrite L. unfold splitAt. rewrite Z.gtb_ltb. split; intros H.
  - destruct (Z.ltb_spec k 0); [lia|]. destruct (Z.ltb_spec n k); [lia|]. cbn [orb]. do 2 eexists. split; [reflexivity|].
    destruct (text_suf s i n k V ltac:(lia)) as (VA & TA). destruct (text_pre s i n k V ltac:(lia)) as (VB & TB). split; [|now split].
    repeat (split; [assumption || reflexivity|]). unfold stop. cbn [fst snd]. lia.
  - destruct (Z.ltb_spec k 0); [reflexivity|]. destruct (Z.ltb_spec n k); [reflexivity|]. lia.
Qed.
(** slice, except when the end of the requested range is not representable (then Overflow) *)
Theorem C33_slice_partial : forall ss i n, valid ss -> in_int i -> in_int n ->
  (match slice ss i None with
   | Ret a => 0 <= i <= zlen (text ss) /\ inside ss a /\ text a = skipn (Z.to_nat i) (text ss)
   | r => ~ (0 <= i <= zlen (text ss)) /\ r = Raise Subscript
   end) /\
  (i + n < two62 ->
   match slice ss i (Some n) with
   | Ret a => 0 <= i /\ 0 <= n /\ i + n <= zlen (text ss) /\ inside ss a /\ text a = firstn (Z.to_nat n) (skipn (Z.to_nat i) (text ss))
   | r => ~ (0 <= i /\ 0 <= n /\ i + n <= zlen (text ss)) /\ r = Raise Subscript
   end).
Proof.
  intros [[s i'] n'] i n V Hi Hn. pose proof (len_text _ V) as L. cbn [len_of] in L. rewrite L. pose proof V as (H1 & H2 & H3). cbn [slice]. split.
  - destruct (Z.leb_spec 0 i); [|cbn [andb]; split; [lia|reflexivity]]. destruct (Z.leb_spec i n'); [|cbn [andb]; split; [lia|reflexivity]]. cbn [andb].
    destruct (text_suf s i' n' i V ltac:(lia)) as (VA & TA). split; [lia|]. rewrite TA. split; [|reflexivity]. repeat split; unfold start, stop; cbn [fst snd valid] in *; try lia.
  - intros Hs. destruct (Z.leb_spec 0 i); [|cbn [andb]; split; [lia|reflexivity]]. destruct (Z.leb_spec 0 n); [|cbn [andb]; split; [lia|reflexivity]]. cbn [andb].
    destruct (iadd_cases i n) as (I & _); [lia..|]. rewrite I by lia. cbn [bind]. destruct (Z.leb_spec (i + n) n'); [|split; [lia|reflexivity]].
    destruct (text_suf s i' n' i V ltac:(lia)) as (VA & TA). destruct (text_pre s (i' + i) (n' - i) n VA ltac:(lia)) as (VB & TB).
    split; [lia|]. split; [lia|]. split; [lia|]. rewrite TB, TA. split; [|reflexivity]. repeat split; unfold start, stop; cbn [fst snd valid] in *; try lia.
Qed.
(** Substring.sig: slice "raises Subscript if i<0 or n<0 or i+n > size sus" *)
Theorem C33_slice_subscript_refuted : exists ss i n, valid ss /\ in_int i /\ in_int n /\
  ~ (0 <= i /\ 0 <= n /\ i + n <= zlen (text ss)) /\ slice ss i (Some n) <> Raise Subscript.
Proof.
  exists ([97], 0, 1), 1, (two62 - 1). unfold in_int, two62. split; [cbn [valid]; unfold zlen; cbn; lia|]. split; [lia|]. split; [lia|]. split; [change (zlen (text ([97], 0, 1))) with 1; lia|]. vm_compute. discriminate.
Qed.
(** String.sig: extract raises Subscript for i < 0, also when i is the least integer *)
Theorem C33_string_extract_subscript_refuted : exists s i, zlen s <= maxSize /\ in_int i /\
  ~ (0 <= i <= zlen s) /\ forall junk, s_extract junk s i None <> Raise Subscript.
Proof.
  exists [97], (- two62). unfold in_int, two62. split; [change (zlen [97]) with 1; unfold maxSize; lia|]. split; [lia|]. split; [change (zlen [97]) with 1; lia|]. intros junk. vm_compute. discriminate.
Qed.
Theorem C33_span : forall ss ss', valid ss -> valid ss' ->
  (start ss <= stop ss' -> base ss = base ss' -> exists r, span ss ss' = Ret r /\ valid r /\ base r = base ss /\ start r = start ss /\ stop r = stop ss') /\
  (~ (start ss <= stop ss' /\ base ss = base ss') -> span ss ss' = Raise SpanExn).
Proof.
  intros [[s i] n] [[s' i'] n'] V V'. unfold base, start, stop, span. cbn [fst snd]. rewrite Z.gtb_ltb. split.
  - intros H ->. destruct (Z.ltb_spec (i' + n') i); [lia|]. destruct (list_eq_dec Z.eq_dec s' s') as [_|N]; [|congruence]. cbn [orb negb]. eexists. split; [reflexivity|]. cbn [fst snd valid] in *. repeat split; lia.
  - intros H. destruct (Z.ltb_spec (i' + n') i); [reflexivity|]. cbn [orb]. destruct (list_eq_dec Z.eq_dec s s') as [->|N]; [|reflexivity]. destruct H. split; [lia|reflexivity].
Qed.
Theorem C33_getc : forall ss, valid ss ->
  match text ss with
  | [] => getc ss = Ret None /\ first ss = Ret None /\ isEmpty ss = true
  | c :: t => exists ss', getc ss = Ret (Some (c, ss')) /\ first ss = Ret (Some c) /\ isEmpty ss = false /\ inside ss ss' /\ stop ss' = stop ss /\ text ss' = t
  end.
Proof.
  intros [[s i] n] V. destruct (valid_split _ _ _ V) as (pre & post & E & Ei & En). pose proof (text_suf s i n 1 V) as TS. set (t := text (s, i, n)) in *. clearbody t. subst s i n.
  unfold getc, first, isEmpty. cbn [len_of]. destruct t as [|c t]; [now repeat split|]. rewrite zlen_cons in *. pose proof (zlen_nonneg t).
  destruct (Z.eqb_spec (1 + zlen t) 0); [lia|]. rewrite <- app_comm_cons, sub_mid by reflexivity. cbn [bind].
  destruct (TS ltac:(lia)) as (V' & T'). eexists. repeat (split; [reflexivity|]). split; [|split; [unfold stop; cbn [fst snd]; lia|exact T']].
  split; [exact V'|]. unfold start, stop. cbn [fst snd]. split; [reflexivity|]. lia.
Qed.

(** ** Building strings.  blit_string copies a number of bytes cut to 32 bits (C43_blit_string_refuted),
    so the pieces copied at once must be shorter than 2^31 = lim. *)
Theorem C33_string_partial : forall junk ss, valid ss -> zlen (text ss) < lim -> string junk ss = Ret (text ss).
Proof. intros junk ss V H. apply string_ok; [assumption|]. now rewrite <- len_text. Qed.
Lemma blit_4G (s d : list Z) : zlen s = 4294967296 -> zlen d = 4294967296 -> blit_ s 0 d 0 4294967296 = Ret d.
Proof.
  intros H1 H2. unfold blit_, blit_string. change (to_int32 4294967296) with 0.
  change (deref [s; d] 0) with (Ret s). change (deref [s; d] 1) with (Ret d). cbn [bind]. change (@zlen byte) with (@zlen Z). rewrite H1, H2. reflexivity.
Qed.
Theorem C33_string_refuted : exists ss, valid ss /\ zlen (base ss) <= maxSize /\ exists junk, string junk ss <> Ret (text ss).
Proof.
  assert (W : forall k (s : list Z), k = 4294967296 -> zlen s = k ->
    exists ss, valid ss /\ zlen (base ss) <= maxSize /\ exists junk, string junk ss <> Ret (text ss)).
  { intros k s Hk L. exists (s, 0, k). split; [cbn [valid]; lia|]. split; [cbn [base fst]; rewrite L, Hk; unfold maxSize; lia|].
    assert (T : text (s, 0, k) = s) by (rewrite <- L; apply text_full). rewrite T.
    destruct s as [|c s]; [rewrite zl_nil in L; lia|].
    exists (fun _ => c + 1). unfold string. rewrite Hk, blit_4G; [|congruence|apply zlen_create_Z; lia]. rewrite <- Hk.
    unfold create_. assert (K : exists m, Z.to_nat k = S m) by (exists (Z.to_nat (k - 1)); lia). destruct K as (m & ->).
    cbn [seq List.map]. intros Q. injection Q as Q _. lia. }
  apply (W 4294967296 (repeat 1 (Z.to_nat 4294967296)) eq_refl). rewrite zlen_repeat, Z2Nat.id; [reflexivity|lia].
Qed.
(** pieces are joined; a total beyond maxSize is refused *)
Theorem C33_translate_partial : forall junk f ss, valid ss -> (forall c, In c (text ss) -> zlen (f c) < lim) ->
  joined (List.map f (text ss)) (translate junk f ss).
Proof.
  intros junk f ss V H. unfold translate. destruct (C33_folds _ (fun '(c, res) => f c :: res) [] ss V) as (-> & _ & _). cbn [bind].
  assert (E : fold_left (fun a c => f c :: a) (text ss) [] = rev (List.map f (text ss))).
  { rewrite <- fold_left_rev_right. rewrite <- map_rev. induction (rev (text ss)); [reflexivity|]. cbn [fold_right List.map]. now f_equal. }
  rewrite E. rewrite <- (rev_involutive (List.map f (text ss))) at 1. apply revconcat_ok. apply Forall_forall. intros x Hx. apply in_rev in Hx. apply in_map_iff in Hx as (c & <- & Hc). auto.
Qed.
Theorem C33_concat_partial : forall junk sss strs, Forall valid sss -> Forall (fun ss => zlen (text ss) < lim) sss -> Forall (fun s => zlen s < lim) strs ->
  joined (List.map text sss) (concat junk sss) /\ joined strs (s_concat junk strs).
Proof. intros junk sss strs V S S'. split; [apply concat_ok; [assumption|]; unfold small_strs; now apply Forall_map|now apply s_concat_ok]. Qed.
Theorem C33_concatWith_partial : forall junk sep ss sss, zlen sep < lim -> Forall valid (ss :: sss) -> Forall (fun ss => zlen (text ss) < lim) (ss :: sss) ->
  joined (text ss :: List.map (fun t => sep ++ text t) sss) (concatWith junk sep (ss :: sss)) /\ concatWith junk sep [] = Ret [].
Proof.
  intros junk sep ss sss H V S. split; [|reflexivity]. pose proof (concatWith_ok junk sep ss sss H V ltac:(unfold small_strs; now apply Forall_map)) as J. unfold with_sep in J. now rewrite map_map in J.
Qed.
Theorem C33_implode : forall junk cs, implode junk cs = if zlen cs <=? maxSize then Ret cs else Raise Size.
Proof. exact implode_ok. Qed.
Theorem C33_map : forall junk f s, s_map junk f s = Ret (List.map f s).
Proof.
  intros junk f s. unfold s_map. apply (map_lr_ok f s []); [reflexivity|reflexivity| |rewrite loop_zlen; lia]. apply zlen_create_Z, zlen_nonneg.
Qed.
Theorem C33_find : forall p s, exists r, s_find p s = Ret r /\
  match r with
  | Some i => exists a c b, s = a ++ c :: b /\ zlen a = i /\ p c = true /\ forall d, In d a -> p d = false
  | None => forall d, In d s -> p d = false
  end.
Proof.
  intros p s. eexists. split; [apply (find_h_ok p s []); [reflexivity|reflexivity|rewrite loop_zlen; lia]|]. set (q := fun c => negb (p c)).
  pose proof (tw_longest q s) as (H1 & H2). pose proof (tw_dw q s) as E. destruct (dw q s) as [|c b].
  - intros d Hd. rewrite E, app_nil_r in Hd. apply H1 in Hd. unfold q in Hd. now destruct (p d).
  - exists (tw q s), c, b. split; [exact E|]. split; [reflexivity|]. split; [specialize (H2 c b eq_refl); unfold q in H2; now destruct (p c)|].
    intros d Hd. apply H1 in Hd. unfold q in Hd. now destruct (p d).
Qed.
Theorem C33_string_sub : forall s i, s_sub s i = match zget s i with Some c => Ret c | None => Raise Subscript end.
Proof.
  intros s i. unfold s_sub. rewrite Z.geb_leb. destruct (Z.ltb_spec i 0); [now rewrite zget_none by lia|]. destruct (Z.leb_spec (zlen s) i); [now rewrite zget_none by lia|]. cbn [orb].
  destruct (zget_some s i ltac:(lia)) as (c & G). unfold sub_raw. now rewrite G.
Qed.
Theorem C33_string_substring_partial : forall junk s i n, zlen s <= maxSize -> in_int i -> in_int n -> n < lim ->
  s_substring junk s i n = if (0 <=? i) && (0 <=? n) && (i + n <=? zlen s) then Ret (firstn (Z.to_nat n) (skipn (Z.to_nat i) s)) else Raise Subscript.
Proof.
  intros junk s i n Hs Hi Hn Hl. pose proof (zlen_nonneg s). unfold s_substring, s_extract. cbn [bind]. unfold in_int, maxSize, two62 in *.
  destruct (Z.ltb_spec i 0); [destruct (Z.leb_spec 0 i); [lia|reflexivity]|]. destruct (Z.leb_spec 0 i); [|lia].
  destruct (Z.ltb_spec n 0); [destruct (Z.leb_spec 0 n); [lia|reflexivity]|]. destruct (Z.leb_spec 0 n); [|lia]. cbn [andb].
  rewrite isub_small by (unfold two62; lia). cbn [bind]. rewrite Z.gtb_ltb. destruct (Z.ltb_spec (zlen s - i) n); destruct (Z.leb_spec (i + n) (zlen s)); try lia; [reflexivity|].
  apply (string_ok junk (s, i, n)); [cbn [valid]; lia|exact Hl].
Qed.
Lemma mapM_substring junk s l : zlen s < lim -> Forall (inside (s, 0, zlen s)) l -> mapM (fun '(s, i, n) => s_substring junk s i n) l = Ret (List.map text l).
Proof.
  intros Hs. unfold lim in Hs. induction 1 as [|[[s' i] n] l (V & B & S1 & S2) _ IH]; [reflexivity|]. cbn [mapM List.map]. unfold start, stop, base in *. cbn [fst snd] in *. subst s'. destruct V as (V1 & V2 & V3).
  rewrite C33_string_substring_partial by (unfold in_int, maxSize, two62, lim; lia). destruct (Z.leb_spec 0 i); [|lia]. destruct (Z.leb_spec 0 n); [|lia]. destruct (Z.leb_spec (i + n) (zlen s)); [|lia]. cbn [andb bind]. rewrite IH. reflexivity.
Qed.
(** String.tokens and String.fields *)
Theorem C33_string_tokens_partial : forall junk p s, zlen s < lim ->
  exists ts fs, s_tokens junk p s = Ret ts /\ tokens_of p s ts /\ s_fields junk p s = Ret fs /\ fields_of p s fs.
Proof.
  intros junk p s H. destruct (C33_tokens p (s, 0, zlen s) (valid_full s)) as (l & R1 & R2 & R3). destruct (C33_fields p (s, 0, zlen s) (valid_full s)) as (l' & Q1 & Q2 & Q3).
  rewrite text_full in *. exists (List.map text l), (List.map text l'). unfold s_tokens, s_fields. rewrite R1, Q1. cbn [bind]. rewrite (mapM_substring junk s l H R2), (mapM_substring junk s l' H Q2). auto.
Qed.
(** String.foldl, foldr, explode (whole strings) *)
Theorem C33_string_folds : forall B (f : Z * B -> B) e s,
  s_foldl f e s = Ret (fold_left (fun a c => f (c, a)) s e) /\ s_foldr f e s = Ret (fold_right (fun c a => f (c, a)) e s) /\ s_explode s = Ret s.
Proof.
  intros B f e s. destruct (C33_folds B f e (s, 0, zlen s) (valid_full s)) as (A1 & A2 & A3). rewrite text_full in *. auto.
Qed.
(** StringCvt.padLeft, padRight *)
Theorem C33_pad_partial : forall junk c n s, zlen s < lim -> n <= maxSize ->
  padLeft junk c n s = Ret (repeat c (Z.to_nat (n - zlen s)) ++ s) /\ padRight junk c n s = Ret (s ++ repeat c (Z.to_nat (n - zlen s))).
Proof.
  intros junk c n s Hs Hn. unfold padLeft, padRight. pose proof (zlen_nonneg s). destruct (Z.leb_spec n (zlen s)) as [G|G].
  - replace (Z.to_nat (n - zlen s)) with O by lia. cbn [repeat app]. now rewrite app_nil_r.
  - assert (Zc : @zlen Z (create_ junk n) = n) by (apply zlen_create_Z; lia). split.
    + destruct (@cut_at Z (create_ junk n) (n - zlen s) (zlen s)) as (x & y & E & Lx & Ly); try lia. rewrite E.
      rewrite (fill_ok c (Z.to_nat (n - zlen s)) [] x y); [|lia|unfold zlen in *; lia|reflexivity|unfold loop; lia]. cbn [bind app].
      rewrite (blit_into s 0 (zlen s) _ (repeat c (Z.to_nat (n - zlen s))) y []); [now rewrite app_nil_r, text_full|apply valid_full|assumption|now rewrite app_nil_r|assumption|].
      rewrite zlen_repeat. lia.
    + destruct (@cut_at Z (create_ junk n) (zlen s) (n - zlen s)) as (x & y & E & Lx & Ly); try lia. rewrite E.
      rewrite (blit_into s 0 (zlen s) _ [] x y); [|apply valid_full|assumption|reflexivity|assumption|reflexivity]. cbn [bind app]. rewrite text_full.
      rewrite <- (app_nil_r y). rewrite (fill_ok c (Z.to_nat (n - zlen s)) s y []); [now rewrite app_nil_r|lia|unfold zlen in *; lia|reflexivity|unfold loop; lia].
Qed.

(** ** Concrete cases *)
(** " a,b,,c " *)
Definition demo : list Z := [32; 97; 44; 98; 44; 44; 99; 32].
Definition comma (c : Z) : bool := c =? 44.
Example C33_ex_valid : valid (demo, 1, 6). Proof. vm_compute. intuition discriminate. Qed.
Example C33_ex_text : text (demo, 1, 6) = [97; 44; 98; 44; 44; 99]. Proof. reflexivity. Qed.
Example C33_ex_fields : fields comma (demo, 1, 6) = Ret [(demo, 1, 1); (demo, 3, 1); (demo, 5, 0); (demo, 6, 1)]. Proof. reflexivity. Qed.
Example C33_ex_tokens : tokens comma (demo, 1, 6) = Ret [(demo, 1, 1); (demo, 3, 1); (demo, 6, 1)]. Proof. reflexivity. Qed.
Example C33_ex_splitl : splitl (fun c => negb (comma c)) (demo, 1, 6) = Ret ((demo, 1, 1), (demo, 2, 5)). Proof. reflexivity. Qed.
Example C33_ex_splitr : splitr (fun c => negb (comma c)) (demo, 1, 6) = Ret ((demo, 1, 5), (demo, 6, 1)). Proof. reflexivity. Qed.
Example C33_ex_position : position [44; 44] (demo, 1, 6) = Ret ((demo, 1, 3), (demo, 4, 3)). Proof. reflexivity. Qed.
Example C33_ex_translate : translate (fun _ => 0) (fun c => if comma c then [59; 59] else [c]) (demo, 1, 6) = Ret [97; 59; 59; 98; 59; 59; 59; 59; 99]. Proof. reflexivity. Qed.
Example C33_ex_collate : compare (demo, 1, 3) (demo, 1, 2) = Ret Gt. Proof. reflexivity. Qed.
Example C33_ex_span : span (demo, 1, 2) (demo, 5, 1) = Ret (demo, 1, 5). Proof. reflexivity. Qed.
Example C33_ex_concatWith : concatWith (fun _ => 0) [45] [(demo, 1, 1); (demo, 3, 1)] = Ret [97; 45; 98]. Proof. reflexivity. Qed.
Example C33_ex_pad : padLeft (fun _ => 0) 42 5 [97; 98] = Ret [42; 42; 42; 97; 98]. Proof. reflexivity. Qed.

Print Assumptions C33_splitl.
Print Assumptions C33_splitr.
Print Assumptions C33_fields.
Print Assumptions C33_tokens.
Print Assumptions C33_fields_unique.
Print Assumptions C33_tokens_unique.
Print Assumptions C33_folds.
Print Assumptions C33_position.
Print Assumptions C33_tests.
Print Assumptions C33_collate.
Print Assumptions C33_lex_equal.
Print Assumptions C33_lex_less.
Print Assumptions C33_extract.
Print Assumptions C33_sub.
Print Assumptions C33_trim.
Print Assumptions C33_splitAt.
Print Assumptions C33_slice_partial.
Print Assumptions C33_slice_subscript_refuted.
Print Assumptions C33_string_extract_subscript_refuted.
Print Assumptions C33_span.
Print Assumptions C33_getc.
Print Assumptions C33_string_partial.
Print Assumptions C33_string_refuted.
Print Assumptions C33_translate_partial.
Print Assumptions C33_concat_partial.
Print Assumptions C33_concatWith_partial.
Print Assumptions C33_implode.
Print Assumptions C33_map.
Print Assumptions C33_find.
Print Assumptions C33_string_sub.
Print Assumptions C33_string_substring_partial.
Print Assumptions C33_string_tokens_partial.
Print Assumptions C33_string_folds.
Print Assumptions C33_pad_partial.
