(** Building strings (concat, translate, implode, map, padding) and splitting into fields and tokens. *)
From Verif Require Import Base ArrayLib Copy_Model Copy_Proofs Copy_Props Buffer_Model Buffer_Props Substring_Model Substring_Spec Substring_Proofs.

Lemma len_text ss : valid ss -> zlen (text ss) = len_of ss.
Proof. destruct ss as [[s i] n]. intros V. destruct (valid_split _ _ _ V) as (_ & _ & _ & _ & H). cbn [len_of]. now rewrite H at 2. Qed.
Lemma blit_lists_Z (src dst : list Z) o1 o2 n : 0 <= o1 -> 0 <= o2 -> 0 <= n < 2147483648 -> o1 + n <= zlen src -> o2 + n <= zlen dst ->
  blit_ src o1 dst o2 n = Ret (splice src o1 dst o2 n).
Proof. apply blit_lists. Qed.
Lemma blit_into (s : list Z) i n (newstr d x r : list Z) to : valid (s, i, n) -> n < lim -> newstr = d ++ x ++ r -> zlen x = n -> to = zlen d ->
  blit_ s i newstr to n = Ret (d ++ text (s, i, n) ++ r).
Proof.
  intros V Hn -> Lx ->. destruct V as (V1 & V2 & V3). pose proof (zlen_nonneg d). pose proof (zlen_nonneg r). unfold lim in Hn.
  rewrite blit_lists_Z by (rewrite ?zlen_app; lia). unfold splice. f_equal. cbn [text].
  rewrite to_nat_zlen, firstn_exact. f_equal. f_equal. replace (Z.to_nat (zlen d + n)) with (length (d ++ x)) by (rewrite app_length; unfold zlen in *; lia).
  rewrite app_assoc. apply skipn_exact.
Qed.
Lemma cut_at {A} (r : list A) n m : 0 <= n -> zlen r = n + m -> 0 <= m -> exists x y, r = x ++ y /\ zlen x = n /\ zlen y = m.
Proof.
  intros H1 H2 H3. exists (firstn (Z.to_nat n) r), (skipn (Z.to_nat n) r). split; [symmetry; apply firstn_skipn|].
  unfold zlen in *. rewrite firstn_length, skipn_length. lia.
Qed.
Lemma total_cons t ts : total (t :: ts) = zlen t + total ts.
Proof. unfold total. cbn [List.concat]. apply zlen_app. Qed.
Lemma total_nonneg ts : 0 <= total ts.
Proof. apply zlen_nonneg. Qed.
Lemma iadd_cases x y : 0 <= x -> 0 <= y -> (x + y < two62 -> iadd x y = Ret (x + y)) /\ (two62 <= x + y -> iadd x y = Raise Overflow).
Proof.
  intros Hx Hy. unfold iadd. split; intros H.
  - assert (I : in_int (x + y)) by (unfold in_int; lia). apply in_intb_spec in I. now rewrite I.
  - destruct (in_intb (x + y)) eqn:E; [|reflexivity]. apply in_intb_spec in E. unfold in_int in E. lia.
Qed.
Lemma acc_size_ok ts : forall len, 0 <= len < two62 ->
  (len + total ts < two62 -> acc_size ts len = Ret (len + total ts)) /\ (two62 <= len + total ts -> acc_size ts len = Raise Overflow).
Proof.
  induction ts as [|t ts IH]; intros len H; cbn [acc_size].
  - unfold total. cbn [List.concat]. rewrite zl_nil, Z.add_0_r. split; [reflexivity|lia].
  - rewrite total_cons. pose proof (total_nonneg ts). pose proof (zlen_nonneg t). destruct (iadd_cases (zlen t) len) as (I1 & I2); [lia..|].
    destruct (Z.ltb_spec (zlen t + len) two62).
    + rewrite I1 by lia. cbn [bind]. destruct (IH (zlen t + len) ltac:(lia)) as (A & B). split; intros G.
      * rewrite A by lia. f_equal. lia.
      * apply B. lia.
    + rewrite I2 by lia. split; [lia|reflexivity].
Qed.
Lemma acc_len_ok ts : Forall valid ts -> forall len, 0 <= len < two62 ->
  (len + total (List.map text ts) < two62 -> acc_len ts len = Ret (len + total (List.map text ts))) /\
  (two62 <= len + total (List.map text ts) -> acc_len ts len = Raise Overflow).
Proof.
  induction 1 as [|t ts V _ IH]; intros len H; cbn [acc_len List.map].
  - unfold total. cbn [List.concat]. rewrite zl_nil, Z.add_0_r. split; [reflexivity|lia].
  - rewrite total_cons, (len_text _ V). pose proof (total_nonneg (List.map text ts)). pose proof (zlen_nonneg (text t)) as N. rewrite (len_text _ V) in N.
    destruct (iadd_cases (len_of t) len) as (I1 & I2); [lia..|].
    destruct (Z.ltb_spec (len_of t + len) two62).
    + rewrite I1 by lia. cbn [bind]. destruct (IH (len_of t + len) ltac:(lia)) as (A & B). split; intros G.
      * rewrite A by lia. f_equal. lia.
      * apply B. lia.
    + rewrite I2 by lia. split; [lia|reflexivity].
Qed.
(** what is appended for each substring of concatWith *)
Definition with_sep (sep : list Z) (ts : list (list Z)) : list (list Z) := List.map (fun t => sep ++ t) ts.
Lemma acc_len_sep_ok sep ts : zlen sep < two62 -> Forall valid ts -> forall len, 0 <= len < two62 ->
  (len + total (with_sep sep (List.map text ts)) < two62 -> acc_len_sep (zlen sep) ts len = Ret (len + total (with_sep sep (List.map text ts)))) /\
  (two62 <= len + total (with_sep sep (List.map text ts)) -> acc_len_sep (zlen sep) ts len = Raise Overflow).
Proof.
  intros Hs F. pose proof (zlen_nonneg sep). induction F as [|t ts V _ IH]; intros len H0; cbn [acc_len_sep List.map with_sep].
  - unfold total. cbn [List.concat]. rewrite zl_nil, Z.add_0_r. split; [reflexivity|lia].
  - fold (with_sep sep (List.map text ts)). rewrite total_cons, zlen_app, (len_text _ V). pose proof (total_nonneg (with_sep sep (List.map text ts))).
    pose proof (zlen_nonneg (text t)) as N. rewrite (len_text _ V) in N.
    destruct (iadd_cases (len_of t) (zlen sep)) as (I1 & I2); [lia..|].
    destruct (Z.ltb_spec (len_of t + zlen sep) two62).
    + rewrite I1 by lia. cbn [bind]. destruct (iadd_cases (len_of t + zlen sep) len) as (J1 & J2); [lia..|].
      destruct (Z.ltb_spec (len_of t + zlen sep + len) two62).
      * rewrite J1 by lia. cbn [bind]. destruct (IH (len_of t + zlen sep + len) ltac:(lia)) as (A & B). split; intros G.
        -- rewrite A by lia. f_equal. lia.
        -- apply B. lia.
      * rewrite J2 by lia. split; [lia|reflexivity].
    + rewrite I2 by lia. split; [lia|reflexivity].
Qed.

Definition small_strs (ts : list (list Z)) : Prop := Forall (fun t => zlen t < lim) ts.
Lemma valid_full t : valid (t, 0, zlen t).
Proof. cbn. pose proof (zlen_nonneg t). lia. Qed.
Lemma text_full t : text (t, 0, zlen t) = t.
Proof. rewrite <- (app_nil_r t) at 1. apply (text_at [] t []); reflexivity. Qed.
Lemma copyall_ok ts : Forall valid ts -> small_strs (List.map text ts) -> forall d r to, to = zlen d -> zlen r = total (List.map text ts) ->
  copyall (d ++ r) to ts = Ret (d ++ List.concat (List.map text ts)).
Proof.
  induction 1 as [|[[s i] n] ts V _ IH]; intros S d r to -> Hr; cbn [copyall List.map List.concat].
  - unfold total in Hr. cbn [List.map List.concat] in Hr. destruct r; [reflexivity|]. rewrite zlen_cons, zl_nil in Hr. pose proof (zlen_nonneg r). lia.
  - cbn [List.map] in Hr, S. apply Forall_cons_iff in S as (S1 & S2). rewrite total_cons in Hr. pose proof (total_nonneg (List.map text ts)).
    assert (L : zlen (text (s, i, n)) = n) by (apply (len_text _ V)). rewrite L in *. destruct V as (V1 & V2 & V3).
    destruct (cut_at r n (total (List.map text ts))) as (x & y & -> & Lx & Ly); try lia.
    rewrite (blit_into s i n _ d x y) by (auto; try lia; now split). cbn [bind].
    rewrite app_assoc, IH; [now rewrite <- app_assoc|assumption|rewrite zlen_app; lia|assumption].
Qed.
Lemma copyall_sep_ok sep ts : zlen sep < lim -> Forall valid ts -> small_strs (List.map text ts) ->
  forall d r to, to = zlen d -> zlen r = total (with_sep sep (List.map text ts)) ->
  copyall_sep sep (d ++ r) to ts = Ret (d ++ List.concat (with_sep sep (List.map text ts))).
Proof.
  intros Hsep. induction 1 as [|[[s i] n] ts V _ IH]; intros S d r to -> Hr; cbn [copyall_sep List.map with_sep List.concat].
  - unfold total in Hr. cbn [List.map with_sep List.concat] in Hr. destruct r; [reflexivity|]. rewrite zlen_cons, zl_nil in Hr. pose proof (zlen_nonneg r). lia.
  - fold (with_sep sep (List.map text ts)). cbn [List.map with_sep] in Hr. fold (with_sep sep (List.map text ts)) in Hr. cbn [List.map] in S.
    apply Forall_cons_iff in S as (S1 & S2). rewrite total_cons, zlen_app in Hr. pose proof (total_nonneg (with_sep sep (List.map text ts))).
    assert (L : zlen (text (s, i, n)) = n) by (apply (len_text _ V)). rewrite L in *. pose proof V as (V1 & V2 & V3). pose proof (zlen_nonneg sep).
    destruct (cut_at r (zlen sep) (n + total (with_sep sep (List.map text ts)))) as (x & y & -> & Lx & Ly); try lia.
    destruct (cut_at y n (total (with_sep sep (List.map text ts)))) as (x' & y' & -> & Lx' & Ly'); try lia.
    rewrite (blit_into sep 0 (zlen sep) _ d x (x' ++ y')); [|apply valid_full|lia|reflexivity|assumption|reflexivity]. cbn [bind]. rewrite text_full.
    rewrite (blit_into s i n _ (d ++ sep) x' y'); [|assumption|lia|now rewrite <- app_assoc|assumption|rewrite zlen_app; lia]. cbn [bind].
    rewrite app_assoc, IH; [now rewrite <- !app_assoc|assumption|rewrite !zlen_app; lia|assumption].
Qed.
Lemma s_copyall_copyall ts : forall newstr to, s_copyall newstr to ts = copyall newstr to (List.map (fun t => (t, 0, zlen t)) ts).
Proof. induction ts as [|t ts IH]; intros newstr to; [reflexivity|]. cbn [s_copyall copyall List.map]. destruct (blit_ t 0 newstr to (zlen t)); cbn [bind]; auto. Qed.
Lemma map_text_full ts : List.map text (List.map (fun t => (t, 0, zlen t)) ts) = ts.
Proof. induction ts as [|t ts IH]; [reflexivity|]. cbn [List.map]. now rewrite text_full, IH. Qed.
Lemma valid_fulls ts : Forall valid (List.map (fun t => (t, 0, zlen t)) ts).
Proof. induction ts as [|t ts IH]; constructor; [apply valid_full|assumption]. Qed.
Lemma copyall_down_ok ts : small_strs ts -> forall l r to, zlen l = total ts -> to = zlen l ->
  copyall_down (l ++ r) to ts = Ret (List.concat (rev ts) ++ r).
Proof.
  induction 1 as [|t ts S1 S2 IH]; intros l r to Hl ->; cbn [copyall_down rev].
  - unfold total in Hl. cbn [List.concat] in Hl. destruct l; [reflexivity|]. rewrite zlen_cons, zl_nil in Hl. pose proof (zlen_nonneg l). lia.
  - rewrite total_cons in Hl. pose proof (total_nonneg ts). pose proof (zlen_nonneg t).
    destruct (cut_at l (total ts) (zlen t)) as (x & y & -> & Lx & Ly); try lia.
    rewrite (blit_into t 0 (zlen t) _ x y r); [|apply valid_full|exact S1|now rewrite <- app_assoc|assumption|rewrite zlen_app; lia]. cbn [bind]. rewrite text_full.
    rewrite IH; [|assumption|rewrite zlen_app; lia]. rewrite concat_app. cbn [List.concat]. now rewrite app_nil_r, <- app_assoc.
Qed.
Lemma total_rev ts : total (rev ts) = total ts.
Proof.
  induction ts as [|t ts IH]; [reflexivity|]. cbn [rev]. unfold total in *. rewrite concat_app, zlen_app. cbn [List.concat]. rewrite app_nil_r, zlen_app. lia.
Qed.

Lemma joined_intro ts (m : outcome Z) (k : Z -> outcome (list Z)) : (total ts < two62 -> m = Ret (total ts)) -> (two62 <= total ts -> m = Raise Overflow) ->
  (total ts <= maxSize -> k (total ts) = Ret (List.concat ts)) -> joined ts (do len <- m; if len >? maxSize then Raise Size else k len).
Proof.
  intros H1 H2 H3. unfold joined, maxSize, two62 in *. repeat split; intros H.
  - rewrite H1 by lia. cbn [bind]. rewrite Z.gtb_ltb. destruct (Z.ltb_spec 144115188075855863 (total ts)); [lia|]. auto.
  - rewrite H1 by lia. cbn [bind]. rewrite Z.gtb_ltb. destruct (Z.ltb_spec 144115188075855863 (total ts)); [reflexivity|lia].
  - rewrite H2 by lia. reflexivity.
Qed.
Lemma zlen_create_Z junk n : 0 <= n -> @zlen Z (create_ junk n) = n.
Proof. apply zlen_create. Qed.
Lemma zc junk ts : @zlen Z (create_ junk (total ts)) = total ts.
Proof. apply zlen_create_Z, total_nonneg. Qed.
Lemma revconcat_ok junk ts : small_strs ts -> joined (rev ts) (revconcat junk ts).
Proof.
  intros S. destruct (acc_size_ok ts 0) as (A & B); [unfold two62; lia|]. rewrite Z.add_0_l in *. rewrite <- (total_rev ts) in *. apply joined_intro; auto.
  intros H. rewrite <- (app_nil_r (create_ _ _)). rewrite total_rev, copyall_down_ok; auto.
  - now rewrite app_nil_r.
  - apply zc.
  - symmetry. apply zc.
Qed.
Lemma concat_ok junk ts : Forall valid ts -> small_strs (List.map text ts) -> joined (List.map text ts) (concat junk ts).
Proof.
  intros V S. destruct (acc_len_ok ts V 0) as (A & B); [unfold two62; lia|]. rewrite Z.add_0_l in *. apply joined_intro; auto.
  intros H. apply (copyall_ok ts V S []); [reflexivity|]. apply zc.
Qed.
Lemma s_concat_ok junk ts : small_strs ts -> joined ts (s_concat junk ts).
Proof.
  intros S. destruct (acc_size_ok ts 0) as (A & B); [unfold two62; lia|]. rewrite Z.add_0_l in *. apply joined_intro; auto.
  intros H. rewrite s_copyall_copyall. rewrite <- (map_text_full ts) at 3. apply (copyall_ok _ (valid_fulls ts)) with (d := []); rewrite ?map_text_full; auto. apply zc.
Qed.
Lemma concatWith_ok junk sep t ts : zlen sep < lim -> Forall valid (t :: ts) -> small_strs (List.map text (t :: ts)) ->
  joined (text t :: with_sep sep (List.map text ts)) (concatWith junk sep (t :: ts)).
Proof.
  intros Hs V S. apply Forall_cons_iff in V as (V1 & V2). cbn [List.map] in S. apply Forall_cons_iff in S as (S1 & S2). cbn [concatWith]. destruct t as [[s i] n].
  assert (L : zlen (text (s, i, n)) = n) by (apply (len_text _ V1)). rewrite L in S1. pose proof V1 as (Q1 & Q2 & Q3). pose proof (total_nonneg (with_sep sep (List.map text ts))).
  destruct (acc_len_sep_ok sep ts ltac:(unfold lim, two62 in *; lia) V2 n) as (A & B); [unfold lim, two62 in *; lia|].
  assert (T : total (text (s, i, n) :: with_sep sep (List.map text ts)) = n + total (with_sep sep (List.map text ts))) by now rewrite total_cons, L.
  apply joined_intro; rewrite T; auto. intros H'.
  assert (Zc : zlen (create_ junk (n + total (with_sep sep (List.map text ts)))) = n + total (with_sep sep (List.map text ts))) by (apply zlen_create; lia).
  destruct (cut_at _ _ _ Q2 Zc ltac:(lia)) as (x & y & E & Lx & Ly). rewrite E.
  rewrite (blit_into s i n _ [] x y) by auto. cbn [bind app]. rewrite copyall_sep_ok; auto.
Qed.
Lemma string_ok junk ss : valid ss -> len_of ss < lim -> string junk ss = Ret (text ss).
Proof.
  destruct ss as [[s i] n]. intros V H. cbn [string len_of] in *. pose proof V as (V1 & V2 & V3).
  rewrite (blit_into s i n _ [] (create_ junk n) []); auto.
  - now rewrite app_nil_r.
  - now rewrite app_nil_r.
  - now apply zlen_create.
Qed.
Lemma update_mid {A} (d : list A) x y r i : i = zlen d -> update_raw (d ++ x :: r) i y = Ret (d ++ y :: r).
Proof.
  intros ->. unfold update_raw, zset. pose proof (zlen_nonneg d). rewrite zlen_app, zlen_cons. pose proof (zlen_nonneg r).
  destruct (Z.ltb_spec (zlen d) 0); [lia|]. destruct (Z.leb_spec (zlen d + (1 + zlen r)) (zlen d)); [lia|]. cbn [orb].
  rewrite to_nat_zlen. now rewrite (upd_middle d x r y _ eq_refl).
Qed.
Lemma init_ok cs : forall d r i, i = zlen d -> zlen r = zlen cs -> init (d ++ r) cs i = Ret (d ++ cs).
Proof.
  induction cs as [|c cs IH]; intros d r i -> Hr; cbn [init].
  - destruct r; [reflexivity|]. rewrite zlen_cons, zl_nil in Hr. pose proof (zlen_nonneg r). lia.
  - destruct r as [|x r]; [rewrite zlen_cons, zl_nil in Hr; pose proof (zlen_nonneg cs); lia|]. rewrite update_mid by reflexivity. cbn [bind].
    rewrite app_cons_assoc, IH; [now rewrite <- app_assoc|now rewrite zlen_snoc|rewrite !zlen_cons in Hr; lia].
Qed.
Lemma implode_ok junk cs : implode junk cs = if zlen cs <=? maxSize then Ret cs else Raise Size.
Proof.
  unfold implode. rewrite Z.gtb_ltb, Z.ltb_antisym. destruct (zlen cs <=? maxSize); [|reflexivity]. cbn [negb].
  apply (init_ok cs []); [reflexivity|]. apply zlen_create, zlen_nonneg.
Qed.
Lemma map_lr_ok f v : forall pre fuel r j e, j = zlen pre -> e = zlen pre + zlen v -> zlen r = zlen v -> (length v < fuel)%nat ->
  map_lr fuel f (pre ++ v) (List.map f pre ++ r) e j = Ret (List.map f (pre ++ v)).
Proof.
  induction v as [|c v IH]; intros pre [|fuel] r j e -> -> Hr Hf; cbn [length] in *; try lia; cbn [map_lr].
  - rewrite zl_nil, Z.add_0_r, Z.ltb_irrefl. destruct r; [now rewrite !app_nil_r|]. rewrite zlen_cons, zl_nil in Hr. pose proof (zlen_nonneg r). lia.
  - pose proof (zlen_nonneg v). rewrite zlen_cons in *. destruct (Z.ltb_spec (zlen pre) (zlen pre + (1 + zlen v))); [|lia].
    destruct r as [|x r]; [rewrite zl_nil in Hr; lia|]. rewrite zlen_cons in Hr.
    rewrite sub_mid by reflexivity. cbn [bind]. rewrite update_mid by (unfold zlen; now rewrite map_length). cbn [bind].
    rewrite (app_cons_assoc pre), (app_cons_assoc (List.map f pre)). change [f c] with (List.map f [c]). rewrite <- map_app.
    apply IH; rewrite ?zlen_snoc; lia.
Qed.
Lemma fill_ok c n : forall d x r fuel o k, Z.of_nat n = k -> length x = n -> o = zlen d -> (n < fuel)%nat ->
  fill_ fuel (d ++ x ++ r) o k c = Ret (d ++ repeat c n ++ r).
Proof.
  induction n as [|n IH]; intros d x r [|fuel] o k <- Lx -> Hf; try lia; cbn [fill_]; rewrite Z.gtb_ltb.
  - destruct (Z.ltb_spec 0 (Z.of_nat 0)); [lia|]. destruct x; [reflexivity|discriminate].
  - destruct (Z.ltb_spec 0 (Z.of_nat (S n))); [|lia]. destruct x as [|y x]; [discriminate|]. injection Lx as Lx. rewrite <- app_comm_cons, update_mid by reflexivity. cbn [bind].
    rewrite app_cons_assoc, IH; [cbn [repeat]; now rewrite <- app_assoc|lia|assumption|now rewrite zlen_snoc|lia].
Qed.

(** *** Fields and tokens *)
Lemma fields_of_cons p f d t fs : (forall c, In c f -> p c = false) -> p d = true -> fields_of p t fs -> fields_of p (f ++ d :: t) (f :: fs).
Proof.
  intros Hf Hd (H1 & seps & H2 & H3 & H4). split.
  - intros f' c [<-|H] Hc; eauto.
  - exists (d :: seps). split; [intros d' [<-|H]; auto|]. split; [cbn [length]; now rewrite H3|]. cbn [interleave]. now rewrite H4.
Qed.
Lemma fields_of_one p f : (forall c, In c f -> p c = false) -> fields_of p f [f].
Proof.
  intros Hf. split; [intros f' c [<-|[]] Hc; eauto|]. exists []. split; [intros d []|]. split; reflexivity.
Qed.
Lemma fields_of_unique p t fs fs' : fields_of p t fs -> fields_of p t fs' -> fs = fs'.
Proof.
  intros (H1 & seps & H2 & H3 & H4) (G1 & seps' & G2 & G3 & G4). subst t. revert fs' seps' H1 H2 H3 G1 G2 G3 G4. revert seps.
  induction fs as [|f fs IH]; intros seps fs' seps' H1 H2 H3 G1 G2 G3 G4; [discriminate|]. destruct fs' as [|f' fs']; [discriminate|].
  injection H3 as H3. injection G3 as G3.
  assert (Nf : forall c, In c f -> negb (p c) = true) by (intros c Hc; now rewrite (H1 f c (or_introl eq_refl) Hc)).
  assert (Nf' : forall c, In c f' -> negb (p c) = true) by (intros c Hc; now rewrite (G1 f' c (or_introl eq_refl) Hc)).
  assert (hd : forall d x, p d = true -> forall c y, d :: x = c :: y -> p c = true) by (intros; congruence).
  assert (nl : forall c y, @nil Z = c :: y -> p c = true) by discriminate.
  assert (U : forall b b', (forall c x, b = c :: x -> p c = true) -> (forall c x, b' = c :: x -> p c = true) -> f ++ b = f' ++ b' -> f = f' /\ b = b').
  { intros b b' Hb Hb' E. apply (longest_prefix_unique (fun c => negb (p c))); auto; (split; [assumption|]); intros c x Hx; [now rewrite (Hb _ _ Hx)|now rewrite (Hb' _ _ Hx)]. }
  destruct seps as [|d seps], seps' as [|d' seps']; cbn [interleave] in G4; (destruct fs as [|g fs]; cbn [length] in H3; try discriminate); (destruct fs' as [|g' fs']; cbn [length] in G3; try discriminate).
  - congruence.
  - exfalso. assert (E : f ++ [] = f' ++ d' :: interleave (g' :: fs') seps') by (rewrite app_nil_r; congruence).
    destruct (U [] _ nl (hd d' _ (G2 d' (or_introl eq_refl))) E). discriminate.
  - exfalso. assert (E : f ++ d :: interleave (g :: fs) seps = f' ++ []) by (rewrite app_nil_r; congruence).
    destruct (U _ [] (hd d _ (H2 d (or_introl eq_refl))) nl E). discriminate.
  - symmetry in G4. destruct (U _ _ (hd d _ (H2 d (or_introl eq_refl))) (hd d' _ (G2 d' (or_introl eq_refl))) G4) as (<- & E2).
    injection E2 as <- E2. f_equal. apply (IH seps (g' :: fs') seps'); auto.
    + intros f0 c H. apply H1. now right.
    + intros d0 H. apply H2. now right.
    + intros f0 c H. apply G1. now right.
    + intros d0 H. apply G2. now right.
Qed.
Lemma tokens_of_unique p t ts ts' : tokens_of p t ts -> tokens_of p t ts' -> ts = ts'.
Proof. intros (fs & H1 & ->) (fs' & H2 & ->). now rewrite (fields_of_unique _ _ _ _ H1 H2). Qed.
Lemma tokens_of_drop p ds t ts : (forall d, In d ds -> p d = true) -> tokens_of p t ts -> tokens_of p (ds ++ t) ts.
Proof.
  intros Hd H. induction ds as [|d ds IH]; [assumption|]. destruct IH as (fs & H1 & H2); [intros; apply Hd; now right|].
  exists ([] :: fs). split; [apply (fields_of_cons p []); auto; [intros c []|apply Hd; now left]|exact H2].
Qed.
Lemma tokens_of_token p v t ts : v <> [] -> (forall c, In c v -> p c = false) -> (forall c t', t = c :: t' -> p c = true) -> tokens_of p t ts -> tokens_of p (v ++ t) (v :: ts).
Proof.
  intros Nv Hv Ht (fs & H1 & ->). destruct t as [|d t].
  - rewrite (fields_of_unique p [] fs [[]] H1) by (apply fields_of_one; intros c []). rewrite app_nil_r. exists [v]. split; [now apply fields_of_one|].
    cbn. destruct v; [congruence|reflexivity].
  - pose proof (Ht d t eq_refl) as Pd. destruct H1 as (F1 & seps & F2 & F3 & F4). destruct fs as [|f fs]; [discriminate|].
    destruct seps as [|s seps].
    + cbn [interleave] in F4. exfalso. specialize (F1 f d (or_introl eq_refl)). rewrite F4 in F1. specialize (F1 (or_introl eq_refl)). congruence.
    + cbn [interleave] in F4. destruct f as [|c f].
      * injection F4 as -> F4. exists (v :: fs). split.
        -- apply fields_of_cons; auto. split; [intros f c Hf; apply F1; now right|]. exists seps. split; [intros; apply F2; now right|]. split; [now injection F3|assumption].
        -- cbn [filter nonempty]. destruct v; [congruence|reflexivity].
      * injection F4 as -> F4. exfalso. specialize (F1 (d :: f) d (or_introl eq_refl) (or_introl eq_refl)). congruence.
Qed.

Section Split.
Variable p : Z -> bool.
Let np := fun c => negb (p c).
Lemma splitl_at q pre t post i n : i = zlen pre -> n = zlen t ->
  splitl q (pre ++ t ++ post, i, n) = Ret ((pre ++ t ++ post, i, zlen (tw q t)), (pre ++ t ++ post, i + zlen (tw q t), zlen (dw q t))).
Proof.
  intros -> ->. unfold splitl, scanl. rewrite scanl_h_ok; [|reflexivity|reflexivity|rewrite loop_zlen; lia]. cbn [bind].
  assert (E : zlen t = zlen (tw q t) + zlen (dw q t)) by (rewrite <- zlen_app, <- tw_dw; reflexivity).
  replace (zlen pre + zlen (tw q t) - zlen pre) with (zlen (tw q t)) by lia. now replace (zlen t - zlen (tw q t)) with (zlen (dw q t)) by lia.
Qed.
Lemma dropl_at q pre t post i n : i = zlen pre -> n = zlen t ->
  dropl q (pre ++ t ++ post, i, n) = Ret (pre ++ t ++ post, i + zlen (tw q t), zlen (dw q t)).
Proof.
  intros -> ->. unfold dropl, scanl. rewrite scanl_h_ok; [|reflexivity|reflexivity|rewrite loop_zlen; lia]. cbn [bind].
  assert (E : zlen t = zlen (tw q t) + zlen (dw q t)) by (rewrite <- zlen_app, <- tw_dw; reflexivity).
  replace (zlen pre + zlen (tw q t) - zlen pre) with (zlen (tw q t)) by lia. now replace (zlen t - zlen (tw q t)) with (zlen (dw q t)) by lia.
Qed.
Lemma np_tw t c : In c (tw np t) -> p c = false.
Proof. intros H. apply (proj1 (tw_longest np t)) in H. unfold np in H. now destruct (p c). Qed.
Lemma np_dw t d t' : dw np t = d :: t' -> p d = true.
Proof. intros H. apply (proj2 (tw_longest np t)) in H. unfold np in H. now destruct (p d). Qed.
Lemma inside_at ss s i n a b : base ss = s -> valid (s, i, n) -> start ss <= i -> i + n <= stop ss -> a = i -> b = n -> inside ss (s, a, b).
Proof. intros <- V H1 H2 -> ->. split; [assumption|]. split; [reflexivity|]. now split. Qed.

Lemma fields_h_ok fuel : forall t pre post i n res ss, i = zlen pre -> n = zlen t -> (length t < fuel)%nat ->
  base ss = pre ++ t ++ post -> start ss <= i -> i + n <= stop ss ->
  exists l, fields_h fuel p (pre ++ t ++ post, i, n) res = Ret (rev res ++ l) /\ Forall (inside ss) l /\ fields_of p t (List.map text l).
Proof.
  induction fuel as [|fuel IH]; intros t pre post i n res ss -> -> Hf B S1 S2; [lia|]. cbn [fields_h].
  change (fun c => negb (p c)) with np. rewrite splitl_at by reflexivity. cbn [bind len_of].
  pose proof (zlen_nonneg pre). pose proof (zlen_nonneg (tw np t)). pose proof (zlen_nonneg (dw np t)).
  assert (E : zlen t = zlen (tw np t) + zlen (dw np t)) by (rewrite <- zlen_app, <- tw_dw; reflexivity).
  assert (V : valid (pre ++ t ++ post, zlen pre, zlen (tw np t))).
  { cbn [valid]. rewrite !zlen_app. pose proof (zlen_nonneg post). lia. }
  assert (T : text (pre ++ t ++ post, zlen pre, zlen (tw np t)) = tw np t).
  { rewrite (tw_dw np t) at 1. rewrite <- app_assoc. now apply text_at. }
  assert (I : inside ss (pre ++ t ++ post, zlen pre, zlen (tw np t))) by (eapply inside_at; eauto; lia).
  destruct (Z.eqb_spec (zlen (dw np t)) 0) as [Z0|Z0].
  - eexists. split; [cbn [rev]; reflexivity|]. split; [constructor; [assumption|constructor]|]. cbn [List.map]. rewrite T.
    assert (dw np t = []) as D by (destruct (dw np t) as [|d t']; [reflexivity|rewrite zlen_cons in Z0; pose proof (zlen_nonneg t'); lia]).
    pose proof (tw_dw np t) as X. rewrite D, app_nil_r in X. rewrite X at 1. apply fields_of_one. apply np_tw.
  - destruct (dw np t) as [|d t'] eqn:D; [now rewrite zl_nil in Z0|].
    cbn [rest]. rewrite zlen_cons in *. destruct (Z.eqb_spec (1 + zlen t') 0); [pose proof (zlen_nonneg t'); lia|].
    assert (X : t = tw np t ++ d :: t') by (rewrite <- D; apply tw_dw).
    assert (Y : pre ++ t ++ post = (pre ++ tw np t ++ [d]) ++ t' ++ post) by (rewrite X at 1; now rewrite <- !app_assoc).
    rewrite Y in *. edestruct (IH t' (pre ++ tw np t ++ [d]) post) with (ss := ss) as (l & R1 & R2 & R3);
      [reflexivity|reflexivity| |exact B|rewrite !zlen_app; change (zlen [d]) with 1; lia|rewrite !zlen_app; change (zlen [d]) with 1; lia|].
    { apply (f_equal (@length Z)) in X. rewrite app_length in X. cbn [length] in X. lia. }
    exists ((pre ++ t ++ post, zlen pre, zlen (tw np t)) :: l). rewrite Y. split; [|split].
    + replace (zlen pre + zlen (tw np t) + 1) with (zlen (pre ++ tw np t ++ [d])) by (rewrite !zlen_app; change (zlen [d]) with 1; lia).
      replace (1 + zlen t' - 1) with (zlen t') by lia. rewrite R1. cbn [rev]. now rewrite <- app_assoc.
    + constructor; assumption.
    + cbn [List.map]. rewrite T. rewrite X at 1. apply fields_of_cons; [apply np_tw|apply (np_dw t d t' D)|exact R3].
Qed.
Lemma tokens_h_ok fuel : forall t pre post i n res ss, i = zlen pre -> n = zlen t -> (length t < fuel)%nat ->
  base ss = pre ++ t ++ post -> start ss <= i -> i + n <= stop ss -> (forall c t', t = c :: t' -> p c = false) ->
  exists l, tokens_h fuel p (pre ++ t ++ post, i, n) res = Ret (rev res ++ l) /\ Forall (inside ss) l /\ tokens_of p t (List.map text l).
Proof.
  induction fuel as [|fuel IH]; intros t pre post i n res ss -> -> Hf B S1 S2 Nt; [lia|]. cbn [tokens_h len_of].
  pose proof (zlen_nonneg pre). pose proof (zlen_nonneg post).
  destruct (Z.eqb_spec (zlen t) 0) as [Z0|Z0].
  - destruct t as [|c t]; [|rewrite zlen_cons in Z0; pose proof (zlen_nonneg t); lia].
    exists []. split; [now rewrite app_nil_r|]. split; [constructor|]. exists [[]]. split; [apply fields_of_one; intros c []|reflexivity].
  - change (fun c => negb (p c)) with np. rewrite splitl_at by reflexivity. cbn [bind]. set (v := tw np t). set (u := dw np t).
    assert (X : t = v ++ u) by apply tw_dw. rewrite X.
    assert (Y : pre ++ (v ++ u) ++ post = (pre ++ v) ++ u ++ post) by now rewrite <- !app_assoc. rewrite Y.
    rewrite (dropl_at p (pre ++ v) u post) by (rewrite ?zlen_app; reflexivity). cbn [bind].
    assert (Xu : u = tw p u ++ dw p u) by apply tw_dw.
    assert (Nv : v <> []).
    { unfold v. destruct t as [|c t]; [now rewrite zl_nil in Z0|]. cbn [tw]. unfold np. rewrite (Nt c t eq_refl). discriminate. }
    assert (Yu : (pre ++ v) ++ u ++ post = (pre ++ v ++ tw p u) ++ dw p u ++ post) by (rewrite Xu at 1; now rewrite <- !app_assoc). rewrite Yu.
    assert (L1 : zlen t = zlen v + zlen u) by (rewrite X; apply zlen_app).
    assert (L2 : zlen u = zlen (tw p u) + zlen (dw p u)) by (rewrite Xu at 1; apply zlen_app).
    pose proof (zlen_nonneg v). pose proof (zlen_nonneg (tw p u)). pose proof (zlen_nonneg (dw p u)).
    assert (N1 : 1 <= zlen v) by (destruct v as [|c0 v0]; [congruence|]; rewrite zlen_cons; pose proof (zlen_nonneg v0); lia).
    assert (B' : base ss = (pre ++ v ++ tw p u) ++ dw p u ++ post) by (rewrite B, X, Y; exact Yu).
    destruct (IH (dw p u) (pre ++ v ++ tw p u) post (zlen pre + zlen v + zlen (tw p u)) (zlen (dw p u)) (((pre ++ v ++ tw p u) ++ dw p u ++ post, zlen pre, zlen v) :: res) ss) as (l & R1 & R2 & R3);
      [rewrite !zlen_app; lia|reflexivity|unfold zlen in *; lia|exact B'|lia|lia| |].
    { intros c t' Hc. apply (proj2 (tw_longest p u) _ _ Hc). }
    exists (((pre ++ v ++ tw p u) ++ dw p u ++ post, zlen pre, zlen v) :: l). split; [|split].
    + etransitivity; [exact R1|]. cbn [rev]. now rewrite <- app_assoc.
    + constructor; [|assumption]. split; [|split; [now symmetry|unfold start, stop in *; cbn [fst snd] in *; lia]].
      rewrite <- Yu, <- app_assoc. now apply valid_at.
    + cbn [List.map]. rewrite <- Yu, <- app_assoc. rewrite text_at by reflexivity. apply tokens_of_token.
      * assumption.
      * apply np_tw.
      * intros c t' Hc. exact (np_dw t c t' Hc).
      * rewrite Xu. apply tokens_of_drop; [|assumption]. intros d Hd. apply (proj1 (tw_longest p u)). exact Hd.
Qed.
End Split.
