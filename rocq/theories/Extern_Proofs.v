(** Proofs about emission: what extern_block holds at the end. *)
From Verif Require Import Base ArrayLib Mem Extern_Model Extern_Spec Extern_Tab.

Lemma Tag_Make sz tag c : 0 <= tag < 256 -> In c [0; 256; 512; 768] -> Tag_hd (Make_header sz tag c) = tag.
Proof. intros H C. unfold Tag_hd, Make_header. cbn in C. lia. Qed.
Lemma Wosize_Make sz tag c : 0 <= tag < 256 -> In c [0; 256; 512; 768] -> Wosize_hd (Make_header sz tag c) = sz.
Proof. intros H C. unfold Wosize_hd, Make_header. cbn in C. lia. Qed.
Lemma Black_in : In Black [0; 256; 512; 768].
Proof. unfold Black. cbn. auto. Qed.

Section G.
Variable m : memory.
Definition hd_of (a : Z) : Z := match m (a - 8) with Some hd => hd | None => 0 end.
Definition sz (a : Z) : Z := Wosize_hd (hd_of a).
Definition tg (a : Z) : Z := Tag_hd (hd_of a).
Definition flds (a : Z) : list Z := match load m a (Z.to_nat (sz a)) with Ret ws => ws | _ => [] end.
Lemma tg_range a : 0 <= tg a < 256.
Proof. unfold tg, Tag_hd. lia. Qed.

(** the words of the objects [L], and the offset of an object among them *)
Definition whs (L : list Z) : Z := fold_right (fun a n => 1 + sz a + n) 0 L.
Fixpoint offs (p : Z) (L : list Z) (a : Z) : Z :=
  match L with [] => 0 | b :: L => if a =? b then 8 * (p + 1) else offs (p + 1 + sz b) L a end.

Lemma whs_app A B : whs (A ++ B) = whs A + whs B.
Proof.
  induction A as [|a A IH]; [reflexivity|]. change (whs ((a :: A) ++ B)) with (1 + sz a + whs (A ++ B)).
  change (whs (a :: A)) with (1 + sz a + whs A). lia.
Qed.
Lemma whs_cons a L : whs (a :: L) = 1 + sz a + whs L.
Proof. reflexivity. Qed.
Lemma offs_app a : forall L L' p, In a L -> offs p (L ++ L') a = offs p L a.
Proof.
  induction L as [|b L IH]; intros L' p H; [destruct H|]. cbn [app offs]. destruct (Z.eqb_spec a b); [reflexivity|].
  apply IH. destruct H as [->|H]; [contradiction|exact H].
Qed.
Lemma offs_new a B : forall L p, ~ In a L -> offs p (L ++ a :: B) a = 8 * (p + whs L + 1).
Proof.
  induction L as [|b L IH]; intros p H; cbn [app offs].
  - rewrite Z.eqb_refl. unfold whs. cbn [fold_right]. lia.
  - destruct (Z.eqb_spec a b) as [->|N]; [exfalso; apply H; now left|]. rewrite IH, whs_cons by (intros X; apply H; now right). lia.
Qed.

(** ** The graph *)
Variable G : list Z.
Hypothesis GR : graph m G.

Lemma block_flds a t ws : block m a t ws -> hd_of a mod 256 = t /\ tg a = t /\ sz a = zlen ws /\ flds a = ws /\ m (a - 8) = Some (hd_of a) /\ 0 <= hd_of a < two64.
Proof.
  intros [(hd & E & T & S & R) W]. unfold flds, sz, tg, hd_of, Tag_hd, Wosize_hd. rewrite E, S.
  split; [exact T|]. split; [exact T|]. split; [reflexivity|]. split; [|auto].
  replace (Z.to_nat (zlen ws)) with (length ws) by (unfold zlen; lia). clear - W.
  assert (H : load m a (length ws) = Ret ws); [|now rewrite H].
  revert a W. induction ws as [|w ws IH]; intros a W; cbn [load length]; [reflexivity|].
  unfold ld at 1. rewrite <- (Z.add_0_r a) at 1. replace (a + 0) with (a + 8 * 0) by lia. rewrite (W 0 w) by reflexivity. cbn [bind].
  rewrite IH; [reflexivity|]. intros i x X. replace (a + 8 + 8 * i) with (a + 8 * (i + 1)) by lia. apply W.
  pose proof (zget_range _ _ _ X). rewrite zget_cons. destruct (Z.eqb_spec (i + 1) 0); [lia|].
  replace (i + 1 - 1) with i by lia. exact X.
Qed.
Lemma in_G a : In a G -> 0 < a < two63 /\ a mod 8 = 0 /\ block m a (tg a) (flds a) /\ sz a = zlen (flds a) /\ 0 < sz a /\
  data_tag (tg a) /\ Forall (fun w => 0 <= w < two64) (flds a) /\ (scanned (tg a) -> Forall (value_in m G) (flds a)).
Proof.
  intros H. destruct (g_block m G GR a H) as (A & M8 & t & ws & B & N & D & F & S).
  destruct (block_flds a t ws B) as (_ & T & SZ & FL & _). rewrite FL, T.
  assert (0 < sz a) by (rewrite SZ; destruct ws; [contradiction|]; rewrite zlen_cons; pose proof (zlen_nonneg ws); lia).
  auto 10.
Qed.
Lemma sz_nonneg a : 0 <= hd_of a -> 0 <= sz a.
Proof. unfold sz, Wosize_hd. intros. lia. Qed.

(** words of a list of distinct objects of the graph *)
Lemma words_incl : forall L H, NoDup L -> incl L H -> (forall a, In a H -> 0 <= sz a) -> whs L <= words m H.
Proof.
  assert (W : forall H, words m H = whs H).
  { induction H as [|a H IH]; [reflexivity|]. cbn [words fold_right whs]. fold (words m H). fold (whs H).
    rewrite IH. unfold sz, hd_of, Wosize_hd. destruct (m (a - 8)); [reflexivity|]. change (0 / 1024) with 0. lia. }
  intros L H. rewrite W. clear W. revert H. induction L as [|a L IH]; intros H N I P.
  - clear N I. induction H as [|b H IH]; [cbn; lia|]. rewrite whs_cons. pose proof (P b (or_introl eq_refl)).
    specialize (IH (fun a Ha => P a (or_intror Ha))). change (whs []) with 0 in *. lia.
  - inversion_clear N as [|? ? Na NL]. destruct (in_split a H) as (A & B & ->); [apply I; now left|].
    rewrite whs_app, !whs_cons. enough (whs L <= whs (A ++ B)) as X by (rewrite whs_app in X; lia).
    apply IH; auto.
    + intros b Hb. specialize (I b (or_intror Hb)). apply in_app_or in I. apply in_or_app.
      destruct I as [I|[->|I]]; auto. contradiction.
    + intros b Hb. apply P. apply in_app_or in Hb. apply in_or_app. destruct Hb; auto. right. now right.
Qed.

(** translated values; values whose translation does not change any more *)
Definition tr (L : list Z) (v : Z) : Z :=
  if is_long v then v else if sz v =? 0 then 4 * tg v + 2 else offs 0 L v.
Definition settled (L : list Z) (v : Z) : Prop := is_long v = true \/ sz v = 0 \/ In v L.
Lemma tr_app L L' v : settled L v -> tr (L ++ L') v = tr L v.
Proof.
  intros S. unfold tr. destruct (is_long v) eqn:O; [reflexivity|]. destruct (Z.eqb_spec (sz v) 0); [reflexivity|].
  apply offs_app. destruct S as [S|[S|S]]; congruence.
Qed.
Lemma settled_app L L' v : settled L v -> settled (L ++ L') v.
Proof. intros [S|[S|S]]; [now left|now right; left|right; right]. apply in_or_app. now left. Qed.

Definition seg_raw (a : Z) : list Z := Make_header (sz a) (tg a) Black :: flds a.
Definition seg (L : list Z) (a : Z) : list Z :=
  Make_header (sz a) (tg a) Black :: (if tg a <? 251 then map (tr L) (flds a) else flds a).
Definition done (L : list Z) (a : Z) : Prop := tg a < 251 -> Forall (settled L) (flds a).
Lemma seg_app L L' a : done L a -> seg (L ++ L') a = seg L a.
Proof.
  intros D. unfold seg. destruct (Z.ltb_spec (tg a) 251); [|reflexivity]. f_equal. apply map_ext_in.
  intros v Hv. apply tr_app. specialize (D H). rewrite Forall_forall in D. auto.
Qed.
Lemma done_app L L' a : done L a -> done (L ++ L') a.
Proof. intros D H. eapply Forall_impl; [|exact (D H)]. intros v. apply settled_app. Qed.
Lemma zlen_concat_seg (f : Z -> list Z) L : (forall a, In a L -> zlen (f a) = 1 + sz a) -> zlen (concat (map f L)) = whs L.
Proof.
  induction L as [|a L IH]; intros H; cbn [map concat]; [reflexivity|]. rewrite zlen_app, whs_cons, H, IH; [reflexivity| |now left].
  intros b Hb. apply H. now right.
Qed.
Lemma zlen_map {A B} (f : A -> B) l : zlen (map f l) = zlen l.
Proof. unfold zlen. now rewrite map_length. Qed.
Lemma zlen_seg_raw a : In a G -> zlen (seg_raw a) = 1 + sz a.
Proof. intros H. apply in_G in H. unfold seg_raw. rewrite zlen_cons. lia. Qed.
Lemma zlen_seg L a : In a G -> zlen (seg L a) = 1 + sz a.
Proof.
  intros H. apply in_G in H. unfold seg. rewrite zlen_cons. destruct (tg a <? 251); rewrite ?zlen_map; lia.
Qed.

(** ** emit *)
Record st_ok (s : xst) (L : list Z) : Prop := {
  s_tab : tab_ok (xtab s);
  s_two : 2 <= zlen (xtab s);
  s_occ : occupied (xtab s) = length L;
  s_used : xused s = zlen L;
  s_load : 2 * zlen L <= zlen (xtab s) + 1;
  s_maps : forall v o, v <> 0 -> (maps (xtab s) v o <-> In v L /\ o = offs 0 L v);
  s_incl : incl L G;
  s_nodup : NoDup L;
  s_size : 1 <= xsize s;
  s_len : zlen (xblk s) = whs L }.

Lemma resize_result_ok e : forall fuel s, 1 <= s -> e < Z.of_nat fuel + s -> exists s', resize_result fuel e s = Ret s' /\ e < s' /\ 1 <= s'.
Proof.
  induction fuel as [|fuel IH]; intros s Hs Hf; cbn [resize_result]; rewrite Z.geb_leb; destruct (Z.leb_spec s e).
  - lia.
  - eauto.
  - apply IH; lia.
  - eauto.
Qed.
Lemma NoDup_snoc {A} (l : list A) x : NoDup l -> ~ In x l -> NoDup (l ++ [x]).
Proof.
  induction l as [|y l IH]; intros N I; cbn [app]; [constructor; [auto|constructor]|].
  inversion_clear N as [|? ? Ny Nl]. constructor.
  - intros X. apply in_app_or in X. destruct X as [X|[->|[]]]; [contradiction|]. apply I. now left.
  - apply IH; auto. intros X. apply I. now right.
Qed.
Lemma emit_ok s L v : st_ok s L -> value_in m G v ->
  exists s' L' M, emit m v s = Ret (tr L' v, s') /\ L' = L ++ M /\ st_ok s' L' /\ settled L' v /\
    xblk s' = xblk s ++ concat (map seg_raw M) /\ (M = [] \/ M = [v] /\ is_long v = false /\ sz v <> 0).
Proof.
  intros S (R & V). unfold emit, tr, settled. destruct (is_long v) eqn:O.
  { exists s, L, []. cbn [map concat]. rewrite !app_nil_r. auto 10. }
  destruct V as [V|V]; [unfold is_long in O; congruence|].
  assert (B : exists t ws, block m v t ws /\ 0 <= zlen ws /\ (zlen ws = 0 \/ In v G)).
  { destruct V as [[_ [t B]]|V]; [exists t, []; split; [exact B|split; [apply zlen_nonneg|now left]]|].
    apply in_G in V as V'. exists (tg v), (flds v). split; [apply V'|]. split; [apply zlen_nonneg|now right]. }
  destruct B as (t & ws & B & Wn & VG). destruct (block_flds v t ws B) as (_ & T & SZ & FL & E & HR).
  unfold ld. rewrite E. cbn [bind]. fold (sz v) (tg v). destruct (Z.eqb_spec (sz v) 0) as [S0|S0].
  { exists s, L, []. cbn [map concat]. rewrite !app_nil_r. auto 10. }
  assert (VIN : In v G) by (destruct VG; [lia|assumption]). clear VG V.
  destruct (in_G v VIN) as (VR & _). assert (V0 : v <> 0) by lia.
  pose proof (zlen_nonneg L) as NL. destruct S as [ST S2 SO SU SL SM SI SN SS SB].
  (* the table, maybe enlarged *)
  assert (exists tab, (if 2 * xused s >=? zlen (xtab s) then resize_table (xtab s) else Ret (xtab s)) = Ret tab /\
            tab_ok tab /\ 2 <= zlen tab /\ occupied tab = length L /\ 2 * zlen L < zlen tab /\
            forall v o, v <> 0 -> (maps tab v o <-> In v L /\ o = offs 0 L v)) as (tab & ET & TT & T2 & TO & TL & TM).
  { rewrite SU, Z.geb_leb. destruct (Z.leb_spec (zlen (xtab s)) (2 * zlen L)).
    - destruct (resize_ok (xtab s) ST) as (tab & E1 & L1 & T1 & O1 & M1); [rewrite SO; unfold zlen in *; lia|].
      exists tab. split; [exact E1|]. split; [exact T1|]. split; [lia|]. split; [congruence|]. split; [lia|].
      intros w o W. rewrite M1 by exact W. apply SM. exact W.
    - exists (xtab s). auto 10. }
  rewrite ET. cbn [bind].
  assert (OL : (occupied tab < length tab)%nat) by (rewrite TO; unfold zlen in *; lia).
  destruct (find_ok tab v TT OL V0) as [(i & o & EF & MP)|(i & EF & AB & INS)]; rewrite EF; cbn [bind].
  - (* already emitted *)
    apply TM in MP; [|exact V0]. destruct MP as [IL ->].
    eexists _, L, []. rewrite app_nil_r. cbn [map concat]. rewrite app_nil_r. split; [reflexivity|]. split; [reflexivity|].
    split; [constructor; cbn [xtab xused xblk xsize]; auto; lia|]. split; [auto|split; [reflexivity|now left]].
  - (* new *)
    assert (NIL : ~ In v L) by (intros X; apply (AB (offs 0 L v)); apply TM; auto).
    set (pos := zlen (xblk s)) in *. assert (SP : 0 < sz v) by (rewrite SZ in S0; lia).
    pose proof (zlen_nonneg (xblk s)) as NB. fold pos in NB.
    destruct (resize_result_ok (pos + 1 + sz v) (Z.to_nat (pos + 1 + sz v)) (xsize s)) as (xs & EX & LX & PX); [lia|lia|].
    rewrite EX. cbn [bind]. destruct (Z.leb_spec (pos + 1 + sz v) xs); [|lia].
    destruct (INS ((pos + 1) * 8)) as (t' & EU & LU & TU & OU & MU). rewrite EU. cbn [bind].
    assert (LD : load m v (Z.to_nat (sz v)) = Ret (flds v)).
    { unfold flds. destruct (load m v (Z.to_nat (sz v))) eqn:X; auto; exfalso; unfold flds in FL; rewrite X in FL;
        rewrite <- FL in SZ; unfold zlen in SZ; cbn in SZ; lia. }
    rewrite LD. cbn [bind]. eexists _, (L ++ [v]), [v].
    assert (OV : offs 0 (L ++ [v]) v = (pos + 1) * 8) by (rewrite offs_new by exact NIL; lia).
    rewrite OV. split; [reflexivity|]. split; [reflexivity|]. split; [|split; [|split]].
    + constructor; cbn [xtab xused xblk xsize]; auto; try lia.
      * rewrite OU, TO, app_length. cbn. lia.
      * rewrite SU, zlen_app, zlen_cons. change (zlen (@nil Z)) with 0. lia.
      * rewrite zlen_app, zlen_cons. change (zlen (@nil Z)) with 0. lia.
      * intros w p W. rewrite MU, TM by exact W. split.
        -- intros [[IL ->]|[-> ->]].
           ++ split; [apply in_or_app; now left|]. now rewrite offs_app.
           ++ split; [apply in_or_app; right; now left|]. now rewrite OV.
        -- intros [IL ->]. apply in_app_or in IL. destruct IL as [IL|[->|[]]].
           ++ left. split; [exact IL|]. now rewrite offs_app.
           ++ right. split; [reflexivity|]. exact OV.
      * intros w Hw. apply in_app_or in Hw. destruct Hw as [Hw|[<-|[]]]; auto.
      * now apply NoDup_snoc.
      * rewrite zlen_app, zlen_cons, whs_app, whs_cons. change (whs []) with 0. fold pos. rewrite FL, <- SZ. lia.
    + right. right. apply in_or_app. right. now left.
    + cbn [map concat seg_raw xblk]. now rewrite app_nil_r.
    + auto.
Qed.

(** the fields of one object *)
Lemma sub_raw_mid (p : list Z) x r : sub_raw (p ++ x :: r) (zlen p) = Ret x.
Proof.
  unfold sub_raw. rewrite zget_app. destruct (Z.ltb_spec (zlen p) (zlen p)); [lia|]. now rewrite Z.sub_diag.
Qed.
Lemma update_raw_mid (p : list Z) x y r : update_raw (p ++ x :: r) (zlen p) y = Ret (p ++ y :: r).
Proof.
  unfold update_raw. destruct (zset_some (p ++ x :: r) (zlen p) y) as (b & E & Lb & Gb).
  { rewrite zlen_app, zlen_cons. pose proof (zlen_nonneg p). pose proof (zlen_nonneg r). lia. }
  rewrite E. f_equal. apply list_ext. intros k. rewrite Gb, !zget_app, !zget_cons.
  destruct (Z.eqb_spec k (zlen p)) as [Ek|Ek].
  - subst k. destruct (Z.ltb_spec (zlen p) (zlen p)); [lia|]. now rewrite Z.sub_diag.
  - destruct (Z.ltb_spec k (zlen p)); [reflexivity|]. destruct (Z.eqb_spec (k - zlen p) 0); [lia|]. reflexivity.
Qed.
Lemma map_tr_app L M ws : Forall (settled L) ws -> map (tr (L ++ M)) ws = map (tr L) ws.
Proof. intros H. apply map_ext_in. intros v Hv. apply tr_app. rewrite Forall_forall in H. auto. Qed.
Lemma emit_fields_ok : forall ws s L pre post, st_ok s L -> Forall (value_in m G) ws -> xblk s = pre ++ ws ++ post ->
  exists s' L' M, emit_fields m (length ws) (zlen pre) s = Ret s' /\ L' = L ++ M /\ st_ok s' L' /\ Forall (settled L') ws /\
    xblk s' = pre ++ map (tr L') ws ++ post ++ concat (map seg_raw M).
Proof.
  induction ws as [|v ws IH]; intros s L pre post S F B; cbn [emit_fields length].
  - exists s, L, []. rewrite app_nil_r. cbn [map concat app] in *. rewrite app_nil_r. auto.
  - inversion_clear F as [|? ? Fv Fw]. rewrite B. cbn [app]. rewrite sub_raw_mid. cbn [bind].
    destruct (emit_ok s L v S Fv) as (s1 & L1 & M1 & E1 & EL1 & S1 & SV & B1 & _). rewrite E1. cbn [bind].
    rewrite B1, B. rewrite <- app_assoc. cbn [app]. rewrite update_raw_mid. cbn [bind].
    set (s2 := X (xtab s1) (xused s1) (pre ++ tr L1 v :: (ws ++ post) ++ concat (map seg_raw M1)) (xsize s1)).
    destruct (IH s2 L1 (pre ++ [tr L1 v]) (post ++ concat (map seg_raw M1))) as (s' & L' & M & E' & EL & S' & F' & B').
    + destruct S1. constructor; cbn [s2 xtab xused xblk xsize]; auto. rewrite <- s_len0, B1, B.
      cbn [app]. rewrite !zlen_app, !zlen_cons, !zlen_app. lia.
    + exact Fw.
    + cbn [s2 xblk]. rewrite <- !app_assoc. reflexivity.
    + rewrite zlen_app in E'. change (zlen [tr L1 v]) with 1 in E'.
      exists s', L', (M1 ++ M). split; [exact E'|]. split; [now rewrite EL, EL1, app_assoc|]. split; [exact S'|].
      split; [constructor; [rewrite EL; now apply settled_app|exact F']|].
      rewrite B'. rewrite map_app, concat_app. cbn [map]. rewrite EL, (tr_app L1 M v SV), <- EL.
      rewrite <- !app_assoc. reflexivity.
Qed.

(** all objects *)
Lemma emit_loop_ok : forall fuel s L1 L2, st_ok s (L1 ++ L2) -> Forall (done (L1 ++ L2)) L1 ->
  xblk s = concat (map (seg (L1 ++ L2)) L1) ++ concat (map seg_raw L2) ->
  (length G <= fuel + length L1)%nat ->
  exists s' L', emit_loop m fuel (whs L1) s = Ret s' /\ (exists M, L' = L1 ++ L2 ++ M) /\ st_ok s' L' /\ Forall (done L') L' /\
    xblk s' = concat (map (seg L') L').
Proof.
  induction fuel as [|fuel IH]; intros s L1 L2 S D B F.
  - (* all of the graph has been treated *)
    assert (L2 = []) as ->.
    { assert (length (L1 ++ L2) <= length G)%nat by (apply NoDup_incl_length; apply S).
      rewrite app_length in H. destruct L2; [reflexivity|]. cbn in *. lia. }
    cbn [emit_loop]. rewrite (s_len _ _ S). rewrite app_nil_r in *. rewrite Z.ltb_irrefl.
    exists s, L1. split; [reflexivity|]. split; [exists []; now rewrite app_nil_r|]. split; [exact S|]. split; [exact D|].
    rewrite B. cbn. now rewrite app_nil_r.
  - cbn [emit_loop]. rewrite (s_len _ _ S). destruct L2 as [|a L2].
    { rewrite app_nil_r in *. rewrite Z.ltb_irrefl.
      exists s, L1. split; [reflexivity|]. split; [exists []; now rewrite app_nil_r|]. split; [exact S|]. split; [exact D|].
      rewrite B. cbn. now rewrite app_nil_r. }
    assert (AG : In a G) by (apply (s_incl _ _ S); apply in_or_app; right; now left).
    destruct (in_G a AG) as (_ & _ & BL & SZ & SP & DT & FR & FS). pose proof (tg_range a) as TR.
    assert (WL2 : 0 <= whs L2).
    { assert (forall b, In b L2 -> 0 <= sz b).
      { intros b Hb. assert (In b G) as Hb' by (apply (s_incl _ _ S); apply in_or_app; right; now right).
        apply in_G in Hb'. lia. }
      clear - H. induction L2 as [|b L2 IH]; [cbn; lia|]. rewrite whs_cons. pose proof (H b (or_introl eq_refl)).
      specialize (IH (fun x Hx => H x (or_intror Hx))). lia. }
    rewrite whs_app, whs_cons. destruct (Z.ltb_spec (whs L1) (whs L1 + (1 + sz a + whs L2))); [|lia].
    assert (ZP : zlen (concat (map (seg (L1 ++ a :: L2)) L1)) = whs L1).
    { apply zlen_concat_seg. intros b Hb. apply zlen_seg. apply (s_incl _ _ S). apply in_or_app. now left. }
    assert (SR : sub_raw (xblk s) (whs L1) = Ret (Make_header (sz a) (tg a) Black)).
    { rewrite B, <- ZP. cbn [map concat]. unfold seg_raw at 1. cbn [app]. apply sub_raw_mid. }
    rewrite SR. cbn [bind].
    rewrite Tag_Make, Wosize_Make by (auto using Black_in).
    assert (EQL : L1 ++ a :: L2 = (L1 ++ [a]) ++ L2) by (rewrite <- app_assoc; reflexivity).
    assert (WS : whs (L1 ++ [a]) = whs L1 + 1 + sz a) by (rewrite whs_app, whs_cons; change (whs []) with 0; lia).
    destruct (Z.ltb_spec (tg a) 251) as [SC|SC].
    + (* fields *)
      destruct (Z.eqb_spec (tg a) String_tag); [unfold String_tag in *; lia|].
      destruct (Z.eqb_spec (tg a) Double_tag); [unfold Double_tag in *; lia|]. cbn [orb].
      destruct (Z.eqb_spec (tg a) Abstract_tag); [unfold Abstract_tag in *; lia|].
      destruct (Z.eqb_spec (tg a) Final_tag); [unfold Final_tag in *; lia|]. cbn [orb].
      destruct (Z.eqb_spec (tg a) Closure_tag) as [X|_]; [destruct DT as [DT _]; unfold Closure_tag in X; contradiction|].
      destruct (emit_fields_ok (flds a) s (L1 ++ a :: L2) (concat (map (seg (L1 ++ a :: L2)) L1) ++ [Make_header (sz a) (tg a) Black])
                  (concat (map seg_raw L2)) S (FS SC)) as (s1 & L' & M & E1 & EL & S1 & F1 & B1).
      { rewrite B. cbn [map concat]. unfold seg_raw at 1. rewrite <- !app_assoc. reflexivity. }
      rewrite zlen_app, ZP in E1. change (zlen [Make_header (sz a) (tg a) Black]) with 1 in E1.
      replace (Z.to_nat (sz a)) with (length (flds a)) by (rewrite SZ; unfold zlen; lia).
      rewrite E1. cbn [bind].
      assert (EL2 : L' = (L1 ++ [a]) ++ L2 ++ M) by (rewrite EL, <- !app_assoc; reflexivity).
      destruct (IH s1 (L1 ++ [a]) (L2 ++ M)) as (s' & L'' & E' & (M' & EM) & S' & D' & B').
      * rewrite <- EL2. exact S1.
      * rewrite <- EL2. apply Forall_app. split.
        -- rewrite EL. eapply Forall_impl; [|exact D]. intros b. apply done_app.
        -- constructor; [|constructor]. intros _. exact F1.
      * rewrite <- EL2, B1. rewrite map_app, concat_app. cbn [map concat]. rewrite app_nil_r.
        rewrite map_app, concat_app. unfold seg at 3. destruct (Z.ltb_spec (tg a) 251); [|lia].
        assert (MS : map (seg L') L1 = map (seg (L1 ++ a :: L2)) L1).
        { apply map_ext_in. intros b Hb. rewrite EL. apply seg_app. rewrite Forall_forall in D. auto. }
        rewrite MS. rewrite <- !app_assoc. reflexivity.
      * rewrite app_length. cbn. lia.
      * rewrite WS in E'. exists s', L''. split; [exact E'|]. split; [exists (M ++ M'); rewrite EM, <- !app_assoc; reflexivity|]. auto.
    + (* bytes *)
      assert (STR : tg a = 253 \/ tg a = 254) by (unfold data_tag in DT; lia).
      assert ((tg a =? String_tag) || (tg a =? Double_tag) = true) as -> by (unfold String_tag, Double_tag; lia).
      destruct (IH s (L1 ++ [a]) L2) as (s' & L'' & E' & (M' & EM) & S' & D' & B').
      * rewrite <- EQL. exact S.
      * rewrite <- EQL. apply Forall_app. split; [exact D|]. constructor; [|constructor]. intros X. lia.
      * rewrite <- EQL, B. rewrite map_app, concat_app. cbn [map concat]. rewrite app_nil_r.
        assert (seg (L1 ++ a :: L2) a = seg_raw a) as -> by (unfold seg, seg_raw; destruct (Z.ltb_spec (tg a) 251); [lia|reflexivity]).
        now rewrite <- !app_assoc.
      * rewrite app_length. cbn. lia.
      * rewrite WS in E'. exists s', L''. split; [exact E'|]. split; [exists M'; rewrite EM, <- !app_assoc; reflexivity|]. auto.
Qed.

Lemma emit_all_ok v fuel : value_in m G v -> (length G <= fuel)%nat ->
  exists L, emit_all m fuel v = Ret (tr L v, concat (map (seg L) L)) /\ incl L G /\ NoDup L /\ settled L v /\ Forall (done L) L /\
    (L = [] \/ (exists L', L = v :: L') /\ is_long v = false /\ sz v <> 0).
Proof.
  intros V F. unfold emit_all.
  assert (S0 : st_ok (X (alloc_table 2039) 0 [] 4096) []).
  { destruct (alloc_ok_tab 2039) as (T0 & L0 & O0 & M0); [lia|].
    constructor; cbn [xtab xused xblk xsize]; auto; try lia.
    - change (zlen (@nil Z)) with 0. lia.
    - intros w o W. split; [intros X; exfalso; eapply M0; eauto|intros [[] _]].
    - intros w [].
    - constructor. }
  destruct (emit_ok _ [] v S0 V) as (s1 & L1 & M1 & E1 & EL1 & S1 & SV & B1 & CM). cbn [app xblk] in EL1, B1. subst M1.
  rewrite E1. cbn [bind]. destruct CM as [->|(-> & VL & VS)].
  - (* nothing emitted *)
    assert (E : emit_loop m fuel 0 s1 = Ret s1) by (destruct fuel; cbn [emit_loop]; rewrite (s_len _ _ S1); reflexivity).
    rewrite E. cbn [bind]. exists []. rewrite B1. cbn [map concat]. repeat split; auto; try constructor. intros w [].
  - destruct (emit_loop_ok fuel s1 [] [v] S1) as (s' & L' & E' & (M & EM) & S' & D' & B').
    + constructor.
    + cbn [map concat app]. exact B1.
    + cbn. lia.
    + change (whs []) with 0 in E'. rewrite E'. cbn [bind]. exists L'. rewrite B'. cbn [app] in EM.
      assert (ET : tr [v] v = tr L' v) by (rewrite EM; change (v :: M) with ([v] ++ M); rewrite tr_app; auto).
      rewrite ET. split; [reflexivity|]. split; [apply S'|]. split; [apply S'|].
      split; [rewrite EM; change (v :: M) with ([v] ++ M); now apply settled_app|]. split; [exact D'|]. right. eauto.
Qed.
End G.
