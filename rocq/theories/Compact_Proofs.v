(** Proofs about the compact format: the reader follows the writer. *)
From Verif Require Import Base ArrayLib Mem Io_Model Extern_Model Extern_Spec Extern_Tab Extern_Proofs Extern_In
  Compact_Model Compact_Spec Compact_Bytes.

Fixpoint idx (p : Z) (L : list Z) (a : Z) : Z :=
  match L with [] => 0 | b :: L => if a =? b then p else idx (p + 1) L a end.
Lemma idx_app a : forall L L' p, In a L -> idx p (L ++ L') a = idx p L a.
Proof.
  induction L as [|b L IH]; intros L' p H; [destruct H|]. cbn [app idx]. destruct (Z.eqb_spec a b); [reflexivity|].
  apply IH. destruct H as [->|H]; [contradiction|exact H].
Qed.
Lemma idx_new a B : forall L p, ~ In a L -> idx p (L ++ a :: B) a = p + zlen L.
Proof.
  induction L as [|b L IH]; intros p H; cbn [app idx].
  - rewrite Z.eqb_refl. change (zlen (@nil Z)) with 0. lia.
  - destruct (Z.eqb_spec a b) as [->|N]; [exfalso; apply H; now left|]. rewrite IH, zlen_cons by (intros X; apply H; now right). lia.
Qed.
Lemma idx_get a : forall L p, In a L -> p <= idx p L a < p + zlen L /\ zget L (idx p L a - p) = Some a.
Proof.
  induction L as [|b L IH]; intros p H; [destruct H|]. cbn [idx]. rewrite zlen_cons. pose proof (zlen_nonneg L).
  destruct (Z.eqb_spec a b) as [->|N].
  - rewrite Z.sub_diag. split; [lia|reflexivity].
  - destruct H as [->|H]; [contradiction|]. destruct (IH (p + 1) H) as [R E]. split; [lia|]. rewrite zget_cons.
    destruct (Z.eqb_spec (idx (p + 1) L a - p) 0); [lia|]. rewrite <- E. f_equal. lia.
Qed.
Lemma zget_map {A B} (f : A -> B) l i : zget (map f l) i = option_map f (zget l i).
Proof. unfold zget. destruct (i <? 0); [reflexivity|]. apply nth_error_map. Qed.

Section S.
Variable m : memory.
Variable G : list Z.
Hypothesis GR : graph m G.
Hypothesis ORD : ordinary m G.
Notation offs := (offs m). Notation sz := (sz m). Notation tg := (tg m). Notation flds := (flds m).
Notation tr := (tr m). Notation whs := (whs m). Notation settled := (settled m). Notation done := (done m).

Record cok (s : cst) (L : list Z) : Prop := {
  k_tab : tab_ok (ctab s);
  k_two : 2 <= zlen (ctab s);
  k_occ : occupied (ctab s) = length L;
  k_cnt : ccnt s = zlen L;
  k_load : 2 * zlen L <= zlen (ctab s) + 1;
  k_maps : forall v o, v <> 0 -> (maps (ctab s) v o <-> In v L /\ o = idx 0 L v);
  k_incl : incl L G;
  k_nodup : NoDup L;
  k_64 : c64 s = whs L;
  k_32 : 0 <= c32 s <= 2 * whs L }.
Lemma cok_put s L bs : cok s L -> cok (put bs s) L.
Proof. intros []. constructor; auto. Qed.

(** looking up an object *)
Lemma find_step s L v : cok s L -> In v G -> exists tab i, 
  (if 2 * ccnt s >=? zlen (ctab s) then resize_table (ctab s) else Ret (ctab s)) = Ret tab /\
  find (length tab) tab (hash (zlen tab) v) v = Ret (i, if in_dec Z.eq_dec v L then Some (idx 0 L v) else None) /\
  cok (C tab (ccnt s) (c32 s) (c64 s) (cout s)) L /\
  (~ In v L -> exists t', update_raw tab i (v, ccnt s) = Ret t' /\
     forall n32 bs, 0 <= n32 <= 2 * (1 + sz v) -> cok (C t' (ccnt s + 1) (c32 s + n32) (c64 s + (1 + sz v)) bs) (L ++ [v])).
Proof.
  intros [ST S2 SO SU SL SM SI SN S64 S32] VIN. destruct (in_G m G GR v VIN) as (VR & _ & _ & _ & SP & _).
  assert (V0 : v <> 0) by lia. pose proof (zlen_nonneg L) as NL.
  assert (exists tab, (if 2 * ccnt s >=? zlen (ctab s) then resize_table (ctab s) else Ret (ctab s)) = Ret tab /\
            tab_ok tab /\ 2 <= zlen tab /\ occupied tab = length L /\ 2 * zlen L < zlen tab /\
            forall v o, v <> 0 -> (maps tab v o <-> In v L /\ o = idx 0 L v)) as (tab & ET & TT & T2 & TO & TL & TM).
  { rewrite SU, Z.geb_leb. destruct (Z.leb_spec (zlen (ctab s)) (2 * zlen L)).
    - destruct (resize_ok (ctab s) ST) as (tab & E1 & L1 & T1 & O1 & M1); [rewrite SO; unfold zlen in *; lia|].
      exists tab. split; [exact E1|]. split; [exact T1|]. split; [lia|]. split; [congruence|]. split; [lia|].
      intros w o W. rewrite M1 by exact W. apply SM. exact W.
    - exists (ctab s). auto 10. }
  assert (OL : (occupied tab < length tab)%nat) by (rewrite TO; unfold zlen in *; lia).
  assert (K : cok (C tab (ccnt s) (c32 s) (c64 s) (cout s)) L) by (constructor; cbn [ctab ccnt c32 c64 cout]; auto; lia).
  destruct (find_ok tab v TT OL V0) as [(i & o & EF & MP)|(i & EF & AB & INS)]; exists tab, i; (split; [exact ET|]); rewrite EF.
  - apply TM in MP; [|exact V0]. destruct MP as [IL ->]. destruct (in_dec Z.eq_dec v L); [|contradiction].
    split; [reflexivity|]. split; [exact K|]. contradiction.
  - assert (NIL : ~ In v L) by (intros X; apply (AB (idx 0 L v)); apply TM; auto).
    destruct (in_dec Z.eq_dec v L); [contradiction|]. split; [reflexivity|]. split; [exact K|]. intros _.
    destruct (INS (ccnt s)) as (t' & EU & LU & TU & OU & MU). exists t'. split; [exact EU|]. intros n32 bs N32.
    assert (OV : idx 0 (L ++ [v]) v = ccnt s) by (rewrite idx_new by exact NIL; lia).
    constructor; cbn [ctab ccnt c32 c64 cout]; auto; try lia.
    + rewrite OU, TO, app_length. cbn. lia.
    + rewrite SU, zlen_app, zlen_cons. change (zlen (@nil Z)) with 0. lia.
    + rewrite zlen_app, zlen_cons. change (zlen (@nil Z)) with 0. lia.
    + intros w p W. rewrite MU, TM by exact W. split.
      * intros [[IL ->]|[-> ->]].
        -- split; [apply in_or_app; now left|]. now rewrite idx_app.
        -- split; [apply in_or_app; right; now left|]. now rewrite OV.
      * intros [IL ->]. apply in_app_or in IL. destruct IL as [IL|[->|[]]].
        -- left. split; [exact IL|]. now rewrite idx_app.
        -- right. split; [reflexivity|]. exact OV.
    + intros w Hw. apply in_app_or in Hw. destruct Hw as [Hw|[<-|[]]]; auto.
    + now apply NoDup_snoc.
    + rewrite whs_app, whs_cons. change (whs []) with 0. lia.
    + rewrite whs_app, whs_cons. change (whs []) with 0. lia.
Qed.

(** ** The reader *)
Variables atoms start color num : Z.
Notation adj := (adj atoms start).
Notation seg2 := (seg2 m atoms start color).
Notation read := (read_compact atoms start color num).
Definition phi (L : list Z) (a : Z) : Z := start + offs 0 L a.
Record rok (r : rst) (L : list Z) : Prop := {
  r_ptr : rptr r = whs L;
  r_objs : robjs r = map (phi L) L }.
Lemma rok_inp r L inp : rok r L -> rok (with_inp r inp) L.
Proof. intros []. now constructor. Qed.
Definition holds (b : list Z) (L : list Z) (a : Z) : Prop :=
  forall i w, zget (seg2 L a) i = Some w -> zget b (offs 0 L a / 8 - 1 + i) = Some w.

Lemma seg2_app L L' a : done L a -> seg2 (L ++ L') a = seg2 L a.
Proof.
  intros D. unfold Extern_In.seg2. destruct (Z.ltb_spec (tg a) 251); [|reflexivity]. f_equal. apply map_ext_in.
  intros v Hv. f_equal. apply tr_app. specialize (D H). rewrite Forall_forall in D. auto.
Qed.
Lemma holds_app b L L' a : done L a -> In a L -> holds b L a -> holds b (L ++ L') a.
Proof. intros D I H i w E. rewrite seg2_app in E by exact D. rewrite offs_app by exact I. now apply H. Qed.
Lemma whs_nonneg L : incl L G -> 0 <= whs L.
Proof.
  induction L as [|a L IH]; intros I; [cbn; lia|]. rewrite whs_cons.
  assert (0 < sz a) by (specialize (I a (or_introl eq_refl)); apply (in_G m G GR) in I; lia).
  specialize (IH (fun x Hx => I x (or_intror Hx))). lia.
Qed.
Lemma place L M a : incl (L ++ M) G -> NoDup (L ++ M) -> In a M ->
  whs L <= offs 0 (L ++ M) a / 8 - 1 /\ offs 0 (L ++ M) a / 8 + sz a <= whs (L ++ M).
Proof.
  intros I N A. destruct (in_split a M A) as (M1 & M2 & ->). rewrite app_assoc in *.
  assert (NI : ~ In a (L ++ M1)) by (apply NoDup_remove_2 in N; intros X; apply N; apply in_or_app; now left).
  rewrite offs_new by exact NI. rewrite !whs_app, whs_cons.
  assert (0 <= whs M1) by (apply whs_nonneg; intros x Hx; apply I; apply in_or_app; left; apply in_or_app; now right).
  assert (0 <= whs M2) by (apply whs_nonneg; intros x Hx; apply I; apply in_or_app; right; now right).
  replace (8 * (0 + (whs L + whs M1) + 1) / 8) with (whs L + whs M1 + 1) by lia. lia.
Qed.
Lemma holds_ext b b' L M a : incl (L ++ M) G -> NoDup (L ++ M) -> In a M ->
  (forall i, whs L <= i < whs (L ++ M) -> zget b' i = zget b i) -> holds b (L ++ M) a -> holds b' (L ++ M) a.
Proof.
  intros I N A E H i w X. destruct (place L M a I N A) as [P1 P2]. rewrite E; [now apply H|].
  pose proof (zget_range _ _ _ X) as R. rewrite (zlen_seg2 m G GR) in R; [lia|]. apply I. apply in_or_app. now right.
Qed.
Lemma map_phi_app L M : map (phi (L ++ M)) L = map (phi L) L.
Proof. apply map_ext_in. intros a Ha. unfold phi. now rewrite offs_app. Qed.
Lemma rok_new r L v r' : rok r L -> ~ In v L -> rptr r' = rptr r + 1 + sz v -> robjs r' = robjs r ++ [start + 8 * rptr r + 8] -> rok r' (L ++ [v]).
Proof.
  intros [P O] N P' O'. constructor.
  - rewrite P', P, whs_app, whs_cons. change (whs []) with 0. lia.
  - rewrite O', O, map_app, map_phi_app, P. cbn [map]. unfold phi. rewrite offs_new by exact N. do 2 f_equal. lia.
Qed.
Lemma adj_block L v : In v L -> is_long v = false -> sz v <> 0 -> adj (tr L v) = phi L v.
Proof.
  intros I O S. unfold Extern_Proofs.tr. rewrite O. destruct (Z.eqb_spec (sz v) 0); [contradiction|].
  unfold Extern_In.adj, adjust, phi. pose proof (offs_mod8 m v L 0). replace (offs 0 L v mod 4) with 0 by lia. reflexivity.
Qed.

(** what one value does to the writer and to the reader *)
Definition follows (L M : list Z) (bs : list Z) (v : Z) : Prop :=
  forall rf r rest, rok r L -> whs (L ++ M) <= zlen (rblk r) -> zlen (L ++ M) <= num -> rinp r = bs ++ rest -> (length (rinp r) < rf)%nat ->
    exists r', read rf r = Ret (adj (tr (L ++ M) v), r') /\ rok r' (L ++ M) /\ rinp r' = rest /\ zlen (rblk r') = zlen (rblk r) /\
      (forall i, i < whs L \/ whs (L ++ M) <= i -> zget (rblk r') i = zget (rblk r) i) /\
      Forall (holds (rblk r') (L ++ M)) M.
Definition sim (fuel : nat) : Prop := forall v s L, cok s L -> value_in m G v -> (length G < fuel + length L)%nat ->
  exists s' M bs, emit_compact m fuel v s = Ret s' /\ cok s' (L ++ M) /\ settled (L ++ M) v /\ cout s' = cout s ++ bs /\
    bs <> [] /\ Forall (done (L ++ M)) M /\ follows L M bs v.

Lemma fields_sim fuel : sim fuel -> forall ws a s L, cok s L -> Forall (value_in m G) ws -> (length G < fuel + length L)%nat ->
  (forall i w, zget ws i = Some w -> m (a + 8 * i) = Some w) ->
  exists s' M bs, each_field m (emit_compact m fuel) (length ws) a s = Ret s' /\ cok s' (L ++ M) /\ Forall (settled (L ++ M)) ws /\
    cout s' = cout s ++ bs /\ Forall (done (L ++ M)) M /\
    forall rf r rest dest, rok r L -> 0 <= dest -> dest + zlen ws <= whs L -> whs (L ++ M) <= zlen (rblk r) -> zlen (L ++ M) <= num ->
      rinp r = bs ++ rest -> (length (rinp r) < rf)%nat ->
      exists r', read_fields (read rf) (length ws) dest r = Ret r' /\ rok r' (L ++ M) /\ rinp r' = rest /\ zlen (rblk r') = zlen (rblk r) /\
        (forall i, i < dest \/ dest + zlen ws <= i < whs L \/ whs (L ++ M) <= i -> zget (rblk r') i = zget (rblk r) i) /\
        (forall i w, zget ws i = Some w -> zget (rblk r') (dest + i) = Some (adj (tr (L ++ M) w))) /\
        Forall (holds (rblk r') (L ++ M)) M.
Proof.
  intros SIM. induction ws as [|v ws IH]; intros a s L K F FU MW.
  - exists s, [], []. rewrite !app_nil_r. cbn [each_field length]. split; [reflexivity|]. split; [exact K|]. split; [constructor|].
    split; [reflexivity|]. split; [constructor|]. intros rf r rest dest RO D0 D1 B N E LF. exists r. cbn [read_fields length].
    split; [reflexivity|]. split; [exact RO|]. split; [exact E|]. split; [reflexivity|]. split; [reflexivity|].
    split; [intros i w X; apply zget_range in X; change (zlen (@nil Z)) with 0 in X; lia|constructor].
  - inversion_clear F as [|? ? Fv Fw]. destruct (SIM v s L K Fv FU) as (s1 & M1 & b1 & E1 & K1 & ST1 & O1 & NB1 & D1 & F1).
    destruct (IH (a + 8) s1 (L ++ M1) K1 Fw) as (s2 & M2 & b2 & E2 & K2 & ST2 & O2 & D2 & F2).
    { rewrite app_length. lia. }
    { intros i w X. replace (a + 8 + 8 * i) with (a + 8 * (i + 1)) by lia. apply MW. pose proof (zget_range _ _ _ X).
      rewrite zget_cons. destruct (Z.eqb_spec (i + 1) 0); [lia|]. replace (i + 1 - 1) with i by lia. exact X. }
    rewrite <- app_assoc in *. exists s2, (M1 ++ M2), (b1 ++ b2).
    assert (EL : L ++ M1 ++ M2 = (L ++ M1) ++ M2) by apply app_assoc.
    cbn [each_field length]. unfold ld. rewrite <- (Z.add_0_r a) at 1. replace (a + 0) with (a + 8 * 0) by lia.
    rewrite (MW 0 v eq_refl). cbn [bind]. rewrite E1. cbn [bind]. split; [exact E2|]. split; [exact K2|].
    split; [constructor; [rewrite EL; now apply settled_app|exact ST2]|]. split; [rewrite O2, O1; now rewrite app_assoc|].
    assert (DM1 : Forall (done (L ++ M1 ++ M2)) M1) by (eapply Forall_impl; [|exact D1]; intros x; rewrite EL; apply done_app).
    split; [apply Forall_app; auto|].
    pose proof (k_incl _ _ K2) as IK. pose proof (k_nodup _ _ K2) as NK. pose proof (k_incl _ _ K1) as IK1. pose proof (k_nodup _ _ K1) as NK1.
    assert (IK' : incl ((L ++ M1) ++ M2) G) by (rewrite <- EL; exact IK). assert (NK' : NoDup ((L ++ M1) ++ M2)) by (rewrite <- EL; exact NK).
    assert (W1 : whs L <= whs (L ++ M1)).
    { rewrite whs_app. enough (0 <= whs M1) by lia. apply whs_nonneg. intros x Hx. apply IK1. apply in_or_app. now right. }
    assert (W2 : whs (L ++ M1) <= whs (L ++ M1 ++ M2)).
    { rewrite EL, (whs_app m (L ++ M1)). enough (0 <= whs M2) by lia. apply whs_nonneg. intros x Hx. apply IK'. apply in_or_app. now right. }
    assert (NL1 : zlen (L ++ M1) <= zlen (L ++ M1 ++ M2)) by (rewrite EL, (zlen_app (L ++ M1)); pose proof (zlen_nonneg M2); lia).
    intros rf r rest dest RO D0 DD B N E LF. rewrite zlen_cons in DD. pose proof (zlen_nonneg ws) as NW.
    rewrite <- app_assoc in E.
    destruct (F1 rf r (b2 ++ rest)) as (r1 & RE1 & RO1 & RI1 & RZ1 & RS1 & RH1); auto; try lia.
    cbn [read_fields length]. rewrite RE1. cbn [bind].
    assert (DB : 0 <= dest < zlen (rblk r1)) by lia.
    destruct (zset_some (rblk r1) dest (adj (tr (L ++ M1) v)) DB) as (b' & UE & UL & UG).
    unfold update_raw. rewrite UE. cbn [bind].
    destruct (F2 rf (R b' (rptr r1) (robjs r1) (rinp r1)) rest (dest + 1)) as (r2 & RE2 & RO2 & RI2 & RZ2 & RS2 & RF2 & RH2); cbn [rblk rinp]; auto; try lia.
    { destruct RO1. constructor; auto. }
    { rewrite RI1. rewrite E in LF. rewrite !app_length in *. lia. }
    exists r2. split; [exact RE2|]. split; [exact RO2|]. split; [exact RI2|]. cbn [rblk] in *. split; [lia|]. split; [|split].
    + intros i Hi. rewrite zlen_cons in Hi. rewrite RS2 by lia. rewrite UG. destruct (Z.eqb_spec i dest); [lia|]. apply RS1. lia.
    + intros i w X. rewrite zget_cons in X. destruct (Z.eqb_spec i 0) as [->|Ni].
      * assert (w = v) as -> by congruence. rewrite Z.add_0_r, RS2 by lia. rewrite UG, Z.eqb_refl, EL, (tr_app m (L ++ M1)) by exact ST1. reflexivity.
      * replace (dest + i) with (dest + 1 + (i - 1)) by lia. now apply RF2.
    + apply Forall_app. split; [|exact RH2]. rewrite Forall_forall in *. intros x Hx. rewrite EL. apply holds_app; auto.
      { apply in_or_app. now right. }
      apply (holds_ext (rblk r1)); auto. intros i Hi. rewrite RS2 by lia. rewrite UG. destruct (Z.eqb_spec i dest); [lia|reflexivity].
Qed.
(** a new object: what remains to show when its contents are given *)
Lemma words_get b p n ws : 0 <= p -> zlen ws = n -> p + n <= zlen b -> exists b', putn b p ws = Ret b' /\ zlen b' = zlen b /\
  (forall i, zget b' i = if (p <=? i) && (i <? p + n) then zget ws (i - p) else zget b i).
Proof. intros P E L. destruct (putn_spec b p ws P) as (b' & E' & L' & G'); [lia|]. rewrite E in G'. eauto. Qed.
Lemma new_holds b L v : ~ In v L -> zget b (whs L) = Some (Make_header (sz v) (tg v) color) ->
  (forall i w, zget (if tg v <? 251 then map (fun v' => adj (tr (L ++ [v]) v')) (flds v) else flds v) i = Some w -> zget b (whs L + 1 + i) = Some w) ->
  holds b (L ++ [v]) v.
Proof.
  intros N H F i w E. rewrite offs_new by exact N. replace (8 * (0 + whs L + 1) / 8 - 1 + i) with (whs L + i) by lia.
  unfold Extern_In.seg2 in E. rewrite zget_cons in E. destruct (Z.eqb_spec i 0) as [->|Ni].
  - rewrite Z.add_0_r, H. exact E.
  - replace (whs L + i) with (whs L + 1 + (i - 1)) by lia. now apply F.
Qed.

Lemma string_case v : In v G -> tg v = 253 -> exists s pad, bytes_of (flds v) = s ++ repeat 0 (Z.to_nat pad) ++ [pad] /\ 0 <= pad < 8 /\
  zlen s = 8 * sz v - 1 - pad /\ string_length (bytes_of (flds v)) = Ret (zlen s) /\ getn (bytes_of (flds v)) 0 (zlen s) = Ret s.
Proof.
  intros I T. destruct (in_G m G GR v I) as (_ & _ & BL & SZ & SP & _). destruct (ORD v _ _ I BL) as (S & _ & _).
  destruct (S T) as (s & pad & E & P). exists s, pad. pose proof (zlen_nonneg s) as NS.
  assert (ZL : zlen (bytes_of (flds v)) = 8 * sz v) by (unfold bytes_of; rewrite zlen_le; lia).
  assert (ZR : zlen (repeat 0 (Z.to_nat pad)) = pad) by (rewrite zlen_repeat; lia).
  assert (ZS : zlen s = 8 * sz v - 1 - pad).
  { rewrite E, !zlen_app, ZR in ZL. change (zlen [pad]) with 1 in ZL. lia. }
  split; [exact E|]. split; [exact P|]. split; [exact ZS|]. split.
  - unfold string_length. rewrite ZL. unfold sub_raw. rewrite E, zget_app. destruct (Z.ltb_spec (8 * sz v - 1) (zlen s)); [lia|].
    rewrite zget_app, ZR. destruct (Z.ltb_spec (8 * sz v - 1 - zlen s) pad); [lia|].
    replace (8 * sz v - 1 - zlen s - pad) with 0 by lia. change (zget [pad] 0) with (Some pad). cbn [bind]. f_equal. lia.
  - rewrite getn_ok by lia. change (Z.to_nat 0) with 0%nat. cbn [skipn]. f_equal. rewrite E.
    replace (Z.to_nat (zlen s)) with (length s) by (unfold zlen; lia). apply firstn_zlen.
Qed.
(** the string read back *)
Lemma read_string_ok r v s pad rest : bytes_of (flds v) = s ++ repeat 0 (Z.to_nat pad) ++ [pad] -> 0 <= pad < 8 ->
  zlen s = 8 * sz v - 1 - pad -> 0 < sz v -> zlen (flds v) = sz v -> Forall (fun w => 0 <= w < two64) (flds v) ->
  0 <= rptr r -> rptr r + 1 + sz v <= zlen (rblk r) -> zlen (robjs r) < num -> rinp r = s ++ rest ->
  exists r', read_string start color num (zlen s) r = Ret (start + 8 * rptr r + 8, r') /\ rptr r' = rptr r + 1 + sz v /\
    robjs r' = robjs r ++ [start + 8 * rptr r + 8] /\ rinp r' = rest /\ zlen (rblk r') = zlen (rblk r) /\
    forall i, zget (rblk r') i = if i =? rptr r then Some (Make_header (sz v) 253 color)
                                 else if (rptr r + 1 <=? i) && (i <? rptr r + 1 + sz v) then zget (flds v) (i - (rptr r + 1)) else zget (rblk r) i.
Proof.
  intros E P ZS SP ZF FR P0 PB NO EI. unfold read_string. assert (ES : (zlen s + 8) / 8 = sz v) by lia. rewrite ES.
  unfold push_obj. destruct (Z.ltb_spec (zlen (robjs r)) num); [|lia]. cbn [bind rblk rptr robjs rinp].
  destruct (zset_some (rblk r) (rptr r) (Make_header (sz v) String_tag color)) as (b & UE & UL & UG); [lia|].
  unfold update_raw. rewrite UE. cbn [bind]. rewrite getn_ok by lia. cbn [bind].
  set (ws := firstn (Z.to_nat (sz v)) (skipn (Z.to_nat (rptr r + 1)) b)).
  assert (ZW : zlen ws = sz v) by (unfold ws; apply zlen_firstn; rewrite zlen_skipn by lia; lia).
  assert (Z0 : zlen (concat (map le_bytes ws)) = 8 * sz v) by (rewrite zlen_le; lia).
  destruct (putn_spec (concat (map le_bytes ws)) (8 * (sz v - 1)) (repeat 0 8)) as (s1 & E1 & Z1 & G1); [lia|change (zlen (repeat 0 8)) with 8; lia|].
  rewrite E1. cbn [bind]. change (zlen (repeat 0 8)) with 8 in G1.
  destruct (putn_spec s1 (8 * sz v - 1) [(8 * sz v - 1 - zlen s) mod 256]) as (s2 & E2 & Z2 & G2); [lia|change (zlen [(8 * sz v - 1 - zlen s) mod 256]) with 1; lia|].
  rewrite E2. cbn [bind]. change (zlen [(8 * sz v - 1 - zlen s) mod 256]) with 1 in G2.
  assert (EF : firstn (Z.to_nat (zlen s)) (rinp r) = s).
  { rewrite EI. replace (Z.to_nat (zlen s)) with (length s) by (unfold zlen; lia). apply firstn_zlen. }
  rewrite EF. destruct (putn_spec s2 0 s) as (s3 & E3 & Z3 & G3); [lia|lia|]. rewrite E3. cbn [bind].
  assert (S3 : s3 = bytes_of (flds v)).
  { rewrite E. apply list_ext. intros k. rewrite G3, G2, G1, zget_app.
    assert (ZR : zlen (repeat 0 (Z.to_nat pad)) = pad) by (rewrite zlen_repeat; lia).
    destruct (Z.ltb_spec k 0) as [K0|K0].
    { destruct (Z.leb_spec 0 k); [lia|]. cbn [andb]. destruct (Z.leb_spec (8 * sz v - 1) k); [lia|]. cbn [andb].
      destruct (Z.leb_spec (8 * (sz v - 1)) k); [lia|]. cbn [andb]. destruct (Z.ltb_spec k (zlen s)); [|pose proof (zlen_nonneg s); lia].
      rewrite !zget_none by lia. reflexivity. }
    destruct (Z.leb_spec 0 k); [|lia]. rewrite Z.add_0_l, Z.sub_0_r. cbn [andb].
    destruct (Z.ltb_spec k (zlen s)); [reflexivity|]. rewrite zget_app, ZR.
    destruct (Z.leb_spec (8 * sz v - 1) k); cbn [andb].
    - destruct (Z.ltb_spec k (8 * sz v - 1 + 1)).
      + assert (k = 8 * sz v - 1) as -> by lia. rewrite Z.sub_diag. destruct (Z.ltb_spec (8 * sz v - 1 - zlen s) pad); [lia|].
        replace (8 * sz v - 1 - zlen s - pad) with 0 by lia. change (zget [pad] 0) with (Some pad).
        change (zget [(8 * sz v - 1 - zlen s) mod 256] 0) with (Some ((8 * sz v - 1 - zlen s) mod 256)). f_equal. lia.
      + destruct (Z.ltb_spec (k - zlen s) pad); [lia|]. destruct (Z.leb_spec (8 * (sz v - 1)) k); [|lia].
        destruct (Z.ltb_spec k (8 * (sz v - 1) + 8)); [lia|]. cbn [andb]. rewrite !zget_none; [reflexivity|change (zlen [pad]) with 1; lia|lia].
    - destruct (Z.ltb_spec (k - zlen s) pad); [|lia]. destruct (Z.leb_spec (8 * (sz v - 1)) k); [|lia].
      destruct (Z.ltb_spec k (8 * (sz v - 1) + 8)); [|lia]. cbn [andb]. change 8%nat with (Z.to_nat 8). rewrite !zget_repeat.
      destruct (Z.leb_spec 0 (k - 8 * (sz v - 1))); [|lia]. destruct (Z.ltb_spec (k - 8 * (sz v - 1)) (Z.of_nat (Z.to_nat 8))); [|lia].
      destruct (Z.leb_spec 0 (k - zlen s)); [|lia]. destruct (Z.ltb_spec (k - zlen s) (Z.of_nat (Z.to_nat pad))); [|lia]. reflexivity. }
  assert (EW : words_of (Z.to_nat (sz v)) s3 = flds v).
  { rewrite S3. rewrite <- (app_nil_r (bytes_of (flds v))). replace (Z.to_nat (sz v)) with (length (flds v)) by (rewrite <- ZF; unfold zlen; lia).
    now apply words_le. }
  rewrite EW. destruct (words_get b (rptr r + 1) (sz v) (flds v)) as (b' & E4 & Z4 & G4); [lia|exact ZF|lia|]. rewrite E4. cbn [bind].
  eexists. split; [reflexivity|]. cbn [rptr robjs rinp rblk]. split; [reflexivity|]. split; [reflexivity|]. split.
  { rewrite EI. replace (Z.to_nat (zlen s)) with (length s) by (unfold zlen; lia). apply skipn_zlen. }
  split; [lia|]. intros i. rewrite G4, UG. destruct (Z.eqb_spec i (rptr r)) as [->|Ni].
  - destruct (Z.leb_spec (rptr r + 1) (rptr r)); [lia|]. reflexivity.
  - destruct ((rptr r + 1 <=? i) && (i <? rptr r + 1 + sz v)); reflexivity.
Qed.
Lemma rev_le w : 0 <= w < two64 -> word_of (rev (rev (le_bytes w))) = w.
Proof. intros H. rewrite rev_involutive. now apply word_le. Qed.
Lemma read_double_block r w rest : 0 <= w < two64 ->
  0 <= rptr r -> rptr r + 1 + 1 <= zlen (rblk r) -> zlen (robjs r) < num -> rinp r = rev (le_bytes w) ++ rest ->
  exists r', read_double start color num r = Ret (start + 8 * rptr r + 8, r') /\ rptr r' = rptr r + 1 + 1 /\
    robjs r' = robjs r ++ [start + 8 * rptr r + 8] /\ rinp r' = rest /\ zlen (rblk r') = zlen (rblk r) /\
    forall i, zget (rblk r') i = if i =? rptr r then Some (Make_header 1 254 color)
                                 else if (rptr r + 1 <=? i) && (i <? rptr r + 1 + 1) then zget [w] (i - (rptr r + 1)) else zget (rblk r) i.
Proof.
  intros W P0 PB NO EI. unfold read_double.
  unfold push_obj. destruct (Z.ltb_spec (zlen (robjs r)) num); [|lia]. cbn [bind rblk rptr robjs rinp].
  destruct (zset_some (rblk r) (rptr r) (Make_header 1 Double_tag color)) as (b & UE & UL & UG); [lia|].
  unfold update_raw. rewrite UE. cbn [bind]. rewrite getn_ok by lia. cbn [bind].
  set (ws := firstn (Z.to_nat 1) (skipn (Z.to_nat (rptr r + 1)) b)).
  assert (ZW : zlen ws = 1) by (unfold ws; apply zlen_firstn; rewrite zlen_skipn by lia; lia).
  assert (Z0 : zlen (concat (map le_bytes ws)) = 8) by (rewrite zlen_le; lia).
  rewrite EI. change (firstn 8 (rev (le_bytes w) ++ rest)) with (rev (le_bytes w)).
  change (skipn 8 (rev (le_bytes w) ++ rest)) with rest. set (dw := rev (le_bytes w)). assert (ZD : zlen dw = 8) by reflexivity.
  rewrite putn_ok by lia. cbn [bind]. change (Z.to_nat 0) with 0%nat. cbn [firstn app Nat.add].
  rewrite skipn_all2 by (change (length dw) with 8%nat; unfold zlen in Z0; lia). rewrite app_nil_r. unfold dw at 1. rewrite rev_le by exact W.
  destruct (words_get b (rptr r + 1) 1 [w]) as (b' & E4 & Z4 & G4); [lia|reflexivity|lia|]. rewrite E4. cbn [bind].
  eexists. split; [reflexivity|]. cbn [rptr robjs rinp rblk]. split; [reflexivity|]. split; [reflexivity|]. split; [reflexivity|].
  split; [lia|]. intros i. rewrite G4, UG. destruct (Z.eqb_spec i (rptr r)) as [->|Ni].
  - destruct (Z.leb_spec (rptr r + 1) (rptr r)); [lia|]. reflexivity.
  - destruct ((rptr r + 1 <=? i) && (i <? rptr r + 1 + 1)); reflexivity.
Qed.

Hypothesis SMALL : zlen G < 2 ^ 32.
Hypothesis SZB : forall a, In a G -> sz a < 2 ^ 28.

(** a value that is not a new object *)
Lemma follows_flat L bs v w : settled L v -> adj (tr L v) = w ->
  (forall f r rest, rok r L -> rinp r = bs ++ rest -> read (S f) r = Ret (w, with_inp r rest)) -> follows L [] bs v.
Proof.
  intros S E H rf r rest RO B N EI LF. rewrite app_nil_r in *. destruct rf as [|rf]; [lia|].
  exists (with_inp r rest). rewrite E, (H rf r rest RO EI). split; [reflexivity|]. split; [now apply rok_inp|].
  split; [reflexivity|]. split; [reflexivity|]. split; [reflexivity|constructor].
Qed.

Lemma sim_all : forall fuel, sim fuel.
Proof.
  induction fuel as [|fuel IH]; intros v s L K V FU.
  { exfalso. pose proof (NoDup_incl_length (k_nodup _ _ K) (k_incl _ _ K)). lia. }
  cbn [emit_compact]. destruct (is_long v) eqn:O.
  { (* integer *)
    destruct V as (R & _). destruct (long_val_long v O R) as [VL LR]. exists (put (emit_int (Long_val v)) s), [], (emit_int (Long_val v)).
    rewrite app_nil_r. split; [reflexivity|]. split; [now apply cok_put|]. split; [now left|]. split; [reflexivity|].
    split; [unfold emit_int; repeat (destruct (_ && _)%bool; [discriminate|]); destruct (_ || _)%bool; discriminate|]. split; [constructor|].
    apply (follows_flat L _ v v); [now left| |].
    - unfold Extern_Proofs.tr. rewrite O. unfold Extern_In.adj, adjust. unfold is_long in O. apply odd_mod in O.
      assert (v mod 4 = 1 \/ v mod 4 = 3) as [-> | ->] by lia; reflexivity.
    - intros f r rest RO EI. rewrite (read_int atoms start color num f r (Long_val v) rest LR EI), VL. reflexivity. }
  destruct V as (VR & V). destruct V as [V|V]; [unfold is_long in O; congruence|].
  assert (BB : exists t ws, block m v t ws /\ (ws = [] \/ In v G)).
  { destruct V as [[_ [t B]]|V]; [exists t, []; auto|]. apply (in_G m G GR) in V as V'. exists (tg v), (flds v). split; [apply V'|auto]. }
  destruct BB as (t & ws & B & VG). destruct (block_flds m v t ws B) as (_ & T & SZ & FL & E & HR). pose proof (tg_range m v) as TR.
  unfold ld. rewrite E. cbn [bind]. fold (sz v) (tg v). destruct (Z.eqb_spec (sz v) 0) as [S0|S0].
  { (* atom *)
    eexists _, [], _. rewrite app_nil_r. split; [reflexivity|]. split; [apply cok_put; exact K|]. split; [right; now left|]. split; [reflexivity|].
    split; [destruct (tg v <? 16); discriminate|]. split; [constructor|]. apply (follows_flat L _ v (Atom atoms (tg v))); [right; now left| |].
    - unfold Extern_Proofs.tr. rewrite O, S0. cbn [Z.eqb]. unfold Extern_In.adj, adjust.
      replace ((4 * tg v + 2) mod 4) with 2 by lia. replace ((4 * tg v + 2) / 4) with (tg v) by lia. reflexivity.
    - intros f r rest RO EI. destruct (Z.ltb_spec (tg v) 16) as [T16|T16].
      + rewrite (read_small_block atoms start color num f r (tg v) 0 rest); [reflexivity|lia|lia|].
        rewrite EI. replace (PREFIX_SMALL_BLOCK + tg v + 16 * 0) with (PREFIX_SMALL_BLOCK + tg v) by lia. reflexivity.
      + unfold Extern_Proofs.sz, Wosize_hd in S0. rewrite (read_block32 atoms start color num f r (hd_of m v) rest); [|lia|lia|exact EI].
        unfold Wosize_hd. rewrite S0. reflexivity. }
  assert (VIN : In v G) by (destruct VG as [->|VG]; [change (zlen (@nil Z)) with 0 in SZ; contradiction|exact VG]). clear VG V ws T SZ FL B.
  destruct (in_G m G GR v VIN) as (VP & V8 & BL & SZ & SP & DT & FR & FS). clear t.
  assert (LG : zlen L < 2 ^ 32) by (pose proof (NoDup_incl_length (k_nodup _ _ K) (k_incl _ _ K)); unfold zlen in *; lia).
  destruct (find_step s L v K VIN) as (tab & i & ET & EF & K1 & NEW). rewrite ET. cbn [bind]. rewrite EF. cbn [bind].
  destruct (in_dec Z.eq_dec v L) as [IL|IL].
  { (* seen before *)
    destruct (idx_get v L 0 IL) as [IR IG]. rewrite Z.sub_0_r in IG.
    eexists _, [], _. rewrite app_nil_r. split; [reflexivity|]. split; [apply (cok_put _ L (emit_shared (ccnt s - idx 0 L v)) K1)|].
    split; [right; now right|]. split; [reflexivity|].
    split; [unfold emit_shared; destruct (_ <? 256); [discriminate|]; destruct (_ <? 65536); discriminate|]. split; [constructor|].
    apply (follows_flat L _ v (phi L v)); [right; now right|now apply adj_block|].
    intros f r rest RO EI. rewrite (k_cnt _ _ K) in EI. rewrite (read_shared_ok atoms start color num f r (zlen L - idx 0 L v) rest) by (auto; lia).
    unfold read_shared. cbn [robjs with_inp]. rewrite (r_objs _ _ RO), zlen_map. unfold sub_raw.
    replace (zlen L - (zlen L - idx 0 L v)) with (idx 0 L v) by lia. rewrite zget_map, IG. reflexivity. }
  destruct (NEW IL) as (t' & EU & KN). rewrite EU. cbn [bind].
  assert (IV : In v (L ++ [v])) by (apply in_or_app; right; now left).
  assert (SET : settled (L ++ [v]) v) by (right; now right).
  assert (LD : load m v (Z.to_nat (sz v)) = Ret (flds v)).
  { destruct (block_flds m v _ _ BL) as (_ & _ & _ & FL & _). unfold Extern_Proofs.flds in *. destruct (load m v (Z.to_nat (sz v))) eqn:X; auto;
      exfalso; unfold zlen in SZ; cbn in SZ; lia. }
  assert (W1 : whs (L ++ [v]) = whs L + 1 + sz v) by (rewrite whs_app, whs_cons; change (whs []) with 0; lia).
  assert (WL : 0 <= whs L) by (apply whs_nonneg; apply K).
  assert (ZL1 : zlen (L ++ [v]) = zlen L + 1) by (rewrite zlen_app; reflexivity).
  assert (AV : forall r, rok r L -> start + 8 * rptr r + 8 = adj (tr (L ++ [v]) v)).
  { intros r RO. rewrite adj_block by auto. unfold phi. rewrite offs_new by exact IL. rewrite (r_ptr _ _ RO). lia. }
  destruct (Z.eqb_spec (tg v) String_tag) as [TS|TS].
  { (* string *)
    unfold String_tag in TS. destruct (string_case v VIN TS) as (str & pad & EB & PD & ZS & SL & GN).
    rewrite LD. cbn [bind]. fold (bytes_of (flds v)). rewrite SL. cbn [bind]. rewrite GN. cbn [bind].
    eexists _, [v], (emit_len (zlen str) ++ str). split; [reflexivity|]. split; [|split; [exact SET|]].
    { unfold grow, put. cbn [ctab ccnt c32 c64 cout]. replace (1 + (zlen str + 8) / 8) with (1 + sz v) by lia. apply KN. pose proof (zlen_nonneg str). lia. }
    split; [reflexivity|]. split; [unfold emit_len; destruct (_ <? 32); [discriminate|]; destruct (_ <? 256); discriminate|].
    split; [constructor; [intros X; lia|constructor]|].
    intros rf r rest RO BB NN EI LF. rewrite <- app_assoc in EI. destruct rf as [|rf]; [lia|].
    pose proof (SZB v VIN) as BV. pose proof (zlen_nonneg str) as NS.
    rewrite (read_len atoms start color num rf r (zlen str) (str ++ rest)); [|lia|exact EI].
    destruct (read_string_ok (with_inp r (str ++ rest)) v str pad rest) as (r' & RE & RP & RB & RI & RZ & RG); auto; cbn [with_inp rptr rblk robjs rinp];
      rewrite ?(r_ptr _ _ RO), ?(r_objs _ _ RO), ?zlen_map; try lia.
    cbn [with_inp rptr rblk robjs rinp] in *. exists r'. rewrite RE, (AV r RO). split; [reflexivity|].
    split; [apply (rok_new r L v); auto|]. split; [exact RI|]. split; [exact RZ|].
    rewrite (r_ptr _ _ RO) in RG. split.
    - intros j Hj. rewrite RG. destruct (Z.eqb_spec j (whs L)); [lia|]. destruct (Z.leb_spec (whs L + 1) j); [|reflexivity].
      destruct (Z.ltb_spec j (whs L + 1 + sz v)); [lia|reflexivity].
    - constructor; [|constructor]. apply new_holds; [exact IL| |].
      + rewrite RG, Z.eqb_refl, TS. reflexivity.
      + rewrite TS. cbn [Z.ltb Z.compare Pos.compare Pos.compare_cont]. intros j w X. pose proof (zget_range _ _ _ X). rewrite RG.
        destruct (Z.eqb_spec (whs L + 1 + j) (whs L)); [lia|]. destruct (Z.leb_spec (whs L + 1) (whs L + 1 + j)); [|lia].
        destruct (Z.ltb_spec (whs L + 1 + j) (whs L + 1 + sz v)); [|lia]. cbn [andb].
        replace (whs L + 1 + j - (whs L + 1)) with j by lia. exact X. }
  destruct (Z.eqb_spec (tg v) Double_tag) as [TD|TD].
  { (* real *)
    unfold Double_tag in TD. destruct (ORD v _ _ VIN BL) as (_ & OD & _). specialize (OD TD).
    destruct (flds v) as [|w [|w2 wr]] eqn:EFl; [change (zlen (@nil Z)) with 0 in OD; lia| |rewrite !zlen_cons in OD; pose proof (zlen_nonneg wr); lia].
    assert (MW : m v = Some w) by (rewrite <- (Z.add_0_r v); replace (v + 0) with (v + 8 * 0) by lia; apply (b_ws _ _ _ _ BL); reflexivity).
    rewrite MW. cbn [bind]. assert (WR : 0 <= w < two64) by (inversion_clear FR; assumption).
    eexists _, [v], (putch_bytes CODE_DOUBLE ++ rev (le_bytes w)). split; [reflexivity|]. split; [|split; [exact SET|]].
    { unfold grow, put. cbn [ctab ccnt c32 c64 cout]. assert (E2 : 1 + sz v = 2) by (rewrite SZ; reflexivity).
      pose proof (KN 3 (cout s ++ putch_bytes CODE_DOUBLE ++ rev (le_bytes w)) ltac:(lia)) as KX. rewrite E2 in KX. exact KX. }
    split; [reflexivity|]. split; [discriminate|]. split; [constructor; [intros X; lia|constructor]|].
    intros rf r rest RO BB NN EI LF. rewrite <- app_assoc in EI. destruct rf as [|rf]; [lia|].
    rewrite (read_double_ok atoms start color num rf r (rev (le_bytes w) ++ rest)) by exact EI.
    destruct (read_double_block (with_inp r (rev (le_bytes w) ++ rest)) w rest) as (r' & RE & RP & RB & RI & RZ & RG); auto; cbn [with_inp rptr rblk robjs rinp];
      rewrite ?(r_ptr _ _ RO), ?(r_objs _ _ RO), ?zlen_map; try lia.
    cbn [with_inp rptr rblk robjs rinp] in *. exists r'. rewrite RE, (AV r RO). split; [reflexivity|].
    split; [apply (rok_new r L v); auto; lia|]. split; [exact RI|]. split; [exact RZ|].
    rewrite (r_ptr _ _ RO) in RG. split.
    - intros j Hj. rewrite RG. destruct (Z.eqb_spec j (whs L)); [lia|]. destruct (Z.leb_spec (whs L + 1) j); [|reflexivity].
      destruct (Z.ltb_spec j (whs L + 1 + 1)); [lia|reflexivity].
    - constructor; [|constructor]. apply new_holds; [exact IL| |].
      + rewrite RG, Z.eqb_refl, TD. f_equal. f_equal. lia.
      + rewrite TD, EFl. cbn [Z.ltb Z.compare Pos.compare Pos.compare_cont]. intros j x X. pose proof (zget_range _ _ _ X) as Y. rewrite RG. rewrite OD in Y.
        destruct (Z.eqb_spec (whs L + 1 + j) (whs L)); [lia|]. destruct (Z.leb_spec (whs L + 1) (whs L + 1 + j)); [|lia].
        destruct (Z.ltb_spec (whs L + 1 + j) (whs L + 1 + 1)); [|lia]. cbn [andb].
        replace (whs L + 1 + j - (whs L + 1)) with j by lia. exact X. }
  (* block *)
  unfold data_tag in DT. unfold String_tag, Double_tag in TS, TD.
  assert (SC : tg v < 251) by lia.
  destruct (Z.eqb_spec (tg v) Abstract_tag) as [X|_]; [unfold Abstract_tag in X; lia|].
  destruct (Z.eqb_spec (tg v) Final_tag) as [X|_]; [unfold Final_tag in X; lia|]. cbn [orb].
  destruct (Z.eqb_spec (tg v) Closure_tag) as [X|_]; [unfold Closure_tag in X; lia|].
  destruct (ORD v _ _ VIN BL) as (_ & _ & O22). specialize (O22 SC).
  unfold grow, put. cbn [ctab ccnt c32 c64 cout].
  assert (K2 := KN (1 + sz v) (cout s ++ emit_header (hd_of m v) (tg v) (sz v)) ltac:(lia)).
  destruct (fields_sim fuel IH (flds v) v _ (L ++ [v]) K2 (FS SC)) as (s' & M & bs & EE & KE & SE & OE & DE & RE).
  { rewrite app_length. cbn. lia. }
  { apply (b_ws _ _ _ _ BL). }
  replace (Z.to_nat (sz v)) with (length (flds v)) by (rewrite SZ; unfold zlen; lia). rewrite EE. rewrite <- app_assoc in *. cbn [app] in *.
  assert (EL : L ++ v :: M = (L ++ [v]) ++ M) by now rewrite <- app_assoc.
  exists s', (v :: M), (emit_header (hd_of m v) (tg v) (sz v) ++ bs). split; [reflexivity|]. split; [exact KE|].
  split; [rewrite EL; now apply settled_app|]. split; [rewrite OE; cbn [cout]; now rewrite app_assoc|].
  split; [unfold emit_header; destruct (_ && _)%bool; discriminate|].
  assert (DV : done (L ++ v :: M) v) by (intros _; exact SE). split; [constructor; [exact DV|exact DE]|].
  pose proof (k_incl _ _ KE) as IK. pose proof (k_nodup _ _ KE) as NK.
  assert (W2 : whs (L ++ [v]) <= whs (L ++ v :: M)).
  { rewrite EL, (whs_app m (L ++ [v])). enough (0 <= whs M) by lia. apply whs_nonneg. intros x Hx. apply IK. apply in_or_app. right. now right. }
  assert (NL2 : zlen (L ++ [v]) <= zlen (L ++ v :: M)) by (rewrite EL, (zlen_app (L ++ [v])); pose proof (zlen_nonneg M); lia).
  intros rf r rest RO BB NN EI LF. rewrite <- app_assoc in EI. destruct rf as [|rf]; [lia|].
  rewrite (read_header atoms start color num rf r (hd_of m v) (bs ++ rest)); [|lia|unfold Extern_Proofs.sz, Wosize_hd in SZ; lia|exact EI].
  fold (tg v) (sz v). unfold read_block. destruct (Z.eqb_spec (sz v) 0); [lia|]. cbn [with_inp rptr rblk robjs rinp].
  unfold push_obj. cbn [with_inp rptr rblk robjs rinp]. rewrite (r_objs _ _ RO), zlen_map. destruct (Z.ltb_spec (zlen L) num); [|lia].
  cbn [bind rblk rptr robjs rinp]. rewrite (r_ptr _ _ RO).
  destruct (zset_some (rblk r) (whs L) (Make_header (sz v) (tg v) color)) as (b & UE & UL & UG); [lia|].
  unfold update_raw. rewrite UE. cbn [bind].
  destruct (RE rf (R b (whs L + 1 + sz v) (map (phi L) L ++ [start + 8 * whs L + 8]) (bs ++ rest)) rest (whs L + 1)) as
    (r' & RF & RO' & RI & RZ & RS & RV & RH); cbn [rblk rinp]; auto; try lia.
  { apply (rok_new r L v); auto; cbn [rptr robjs]; [rewrite (r_ptr _ _ RO); lia|rewrite (r_ptr _ _ RO), (r_objs _ _ RO); reflexivity]. }
  { rewrite EI in LF. unfold emit_header in LF. rewrite app_length in LF.
    assert (1 <= length (emit_header (hd_of m v) (tg v) (sz v)))%nat by (unfold emit_header; destruct (_ && _)%bool; cbn; lia).
    unfold emit_header in *. lia. }
  replace (Z.to_nat (sz v)) with (length (flds v)) by (rewrite SZ; unfold zlen; lia).
  rewrite RF. cbn [bind]. exists r'. cbn [rblk] in *. split.
  { do 2 f_equal. rewrite <- (r_ptr _ _ RO), (AV r RO). rewrite EL, (tr_app m (L ++ [v])) by exact SET. reflexivity. }
  split; [exact RO'|]. split; [exact RI|]. split; [lia|]. split.
  - intros j Hj. rewrite RS by lia. rewrite UG. destruct (Z.eqb_spec j (whs L)); [lia|reflexivity].
  - constructor; [|exact RH]. intros j w X. rewrite offs_new by exact IL. replace (8 * (0 + whs L + 1) / 8 - 1 + j) with (whs L + j) by lia.
    unfold Extern_In.seg2 in X. destruct (Z.ltb_spec (tg v) 251); [|lia]. rewrite zget_cons in X. destruct (Z.eqb_spec j 0) as [->|Nj].
    + rewrite Z.add_0_r, RS, UG, Z.eqb_refl by lia. exact X.
    + rewrite zget_map in X. destruct (zget (flds v) (j - 1)) as [w0|] eqn:Y; [|discriminate]. cbn [option_map] in X.
      replace (whs L + j) with (whs L + 1 + (j - 1)) by lia. rewrite (RV (j - 1) w0 Y). exact X.
Qed.

(** the block read is the one built from the objects *)
Lemma region_eq b : forall L, incl L G -> NoDup L -> zlen b = whs L -> Forall (holds b L) L -> b = concat (map (seg2 L) L).
Proof.
  intros L I N Z H.
  assert (P : forall L2 L1, L = L1 ++ L2 -> skipn (Z.to_nat (whs L1)) b = concat (map (seg2 L) L2)).
  { induction L2 as [|a L2 IH]; intros L1 EL.
    - rewrite app_nil_r in EL. rewrite <- EL. apply skipn_all2. pose proof (whs_nonneg L I). unfold zlen in Z. lia.
    - assert (IA : In a L) by (rewrite EL; apply in_or_app; right; now left).
      assert (NA : ~ In a L1) by (rewrite EL in N; apply NoDup_remove_2 in N; intros X; apply N; apply in_or_app; now left).
      specialize (IH (L1 ++ [a])). rewrite <- app_assoc in IH. specialize (IH EL).
      assert (I1 : incl L1 G) by (intros x Hx; apply I; rewrite EL; apply in_or_app; now left).
      assert (I2 : incl L2 G) by (intros x Hx; apply I; rewrite EL; apply in_or_app; right; now right).
      pose proof (whs_nonneg L1 I1) as W1. pose proof (whs_nonneg L2 I2) as W2.
      assert (ZA : zlen (seg2 L a) = 1 + sz a) by (apply (zlen_seg2 m G GR); auto).
      assert (SA : 0 < sz a) by (specialize (I a IA); apply (in_G m G GR) in I; lia).
      rewrite whs_app, whs_cons in IH. change (whs []) with 0 in IH.
      rewrite EL, whs_app, whs_cons in Z. cbn [map concat]. rewrite <- IH.
      assert (HA : holds b L a) by (rewrite Forall_forall in H; auto).
      apply list_ext. intros k. rewrite zget_skipn by lia. rewrite zget_app, ZA.
      destruct (Z.ltb_spec k 0) as [K0|K0].
      + destruct (Z.ltb_spec k (1 + sz a)); [|lia]. now rewrite zget_none by lia.
      + destruct (Z.ltb_spec k (1 + sz a)).
        * destruct (zget_some (seg2 L a) k) as [w Ew]; [lia|]. rewrite Ew.
          specialize (HA k w Ew). rewrite EL, offs_new in HA by exact NA.
          replace (8 * (0 + whs L1 + 1) / 8 - 1 + k) with (whs L1 + k) in HA by lia. exact HA.
        * rewrite zget_skipn by lia. destruct (Z.ltb_spec (k - (1 + sz a)) 0); [lia|]. f_equal. lia. }
  specialize (P L [] eq_refl). change (whs []) with 0 in P. exact P.
Qed.
End S.
