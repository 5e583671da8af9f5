(** Allocation from the free list, freeing, heap extension: the invariant is kept. *)
From Coq Require Import Sorting.Permutation Sorting.Sorted.
From Verif Require Import Base Freelist_Model Freelist_Proofs.

Section FL.
Variable Fl_head : Z.
Notation heap_ok := (heap_ok Fl_head).

Lemma in_split_perm {A} (x : A) T : In x T -> exists R, Permutation T (x :: R).
Proof. intros H. apply in_split in H as (l1 & l2 & ->). exists (l1 ++ l2). symmetry. apply Permutation_middle. Qed.
Lemma color_ok_White : color_ok White. Proof. now left. Qed.
Lemma color_ok_Blue : color_ok Blue. Proof. right; right; now left. Qed.
Lemma tag_ok_0 : tag_ok 0. Proof. unfold tag_ok; lia. Qed.
Local Hint Resolve color_ok_White color_ok_Blue tag_ok_0 : core.
Lemma White_Blue : White <> Blue. Proof. easy. Qed.

Lemma free_of_split F F1 x F2 m cs T : heap_ok m cs T F -> Fl_head :: F = F1 ++ x :: F2 -> (F1 <> [] \/ x <> Fl_head) -> In x F.
Proof.
  intros H E D. assert (X : In x (Fl_head :: F)) by (rewrite E, in_app_iff; cbn; tauto). destruct X as [X|X]; [|assumption].
  destruct D as [D|D]; [|congruence]. destruct F1 as [|y F1]; [congruence|]. cbn in E. injection E as -> ->. rewrite in_app_iff. right. now left.
Qed.

Lemma allocate_block_ok s T F F1 prev cur F2 wo w :
  heap_ok (m s) (chunks s) T F -> Fl_head :: F = F1 ++ prev :: cur :: F2 -> In (cur - 1, w) T -> 1 <= wo <= w ->
  forall hp s', allocate_block s (wo + 1) prev cur = (hp, s') ->
  hp = cur + w - (wo + 1) /\ fl_prev s' = prev /\ fl_last s' = fl_last s /\ chunks s' = chunks s /\ gc_sweep_hp s' = gc_sweep_hp s /\ chunk s' = chunk s /\
  limit s' = limit s /\ gc_phase s' = gc_phase s /\ fl_merge s' = (if (w <? wo + 2) && (fl_merge s =? cur) then prev else fl_merge s) /\
  forall t c m', tag_ok t -> color_ok c -> c <> Blue -> m' = wr (m s') hp (make_header wo t c) ->
  exists T' F' R, Permutation T ((cur - 1, w) :: R) /\ heap_ok m' (chunks s) T' F' /\
    ((w = wo /\ T' = (cur - 1, wo) :: R /\ Fl_head :: F' = F1 ++ prev :: F2) \/
     (w = wo + 1 /\ T' = (cur - 1, 0) :: (cur, wo) :: R /\ Fl_head :: F' = F1 ++ prev :: F2 /\ m' (cur - 1) = make_header 0 0 White) \/
     (wo + 2 <= w /\ T' = (cur - 1, w - wo - 1) :: (hp, wo) :: R /\ F' = F /\ m' (cur - 1) = make_header (w - wo - 1) 0 Blue)) /\
    (forall x, m' x <> m s x -> x = prev \/ cur - 1 <= x <= cur - 1 + w).
Proof.
  intros H EF A W hp s' E.
  assert (SZ : wosize_hd (hd_bp (m s) cur) = w) by (unfold hd_bp; now apply (tile_size _ H)).
  assert (PL : In prev (Fl_head :: F)) by (rewrite EF, in_app_iff; cbn; tauto).
  assert (CF : In cur F).
  { apply (free_of_split F (F1 ++ [prev]) cur F2 (m s) (chunks s) T H); [now rewrite <- app_assoc|left; now destruct F1]. }
  assert (PC : prev <> cur).
  { pose proof (list_nodup _ H) as ND. rewrite EF in ND. apply nodup_app in ND as (_ & ND & _). inversion ND as [|? ? N _]; subst. intros ->. apply N. now left. }
  pose proof (tile_pos _ H _ _ A) as TP.
  assert (PO : forall h v, In (h, v) T -> h <> prev) by (intros h v B; now apply (link_not_hdr _ H prev h v PL B)).
  assert (PO' : prev < cur - 1 \/ cur - 1 + w < prev).
  { destruct PL as [<-|PL]; [pose proof (tile_head _ H _ _ A); lia|]. destruct (free_tile _ H _ PL) as (v & B & V & _).
    destruct (h_dis _ _ _ _ _ H _ _ _ _ A B) as [[X _]|X]; [lia|lia]. }
  assert (CB : color_hd (m s (cur - 1)) = Blue) by (destruct (free_tile _ H _ CF) as (v & B & _ & C); assumption).
  unfold allocate_block in E. rewrite SZ in E. apply pair_equal_spec in E as [E1 E2]. symmetry in E2. assert (Eh : hp = cur + w - (wo + 1)) by lia. clear E1. split; [exact Eh|].
  destruct (Z.ltb_spec w (wo + 1 + 1)) as [C|C].
  - assert (Q : w <? wo + 2 = true) by (apply Z.ltb_lt; lia). rewrite Q. cbn [andb].
    assert (MS : m s' = wr (wr (m s) prev (m s cur)) (cur - 1) (make_header 0 0 White)).
    { rewrite E2. cbn. unfold next. destruct (fl_merge s =? cur); reflexivity. }
    assert (MG : fl_merge s' = if fl_merge s =? cur then prev else fl_merge s) by (rewrite E2; cbn; destruct (fl_merge s =? cur); reflexivity).
    split; [now rewrite E2|]. split; [rewrite E2; cbn; destruct (_ =? _); reflexivity|]. split; [rewrite E2; cbn; destruct (_ =? _); reflexivity|].
    split; [rewrite E2; cbn; destruct (_ =? _); reflexivity|]. split; [rewrite E2; cbn; destruct (_ =? _); reflexivity|].
    split; [rewrite E2; cbn; destruct (_ =? _); reflexivity|]. split; [rewrite E2; cbn; destruct (_ =? _); reflexivity|]. split; [exact MG|].
    intros t c m' Ht Hc NB Em'. destruct (in_split_perm _ _ A) as (R & PR).
    assert (CH : forall x, m' x <> m s x -> x = prev \/ cur - 1 <= x <= cur - 1 + w).
    { intros x X. rewrite Em', MS in X. unfold wr in X. destruct (Z.eqb_spec x hp); [lia|]. destruct (Z.eqb_spec x (cur - 1)); [lia|].
      destruct (Z.eqb_spec x prev); [now left|]. congruence. }
    destruct (Z.eq_dec w wo) as [Ew|Ew].
    + subst wo. assert (X : hp = cur - 1) by lia. clear Eh. subst hp.
      destruct (unlink _ _ _ _ F1 prev cur F2 w t c F H EF A Ht Hc NB) as (F' & EF' & H' & _).
      exists ((cur - 1, w) :: R), F', R. split; [assumption|]. split; [|split; [left; auto|exact CH]].
      apply (heap_perm _ _ _ _ _ _ PR). apply (heap_frame _ _ _ _ _ _ H'); intros; rewrite Em', MS; unfold wr; destruct (_ =? cur - 1); reflexivity.
    + assert (wo = w - 1) by lia. subst wo. assert (X : hp = cur) by lia. clear Eh. subst hp.
      destruct (unlink _ _ _ _ F1 prev cur F2 w 0 White F H EF A tag_ok_0 color_ok_White White_Blue) as (F' & EF' & H' & _).
      apply (heap_perm _ _ _ _ _ _ PR) in H'. replace w with (0 + 1 + (w - 1)) in H' at 2 by lia.
      apply (split_tile _ _ _ _ _ _ _ 0 White t c) in H'; try assumption; try lia; auto.
      2: { rewrite wr_same, color_make by (auto; lia). easy. } 2: easy.
      replace (cur - 1 + 1 + 0) with cur in H' by lia.
      exists ((cur - 1, 0) :: (cur, w - 1) :: R), F', R. split; [assumption|]. split; [|split; [right; left|exact CH]].
      * apply (heap_frame _ _ _ _ _ _ H'); intros; rewrite Em', MS; unfold wr; destruct (_ =? cur); try reflexivity; destruct (_ =? cur - 1); reflexivity.
      * split; [lia|]. split; [reflexivity|]. split; [assumption|]. rewrite Em', MS. rewrite wr_other by lia. apply wr_same.
  - assert (Q : w <? wo + 2 = false) by (apply Z.ltb_ge; lia). rewrite Q.
    assert (MS : m s' = wr (m s) (cur - 1) (make_header (w - (wo + 1)) 0 Blue)) by (rewrite E2; reflexivity).
    do 7 (split; [now rewrite E2|]). split; [now rewrite E2|].
    intros t c m' Ht Hc NB Em'. destruct (in_split_perm _ _ A) as (R & PR).
    assert (Ehp : hp = cur - 1 + 1 + (w - wo - 1)) by lia.
    assert (CH : forall x, m' x <> m s x -> x = prev \/ cur - 1 <= x <= cur - 1 + w).
    { intros x X. rewrite Em', MS in X. unfold wr in X. destruct (Z.eqb_spec x hp); [lia|]. destruct (Z.eqb_spec x (cur - 1)); [lia|]. congruence. }
    pose proof (heap_perm _ _ _ _ _ _ PR H) as H'. replace w with ((w - wo - 1) + 1 + wo) in H' at 1 by lia.
    apply (split_tile _ _ _ _ _ _ _ 0 Blue t c) in H'; try assumption; try lia; auto.
    rewrite <- Ehp in H'.
    exists ((cur - 1, w - wo - 1) :: (hp, wo) :: R), F, R. split; [assumption|]. split; [|split; [right; right|exact CH]].
    + replace (w - (wo + 1)) with (w - wo - 1) in MS by lia. rewrite Em', MS. exact H'.
    + split; [lia|]. split; [reflexivity|]. split; [reflexivity|]. rewrite Em', MS. rewrite wr_other by lia. rewrite wr_same. now replace (w - (wo + 1)) with (w - wo - 1) by lia.
Qed.

Lemma changes_in_list m cs T F x : heap_ok m cs T F -> In x (Fl_head :: F) ->
  x = Fl_head \/ exists h v, In (h, v) T /\ h <= x <= h + v /\ color_hd (m h) = Blue.
Proof.
  intros H [X|X]; [now left|]. right. destruct (free_tile _ H _ X) as (v & B & V & C). exists (x - 1), v. split; [assumption|]. split; [lia|assumption].
Qed.

(** the first half: joining with the following block.  mA is a memory in which the heap is well
    formed; the actual memory differs from it only inside the block. *)
Lemma merge_right_ok s T F F1 F2 bp w t c :
  heap_ok (m s) (chunks s) T F -> Fl_head :: F = F1 ++ fl_merge s :: F2 -> In (bp - 1, w) T -> m s (bp - 1) = make_header w t c -> tag_ok t -> color_ok c -> c <> Blue ->
  In (fl_prev s) (Fl_head :: F) ->
  exists w1 t1 c1 F2' s1 mA FA rgt R0,
    merge_right s bp = (make_header w1 t1 c1, bp + w1, hd 0 F2', s1) /\ tag_ok t1 /\ color_ok c1 /\
    Permutation T ((bp - 1, w) :: rgt ++ R0) /\ heap_ok mA (chunks s) ((bp - 1, w1) :: R0) FA /\ color_hd (mA (bp - 1)) <> Blue /\
    Fl_head :: FA = F1 ++ fl_merge s :: F2' /\
    ((rgt = [] /\ F2' = F2 /\ hd 0 F2 - 1 <> bp + w /\ w1 = w /\ m s1 (bp - 1) = m s (bp - 1) /\ mA (bp - 1) = m s (bp - 1)) \/
     (exists cur wc, rgt = [(cur - 1, wc)] /\ F2 = cur :: F2' /\ cur - 1 = bp + w /\ bp + w1 = cur + wc /\ In cur F /\ color_hd (m s (cur - 1)) = Blue)) /\
    (forall x, mA x <> m s1 x -> bp - 1 <= x < bp + w1) /\
    (forall x, m s1 x <> m s x -> x = bp - 1 \/ x = fl_merge s) /\
    fl_last s1 = fl_last s /\ fl_merge s1 = fl_merge s /\ chunks s1 = chunks s /\ gc_sweep_hp s1 = gc_sweep_hp s /\ chunk s1 = chunk s /\ limit s1 = limit s /\
    gc_phase s1 = gc_phase s /\ In (fl_prev s1) (Fl_head :: FA).
Proof.
  intros H EF A EH Ht Hc NB PV.
  set (prev := fl_merge s) in *.
  assert (PL : In prev (Fl_head :: F)) by (rewrite EF, in_app_iff; cbn; tauto).
  pose proof (tile_pos _ H _ _ A) as TP. pose proof (tile_head _ H _ _ A) as TH.
  assert (NX : m s prev = hd 0 F2).
  { pose proof (h_seg _ _ _ _ _ H) as S. rewrite EF in S. apply seg_app in S as [_ S]. cbn [seg] in S. apply S. }
  assert (NBc : color_hd (m s (bp - 1)) <> Blue) by (rewrite EH, color_make; auto; lia).
  unfold merge_right. fold prev. unfold hd_bp, next. rewrite EH, NX. rewrite wosize_make by (auto; lia).
  destruct (in_split_perm _ _ A) as (R & PR).
  destruct (Z.eqb_spec (bp + w) (hd 0 F2 - 1)) as [Eq|Ne].
  - destruct F2 as [|cur F3]; cbn [hd] in Eq |- *; [lia|].
    assert (CF : In cur F). { apply (free_of_split F (F1 ++ [prev]) cur F3 (m s) (chunks s) T H); [now rewrite <- app_assoc|left; now destruct F1]. }
    destruct (free_tile _ H _ CF) as (wc & B & WC & CB).
    assert (SZ : wosize_bp (m s) cur = wc) by (unfold wosize_bp, hd_bp; now apply (tile_size _ H)). rewrite SZ.
    assert (NC : m s cur = hd 0 F3).
    { pose proof (h_seg _ _ _ _ _ H) as S. rewrite EF in S. apply seg_app in S as [_ S]. cbn [seg] in S. apply S. }
    destruct (unlink _ _ _ _ F1 prev cur F3 wc 0 White F H EF B tag_ok_0 color_ok_White White_Blue) as (FA & EFA & HA & INA).
    assert (B' : In (cur - 1, wc) R).
    { apply (Permutation_in _ PR) in B as [B|B]; [injection B; lia|assumption]. }
    destruct (in_split_perm _ _ B') as (R0 & PR0).
    assert (PT : Permutation T ((bp - 1, w) :: (bp - 1 + 1 + w, wc) :: R0)).
    { rewrite PR, PR0. replace (bp - 1 + 1 + w) with (cur - 1) by lia. reflexivity. }
    apply (heap_perm _ _ _ _ _ _ PT) in HA.
    apply (merge_tile _ _ _ _ _ _ _ 0 White) in HA; auto.
    2: { replace (bp - 1 + 1 + w) with (cur - 1) by lia. rewrite wr_same, color_make by (auto; lia). easy. }
    2: { split; [easy|]. intros X. exfalso. apply NBc. rewrite <- X. f_equal. assert (bp - 1 <> prev) by exact (link_not_hdr _ H prev (bp - 1) w PL A).
         rewrite !wr_other by lia. reflexivity. }
    rewrite wosize_make by (auto; lia). rewrite NC.
    exists (w + (wc + 1)), 0, Blue, F3. eexists. eexists _, FA, [(cur - 1, wc)], R0.
    split; [reflexivity|]. split; [auto|]. split; [auto|]. split; [rewrite PR, PR0; reflexivity|].
    split; [replace (w + (wc + 1)) with (w + 1 + wc) by lia; exact HA|]. split; [rewrite wr_same, color_make by (auto; lia); easy|]. split; [exact EFA|].
    split; [right; exists cur, wc; repeat split; auto; lia|].
    set (s0 := if _ =? _ then _ else _).
    assert (M0 : m s0 = wr (m s) prev (hd 0 F3)) by (unfold s0; destruct (_ =? _); reflexivity).
    split; [|split; [|]].
    + intros x X. cbn [m set_m] in X. rewrite M0, NC in X. unfold wr in X. destruct (Z.eqb_spec x (bp - 1)); [lia|].
      destruct (Z.eqb_spec x (cur - 1)); [lia|]. congruence.
    + intros x X. cbn [m set_m] in X. rewrite M0 in X. unfold wr in X. destruct (Z.eqb_spec x (bp - 1)); [now left|].
      destruct (Z.eqb_spec x prev); [now right|]. congruence.
    + unfold s0, set_m, set_prev; cbn. fold prev. destruct (Z.eqb_spec (fl_prev s) cur) as [Ep|Ep]; cbn; repeat (split; [reflexivity|]).
      * change (In prev (Fl_head :: FA)). rewrite EFA. apply in_or_app. right. now left.
      * destruct PV as [PV|PV]; [now left|]. right. apply INA. auto.
  - exists w, t, c, F2, s, (m s), F, [], R. split; [reflexivity|]. split; [assumption|]. split; [assumption|].
    split; [exact PR|]. split; [now apply (heap_perm _ _ _ _ _ _ PR)|]. split; [assumption|]. split; [assumption|].
    split; [left; repeat split; auto|]. split; [congruence|]. split; [congruence|]. repeat (split; [reflexivity|]). assumption.
Qed.
Lemma merge_block_ok s T F F1 F2 bp w t c :
  heap_ok (m s) (chunks s) T F -> Fl_head :: F = F1 ++ fl_merge s :: F2 -> In (bp - 1, w) T -> m s (bp - 1) = make_header w t c -> tag_ok t -> color_ok c -> c <> Blue ->
  In (fl_prev s) (Fl_head :: F) ->
  forall adj s', fl_merge_block s bp = (adj, s') ->
  exists lft rgt R0 start size F' F2',
    Permutation T (lft ++ (bp - 1, w) :: rgt ++ R0) /\ heap_ok (m s') (chunks s) ((start, size) :: R0) F' /\ start + size + 1 = adj /\
    ((rgt = [] /\ F2' = F2 /\ hd 0 F2 - 1 <> bp + w /\ adj = bp + w) \/
     (exists cur wc, rgt = [(cur - 1, wc)] /\ F2 = cur :: F2' /\ cur - 1 = bp + w /\ adj = cur + wc /\ color_hd (m s (cur - 1)) = Blue)) /\
    ((exists wp, lft = [(fl_merge s - 1, wp)] /\ In (fl_merge s) F /\ fl_merge s + wp = bp - 1 /\ start = fl_merge s - 1 /\ Fl_head :: F' = F1 ++ fl_merge s :: F2' /\
        fl_merge s' = fl_merge s /\ color_hd (m s' start) = Blue) \/
     (lft = [] /\ start = bp - 1 /\ (forall wp, In (fl_merge s - 1, wp) T -> fl_merge s + wp <> bp - 1) /\
       ((size = 0 /\ Fl_head :: F' = F1 ++ fl_merge s :: F2' /\ fl_merge s' = fl_merge s /\ m s' start = m s start) \/
        (1 <= size /\ Fl_head :: F' = F1 ++ fl_merge s :: bp :: F2' /\ fl_merge s' = bp /\ color_hd (m s' start) = Blue)))) /\
    In (fl_prev s') (Fl_head :: F') /\
    fl_last s' = fl_last s /\ chunks s' = chunks s /\ gc_sweep_hp s' = gc_sweep_hp s /\ chunk s' = chunk s /\ limit s' = limit s /\ gc_phase s' = gc_phase s /\
    (forall h v, In (h, v) R0 -> m s' h = m s h) /\
    (forall x, m s' x <> m s x -> x = Fl_head \/ exists h v, In (h, v) T /\ h <= x <= h + v /\ (h = bp - 1 \/ color_hd (m s h) = Blue)).
Proof.
  intros H EF A EH Ht Hc NB PV adj s' E.
  destruct (merge_right_ok s T F F1 F2 bp w t c H EF A EH Ht Hc NB PV)
    as (w1 & t1 & c1 & F2' & s1 & mA & FA & rgt & R0 & Ex & Ht1 & Hc1 & PT & HA & NBA & EFA & RG & CA & CS & Z1 & Z2 & Z3 & Z4 & Z5 & Z6 & Z7 & PV1).
  unfold fl_merge_block in E. rewrite Ex in E. clear Ex. apply pair_equal_spec in E as [E1 E2]. unfold merge_left in E2. rewrite Z2 in E2.
  set (prev := fl_merge s) in *.
  assert (PL : In prev (Fl_head :: F)) by (rewrite EF, in_app_iff; cbn; tauto).
  pose proof (tile_pos _ H _ _ A) as TP. pose proof (tile_head _ H _ _ A) as TH.
  assert (AA : In (bp - 1, w1) ((bp - 1, w1) :: R0)) by now left.
  pose proof (tile_pos _ HA _ _ AA) as TPA. pose proof (tile_head _ HA _ _ AA) as THA.
  assert (PLA : In prev (Fl_head :: FA)) by (rewrite EFA, in_app_iff; cbn; tauto).
  assert (RD : forall h v, In (h, v) R0 -> bp - 1 + w1 < h \/ h + v < bp - 1).
  { intros h v B. destruct (h_dis _ _ _ _ _ HA _ _ _ _ AA (or_intror B)) as [[X1 X2]|X]; [|lia].
    pose proof (h_nodup _ _ _ _ _ HA) as N. inversion N as [|? ? N1 N2]. exfalso. apply N1. now rewrite X1, X2. }
  rewrite wosize_make in E2 by (auto; lia).
  assert (RNG : forall x, bp - 1 <= x < bp + w1 -> exists h v, In (h, v) T /\ h <= x <= h + v /\ (h = bp - 1 \/ color_hd (m s h) = Blue)).
  { intros x X. destruct (Z.lt_ge_cases x (bp + w)) as [Y|Y]; [exists (bp - 1), w; split; [assumption|]; split; [lia|now left]|].
    destruct RG as [(-> & _ & _ & X1 & _)|(cur & wc & -> & -> & X1 & X2 & CF & CB)]; [lia|]. exists (cur - 1), wc.
    split; [apply (Permutation_in _ (Permutation_sym PT)); right; now left|]. split; [lia|now right]. }
  assert (PCH : prev = Fl_head \/ exists h v, In (h, v) T /\ h <= prev <= h + v /\ (h = bp - 1 \/ color_hd (m s h) = Blue)).
  { destruct (changes_in_list _ _ _ _ _ H PL) as [X|(h & v & X1 & X2 & X3)]; [now left|right]. exists h, v. auto. }
  assert (RG' : (rgt = [] /\ F2' = F2 /\ hd 0 F2 - 1 <> bp + w /\ adj = bp + w) \/
     (exists cur wc, rgt = [(cur - 1, wc)] /\ F2 = cur :: F2' /\ cur - 1 = bp + w /\ adj = cur + wc /\ color_hd (m s (cur - 1)) = Blue)).
  { destruct RG as [(X1 & X2 & X3 & X4 & _)|(cur & wc & X1 & X2 & X3 & X4 & _ & X5)]; [left; repeat split; auto; lia|right]. exists cur, wc. repeat split; auto; lia. }
  assert (FT : In prev FA -> exists v, In (prev - 1, v) R0 /\ 1 <= v /\ color_hd (mA (prev - 1)) = Blue).
  { intros X. destruct (free_tile _ HA _ X) as (v & [B|B] & V & CB); [injection B as B _; rewrite <- B in CB; contradiction|eauto]. }
  assert (HP : m s1 (prev - 1) = mA (prev - 1)).
  { destruct (Z.eq_dec (mA (prev - 1)) (m s1 (prev - 1))) as [X|X]; [auto|]. exfalso. apply CA in X. destruct PLA as [X1|X1]; [lia|].
    apply FT in X1 as (v & B & V & CB). apply RD in B. lia. }
  assert (PX : prev < bp - 1 \/ bp - 1 + w1 < prev).
  { destruct PLA as [X1|X1]; [lia|]. apply FT in X1 as (v & B & V & CB). apply RD in B. lia. }
  assert (R0m : forall h v, In (h, v) R0 -> h <> prev /\ m s1 h = m s h).
  { intros h v B. assert (h <> prev) by exact (link_not_hdr _ HA prev h v PLA (or_intror B)). split; [assumption|].
    destruct (Z.eq_dec (m s1 h) (m s h)) as [X|X]; [assumption|]. apply CS in X. apply RD in B as B'. pose proof (tile_pos _ HA _ _ (or_intror B)). lia. }
  assert (AC : forall x, x < bp - 1 \/ bp + w1 <= x -> m s1 x = mA x).
  { intros x X. destruct (Z.eq_dec (mA x) (m s1 x)) as [Y|Y]; [auto|]. apply CA in Y. lia. }
  assert (R0T : forall h v, In (h, v) R0 -> In (h, v) T).
  { intros h v B. apply (Permutation_in _ (Permutation_sym PT)). right. apply in_or_app. now right. }
  (* insertion in the list, or nothing *)
  assert (INS : (forall wp, In (prev - 1, wp) T -> prev + wp <> bp - 1) -> s' = (if w1 >? 0
            then set_merge (set_m (set_m (set_m s1 (wr (m s1) (bp - 1) (bluehd_hd (make_header w1 t1 c1)))) (wr (wr (m s1) (bp - 1) (bluehd_hd (make_header w1 t1 c1))) bp (hd 0 F2')))
                    (wr (wr (wr (m s1) (bp - 1) (bluehd_hd (make_header w1 t1 c1))) bp (hd 0 F2')) prev bp)) bp
            else s1) ->
    exists lft rgt R0 start size F' F2',
    Permutation T (lft ++ (bp - 1, w) :: rgt ++ R0) /\ heap_ok (m s') (chunks s) ((start, size) :: R0) F' /\ start + size + 1 = adj /\
    ((rgt = [] /\ F2' = F2 /\ hd 0 F2 - 1 <> bp + w /\ adj = bp + w) \/
     (exists cur wc, rgt = [(cur - 1, wc)] /\ F2 = cur :: F2' /\ cur - 1 = bp + w /\ adj = cur + wc /\ color_hd (m s (cur - 1)) = Blue)) /\
    ((exists wp, lft = [(fl_merge s - 1, wp)] /\ In (fl_merge s) F /\ fl_merge s + wp = bp - 1 /\ start = fl_merge s - 1 /\ Fl_head :: F' = F1 ++ fl_merge s :: F2' /\
        fl_merge s' = fl_merge s /\ color_hd (m s' start) = Blue) \/
     (lft = [] /\ start = bp - 1 /\ (forall wp, In (fl_merge s - 1, wp) T -> fl_merge s + wp <> bp - 1) /\
       ((size = 0 /\ Fl_head :: F' = F1 ++ fl_merge s :: F2' /\ fl_merge s' = fl_merge s /\ m s' start = m s start) \/
        (1 <= size /\ Fl_head :: F' = F1 ++ fl_merge s :: bp :: F2' /\ fl_merge s' = bp /\ color_hd (m s' start) = Blue)))) /\
    In (fl_prev s') (Fl_head :: F') /\
    fl_last s' = fl_last s /\ chunks s' = chunks s /\ gc_sweep_hp s' = gc_sweep_hp s /\ chunk s' = chunk s /\ limit s' = limit s /\ gc_phase s' = gc_phase s /\
    (forall h v, In (h, v) R0 -> m s' h = m s h) /\
    (forall x, m s' x <> m s x -> x = Fl_head \/ exists h v, In (h, v) T /\ h <= x <= h + v /\ (h = bp - 1 \/ color_hd (m s h) = Blue))).
  { intros NL Es. destruct (Z.gtb_spec w1 0) as [W|W].
    - destruct (link _ mA (chunks s) _ FA F1 prev F2' bp w1 t1 HA EFA AA ltac:(lia) NBA Ht1) as (F' & EF' & H' & IN').
      rewrite blue_make in Es by (auto; lia).
      assert (MS : m s' = wr (wr (wr (m s1) (bp - 1) (make_header w1 t1 Blue)) bp (hd 0 F2')) prev bp) by now rewrite Es.
      exists [], rgt, R0, (bp - 1), w1, F', F2'. split; [exact PT|]. split; [|split; [lia|split; [exact RG'|split; [|split; [|]]]]].
      + apply (heap_frame _ _ _ _ _ _ H').
        * intros h v B. rewrite MS. unfold wr. destruct (h =? prev); [reflexivity|]. destruct (h =? bp); [reflexivity|]. destruct (Z.eqb_spec h (bp - 1)); [reflexivity|].
          apply AC. destruct B as [B|B]; [congruence|]. apply RD in B as B'. pose proof (tile_pos _ HA _ _ (or_intror B)). lia.
        * intros x X. rewrite MS. unfold wr. destruct (Z.eqb_spec x prev); [reflexivity|]. destruct (Z.eqb_spec x bp) as [|Nb]; [reflexivity|].
          destruct (Z.eqb_spec x (bp - 1)) as [|Nb']; [reflexivity|]. apply AC. destruct X as [X|X]; [lia|]. apply IN' in X as [X|X]; [|congruence].
          destruct (free_tile _ HA _ X) as (v & [B|B] & V & _); [injection B; lia|]. apply RD in B. lia.
        * rewrite MS. assert (Y : prev <> Fl_head - 1). { destruct PLA as [X1|X1]; [lia|]. apply (free_pos _ HA) in X1. lia. }
          rewrite !wr_other by lia. apply AC. lia.
      + right. split; [reflexivity|]. split; [reflexivity|]. split; [exact NL|]. right. split; [lia|]. split; [exact EF'|]. split; [now rewrite Es|].
        rewrite MS. rewrite !wr_other by lia. rewrite wr_same. apply color_make; auto; lia.
      + replace (fl_prev s') with (fl_prev s1) by (rewrite Es; reflexivity). destruct PV1 as [X|X]; [now left|]. right. apply IN'. now left.
      + rewrite Es. cbn [fl_last chunks gc_sweep_hp chunk limit gc_phase set_merge set_m]. do 6 (split; [congruence|]). rewrite <- Es. split.
        * intros h v B. destruct (R0m _ _ B) as [X Y]. apply RD in B as B'. pose proof (tile_pos _ HA _ _ (or_intror B)). rewrite MS, !wr_other by lia. assumption.
        * intros x X. rewrite MS in X. destruct (Z.eq_dec x prev) as [->|Np]; [exact PCH|]. destruct (Z.eq_dec x bp) as [->|Nb]; [right; apply RNG; lia|].
          destruct (Z.eq_dec x (bp - 1)) as [->|Nb']; [right; apply RNG; lia|]. rewrite !wr_other in X by assumption. apply CS in X. lia.
    - assert (w1 = 0) by lia. subst w1.
      assert (RG0 : rgt = [] /\ F2' = F2 /\ hd 0 F2 - 1 <> bp + w /\ w = 0 /\ m s1 (bp - 1) = m s (bp - 1) /\ mA (bp - 1) = m s (bp - 1)).
      { destruct RG as [(X1 & X2 & X3 & X4 & X5 & X6)|(cur & wc & X1 & X2 & X3 & X4 & CF & _)]; [auto 10|]. exfalso. 
        assert (Bc : In (cur - 1, wc) T). { apply (Permutation_in _ (Permutation_sym PT)). rewrite X1. right. now left. } pose proof (tile_pos _ H _ _ Bc). lia. }
      destruct RG0 as (-> & -> & X3 & -> & X5 & X6).
      exists [], [], R0, (bp - 1), 0, FA, F2. rewrite Es. split; [exact PT|]. split; [|split; [lia|split; [exact RG'|split; [|split; [exact PV1|]]]]].
      + apply (heap_frame _ _ _ _ _ _ HA).
        * intros h v B. destruct (Z.eq_dec h (bp - 1)) as [->|Nb].
          -- congruence.
          -- apply AC. destruct B as [B|B]; [congruence|]. apply RD in B as B'. pose proof (tile_pos _ HA _ _ (or_intror B)). lia.
        * intros x X. apply AC. destruct X as [X|X]; [lia|]. destruct (free_tile _ HA _ X) as (v & [B|B] & V & CB); [injection B as B _; lia|]. apply RD in B. lia.
        * apply AC. lia.
      + right. split; [reflexivity|]. split; [reflexivity|]. split; [exact NL|]. left. split; [reflexivity|]. split; [exact EFA|]. split; [exact Z2|exact X5].
      + do 6 (split; [congruence|]). split.
        * intros h v B. now apply (R0m _ v).
        * intros x X. apply CS in X as [->| ->]; [right; apply RNG; lia|exact PCH]. }
  clear RG TH TP.
  destruct PLA as [PLA|PLA].
  - (* the previous block is the head of the list *)
    assert (SZ : wosize_bp (m s1) prev = 0).
    { unfold wosize_bp, hd_bp. rewrite HP, <- PLA, (h_sent _ _ _ _ _ HA). apply wosize_make; auto; lia. }
    rewrite SZ in E2. destruct (Z.eqb_spec (prev + 0) (bp - 1)) as [X|_]; [lia|].
    apply INS; [|now symmetry]. intros wp X; pose proof (tile_head _ H _ _ X); pose proof (tile_pos _ H _ _ X); lia.
  - apply FT in PLA as F0. destruct F0 as (wp & Bp & WP & CBp).
    assert (SZ : wosize_bp (m s1) prev = wp). { unfold wosize_bp, hd_bp. rewrite HP. apply (tile_size _ HA). now right. }
    rewrite SZ in E2. destruct (Z.eqb_spec (prev + wp) (bp - 1)) as [X|X].
    + destruct (in_split_perm _ _ Bp) as (R1 & PR1).
      assert (PT2 : Permutation ((bp - 1, w1) :: R0) ((prev - 1, wp) :: (prev - 1 + 1 + wp, w1) :: R1)).
      { rewrite PR1. replace (prev - 1 + 1 + wp) with (bp - 1) by lia. apply perm_swap. }
      pose proof (heap_perm _ _ _ _ _ _ PT2 HA) as H'.
      apply (merge_tile _ _ _ _ _ _ _ 0 Blue) in H'; auto; [|replace (prev - 1 + 1 + wp) with (bp - 1) by lia; assumption|tauto].
      assert (R1i : forall h v, In (h, v) R1 -> In (h, v) R0) by (intros h v B; apply (Permutation_in _ (Permutation_sym PR1)); now right).
      assert (R1p : forall h v, In (h, v) R1 -> h <> prev - 1).
      { intros h v B ->. pose proof (R1i _ _ B) as B'. rewrite (tile_uniq _ HA _ _ _ (or_intror B') (or_intror Bp)) in B.
        pose proof (Permutation_NoDup PT2 (h_nodup _ _ _ _ _ HA)) as N. inversion N as [|? ? N1 _]; subst. apply N1. right. exact B. }
      assert (MS : m s' = wr (m s1) (prev - 1) (make_header (wp + (w1 + 1)) 0 Blue)) by now rewrite <- E2.
      exists [(prev - 1, wp)], rgt, R1, (prev - 1), (wp + 1 + w1), FA, F2'.
      split; [|split; [|split; [lia|split; [exact RG'|split; [|split; [|]]]]]].
      * rewrite PT. cbn [app]. rewrite PR1. rewrite perm_swap. rewrite <- Permutation_middle. reflexivity.
      * apply (heap_frame _ _ _ _ _ _ H').
        -- intros h v B. rewrite MS. replace (wp + (w1 + 1)) with (wp + 1 + w1) by lia. unfold wr. destruct (Z.eqb_spec h (prev - 1)); [reflexivity|].
           apply AC. destruct B as [B|B]; [congruence|]. apply R1i in B. apply RD in B as B'. pose proof (tile_pos _ HA _ _ (or_intror B)). lia.
        -- intros x Y. rewrite MS. replace (wp + (w1 + 1)) with (wp + 1 + w1) by lia. unfold wr. destruct (Z.eqb_spec x (prev - 1)); [reflexivity|].
           apply AC. destruct Y as [Y|Y]; [lia|]. destruct (free_tile _ HA _ Y) as (v & [B|B] & V & CB); [injection B as B _; rewrite <- B in CB; contradiction|]. apply RD in B. lia.
        -- rewrite MS. pose proof (tile_head _ HA _ _ (or_intror Bp)). rewrite !wr_other by lia. apply AC. lia.
      * left. exists wp. split; [reflexivity|]. split.
        { destruct PL as [Y|Y]; [|assumption]. pose proof (tile_head _ HA _ _ (or_intror Bp)). lia. }
        split; [assumption|]. split; [reflexivity|]. split; [exact EFA|]. split; [rewrite <- E2; exact Z2|]. rewrite MS, wr_same. apply color_make; auto; lia.
      * now rewrite <- E2.
      * rewrite <- E2. cbn [fl_last chunks gc_sweep_hp chunk limit gc_phase set_merge set_m]. do 6 (split; [congruence|]). rewrite E2, MS. split.
        -- intros h v B. rewrite wr_other by (eapply R1p; eauto). apply (R0m h v). auto.
        -- intros x Y. destruct (Z.eq_dec x (prev - 1)) as [->|Np].
           ++ right. exists (prev - 1), wp. split; [auto|]. split; [lia|]. right. rewrite <- CBp, <- HP. now rewrite (proj2 (R0m _ _ Bp)).
           ++ rewrite wr_other in Y by assumption. apply CS in Y as [->| ->]; [right; apply RNG; lia|exact PCH].
    + apply INS; [|now symmetry]. intros wp' Y. rewrite (tile_uniq _ H _ _ _ Y (R0T _ _ Bp)). assumption.
Qed.
End FL.
