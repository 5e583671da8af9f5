(** The invariant of the free-list allocator and its preservation. *)
From Coq Require Import Sorting.Permutation.
From Verif Require Import Base Freelist_Model.

(** ** headers *)
Definition color_ok (c : Z) : Prop := c = White \/ c = Gray \/ c = Blue \/ c = Black.
Definition tag_ok (t : Z) : Prop := 0 <= t < 256.

Lemma wosize_make w t c : 0 <= w -> tag_ok t -> color_ok c -> wosize_hd (make_header w t c) = w.
Proof.
  intros Hw Ht Hc. unfold wosize_hd, make_header. rewrite Z.shiftr_div_pow2 by lia. change (2 ^ 10) with 1024.
  unfold color_ok, White, Gray, Blue, Black, tag_ok in *. symmetry. apply (Z.div_unique _ _ _ (c + t)); lia.
Qed.
Lemma land_low a b n : 0 <= n -> 0 <= b < 2 ^ n -> Z.land a b = Z.land (a mod 2 ^ n) b.
Proof.
  intros Hn Hb. rewrite <- (Z.land_ones a n) by lia. rewrite <- Z.land_assoc. f_equal.
  rewrite Z.land_comm, Z.land_ones by lia. symmetry. apply Z.mod_small. lia.
Qed.
Lemma color_make w t c : 0 <= w -> tag_ok t -> color_ok c -> color_hd (make_header w t c) = c.
Proof.
  intros Hw Ht Hc. unfold color_hd, Black. rewrite (land_low _ 768 10) by lia.
  assert (E : make_header w t c mod 2 ^ 10 = c + t).
  { change (2 ^ 10) with 1024. unfold make_header. symmetry. unfold color_ok, White, Gray, Blue, Black, tag_ok in *. apply (Z.mod_unique _ _ w); lia. }
  rewrite E. change 768 with (Z.shiftl 3 8).
  assert (X : Z.land (c + t) (Z.shiftl 3 8) = Z.shiftl (Z.land (Z.shiftr (c + t) 8) 3) 8).
  { apply Z.bits_inj'. intros n Hn. rewrite Z.land_spec, !Z.shiftl_spec, Z.land_spec by lia.
    destruct (Z.lt_ge_cases n 8).
    - rewrite !(Z.testbit_neg_r _ (n - 8)) by lia. now rewrite !andb_false_r.
    - rewrite Z.shiftr_spec by lia. now replace (n - 8 + 8) with n by lia. }
  rewrite X. rewrite Z.shiftr_div_pow2 by lia. change (2 ^ 8) with 256.
  unfold tag_ok in Ht. destruct Hc as [->|[->|[->| ->]]]; unfold White, Gray, Blue, Black.
  - replace ((0 + t) / 256) with 0 by (apply (Z.div_unique _ _ _ t); lia). reflexivity.
  - replace ((256 + t) / 256) with 1 by (apply (Z.div_unique _ _ _ t); lia). reflexivity.
  - replace ((512 + t) / 256) with 2 by (apply (Z.div_unique _ _ _ t); lia). reflexivity.
  - replace ((768 + t) / 256) with 3 by (apply (Z.div_unique _ _ _ t); lia). reflexivity.
Qed.
Lemma tag_make w t c : 0 <= w -> tag_ok t -> color_ok c -> tag_hd (make_header w t c) = t.
Proof.
  intros Hw Ht Hc. unfold tag_hd. change 255 with (Z.ones 8). rewrite Z.land_ones by lia. change (2 ^ 8) with 256.
  unfold color_ok, tag_ok, White, Gray, Blue, Black, make_header in *. symmetry.
  apply (Z.mod_unique _ _ (w * 4 + c / 256)); [lia|].
  destruct Hc as [->|[->|[->| ->]]]; change (0 / 256) with 0; change (256 / 256) with 1; change (512 / 256) with 2; change (768 / 256) with 3; lia.
Qed.
Lemma ldiff_land a b : Z.ldiff a b = a - Z.land a b.
Proof.
  assert (E : Z.ldiff (Z.land a b) a = 0).
  { apply Z.bits_inj'. intros n Hn. rewrite Z.ldiff_spec, Z.land_spec, Z.bits_0. destruct (Z.testbit a n); cbn; now rewrite ?andb_false_r. }
  rewrite (Z.sub_nocarry_ldiff a (Z.land a b) E).
  apply Z.bits_inj'. intros n Hn. rewrite !Z.ldiff_spec, Z.land_spec. destruct (Z.testbit a n), (Z.testbit b n); reflexivity.
Qed.
Lemma white_make w t c : 0 <= w -> tag_ok t -> color_ok c -> whitehd_hd (make_header w t c) = make_header w t White.
Proof.
  intros Hw Ht Hc. unfold whitehd_hd. rewrite ldiff_land. pose proof (color_make w t c Hw Ht Hc) as C. unfold color_hd in C. rewrite C.
  unfold make_header, White. lia.
Qed.
Lemma lor_add a b : Z.land a b = 0 -> Z.lor a b = a + b.
Proof. intros H. rewrite (Z.add_nocarry_lxor a b H). symmetry. now apply Z.lxor_lor. Qed.
Lemma lor_make w t x : 0 <= w -> tag_ok t -> Z.land x Black = x -> Z.lor (make_header w t White) x = make_header w t White + x.
Proof.
  intros Hw Ht Hx. apply lor_add. rewrite <- Hx, (Z.land_comm x), Z.land_assoc.
  pose proof (color_make w t White Hw Ht (or_introl eq_refl)) as C. unfold color_hd in C. rewrite C. reflexivity.
Qed.
Lemma blue_make w t c : 0 <= w -> tag_ok t -> color_ok c -> bluehd_hd (make_header w t c) = make_header w t Blue.
Proof.
  intros Hw Ht Hc. unfold bluehd_hd. pose proof (white_make w t c Hw Ht Hc) as W. unfold whitehd_hd in W. rewrite W.
  rewrite lor_make by (assumption || reflexivity). unfold make_header, White, Blue. lia.
Qed.
Lemma gray_make w t c : 0 <= w -> tag_ok t -> color_ok c -> grayhd_hd (make_header w t c) = make_header w t Gray.
Proof.
  intros Hw Ht Hc. unfold grayhd_hd. pose proof (white_make w t c Hw Ht Hc) as W. unfold whitehd_hd in W. rewrite W.
  rewrite lor_make by (assumption || reflexivity). unfold make_header, White, Gray. lia.
Qed.
Lemma black_make w t c : 0 <= w -> tag_ok t -> color_ok c -> blackhd_hd (make_header w t c) = make_header w t Black.
Proof.
  intros Hw Ht Hc. unfold blackhd_hd. 
  assert (E : Z.lor (make_header w t c) Black = Z.lor (Z.ldiff (make_header w t c) Black) Black).
  { apply Z.bits_inj'. intros n Hn. rewrite !Z.lor_spec, Z.ldiff_spec. destruct (Z.testbit _ n), (Z.testbit Black n); reflexivity. }
  rewrite E. pose proof (white_make w t c Hw Ht Hc) as W. unfold whitehd_hd in W. rewrite W.
  rewrite lor_make by (assumption || reflexivity). unfold make_header, White, Black. lia.
Qed.

(** ** linked lists in memory *)
Fixpoint seg (m : mem) (l : list Z) (x : Z) : Prop :=
  match l with [] => True | a :: l => m a = hd x l /\ seg m l x end.
Lemma seg_app m l1 l2 x : seg m (l1 ++ l2) x <-> seg m l1 (hd x l2) /\ seg m l2 x.
Proof.
  induction l1 as [|a l1 IH]; cbn [seg app]; [tauto|]. rewrite IH. destruct l1 as [|b l1]; cbn [app hd]; tauto.
Qed.
Lemma seg_frame m m' l x : (forall a, In a l -> m' a = m a) -> seg m l x -> seg m' l x.
Proof.
  intros H. induction l as [|a l IH]; cbn [seg]; [tauto|]. intros [H1 H2]. split.
  - rewrite H by now left. assumption.
  - apply IH; [|assumption]. intros b Hb. apply H. now right.
Qed.
Lemma hd_in {A} (x : A) l : l <> [] -> In (hd x l) l.
Proof. destruct l; [easy|now left]. Qed.
Lemma wr_same m a v : wr m a v a = v.
Proof. unfold wr. now rewrite Z.eqb_refl. Qed.
Lemma wr_other m a v x : x <> a -> wr m a v x = m x.
Proof. unfold wr. intros H. now destruct (Z.eqb_spec x a). Qed.
Lemma nodup_app {A} (l1 l2 : list A) : NoDup (l1 ++ l2) -> NoDup l1 /\ NoDup l2 /\ forall x, In x l1 -> In x l2 -> False.
Proof.
  induction l1 as [|a l1 IH]; cbn; intros H.
  - split; [constructor|]. split; [assumption|]. tauto.
  - inversion H as [|? ? N H']; subst. destruct (IH H') as (H1 & H2 & H3). rewrite in_app_iff in N. split; [|split; [assumption|]].
    + constructor; tauto.
    + intros x [->|Hx] Hy; [tauto|eauto].
Qed.
Lemma seg_remove m l1 p c l2 x : NoDup (l1 ++ p :: c :: l2) -> seg m (l1 ++ p :: c :: l2) x -> seg (wr m p (m c)) (l1 ++ p :: l2) x.
Proof.
  intros ND S. apply seg_app in S as [S1 S2]. cbn [seg hd] in S1, S2. destruct S2 as (E1 & E2 & S3).
  apply nodup_app in ND as (N1 & N2 & N3). inversion N2 as [|? ? N4 N5]; subst. inversion N5 as [|? ? N6 N7]; subst.
  apply seg_app. cbn [hd seg]. split; [|split].
  - apply (seg_frame m); [|assumption]. intros a Ha. apply wr_other. intros ->. apply (N3 p); [assumption|now left].
  - rewrite wr_same. exact E2.
  - apply (seg_frame m); [|assumption]. intros a Ha. apply wr_other. intros ->. apply N4. now right.
Qed.
Lemma seg_insert m l1 p c l2 x : NoDup (l1 ++ p :: l2) -> ~ In c (l1 ++ p :: l2) -> seg m (l1 ++ p :: l2) x ->
  seg (wr (wr m c (hd x l2)) p c) (l1 ++ p :: c :: l2) x.
Proof.
  intros ND NI S. apply seg_app in S as [S1 S2]. cbn [seg hd] in S1, S2. destruct S2 as (E1 & S3).
  apply nodup_app in ND as (N1 & N2 & N3). inversion N2 as [|? ? N4 N5]; subst. rewrite in_app_iff in NI. cbn in NI.
  apply seg_app. cbn [hd seg]. repeat split.
  - apply (seg_frame m); [|assumption]. intros a Ha. rewrite !wr_other; [reflexivity| |]; intros ->; [tauto|].
    apply (N3 p); [assumption|now left].
  - apply wr_same.
  - rewrite wr_other by (intros ->; tauto). apply wr_same.
  - apply (seg_frame m); [|assumption]. intros a Ha. rewrite !wr_other; [reflexivity| |]; intros ->; tauto.
Qed.

(** ** the heap: tiles (header address, size), chunks, and the free list *)
Definition tile := (Z * Z)%type.
Fixpoint words (T : list tile) : Z := match T with [] => 0 | (_, w) :: T => w + 1 + words T end.
Fixpoint csize (cs : list (Z * Z)) : Z := match cs with [] => 0 | (_, n) :: cs => n + csize cs end.

Section FL.
Variable Fl_head : Z.

Record heap_ok (m : mem) (cs : list (Z * Z)) (T : list tile) (F : list Z) : Prop := {
  h_hdr : forall hp w, In (hp, w) T -> 0 <= w /\ exists t c, tag_ok t /\ color_ok c /\ m hp = make_header w t c;
  h_dis : forall hp w hp' w', In (hp, w) T -> In (hp', w') T -> (hp = hp' /\ w = w') \/ hp + w < hp' \/ hp' + w' < hp;
  h_nodup : NoDup T;
  h_in : forall hp w, In (hp, w) T -> exists a n, In (a, n) cs /\ a <= hp /\ hp + w < a + n;
  h_cov : forall a n x, In (a, n) cs -> a <= x < a + n -> exists hp w, In (hp, w) T /\ hp <= x <= hp + w;
  h_sum : words T = csize cs;
  h_chunk : forall a n, In (a, n) cs -> 1 < a /\ 0 < n /\ ~ (a <= Fl_head < a + n) /\ ~ (a <= Fl_head - 1 < a + n);
  h_chdis : forall a n a' n', In (a, n) cs -> In (a', n') cs -> (a = a' /\ n = n') \/ a + n < a' \/ a' + n' < a;
  h_head : 1 < Fl_head;
  h_seg : seg m (Fl_head :: F) 0;
  h_fnd : NoDup F;
  h_free : forall bp, In bp F <-> exists w, In (bp - 1, w) T /\ color_hd (m (bp - 1)) = Blue;
  h_blue : forall hp w, In (hp, w) T -> color_hd (m hp) = Blue -> 1 <= w;
  h_sent : m (Fl_head - 1) = make_header 0 0 Blue
}.

Lemma heap_perm m cs T T' F : Permutation T T' -> heap_ok m cs T F -> heap_ok m cs T' F.
Proof.
  intros P [H1 H2 H3 H4 H5 H6 H7 H8 H9 H10 H11 H12 H13 H14].
  assert (I : forall t, In t T' <-> In t T) by (intros t; split; apply Permutation_in; [now symmetry|assumption]).
  constructor; try assumption.
  - intros hp w H. apply H1. now apply I.
  - intros hp w hp' w' H H'. apply H2; now apply I.
  - eapply Permutation_NoDup; eauto.
  - intros hp w H. apply H4. now apply I.
  - intros a n x H Hx. destruct (H5 a n x H Hx) as (hp & w & Hw & R). exists hp, w. split; [now apply I|assumption].
  - rewrite <- H6. clear - P. induction P; cbn [words]; try (destruct x); try (destruct y); lia.
  - intros bp. rewrite H12. split; intros (w & Hw & C); exists w; (split; [now apply I|assumption]).
  - intros hp w H. apply H13. now apply I.
Qed.
(** only headers, links and the sentinel matter *)
Lemma heap_frame m m' cs T F : heap_ok m cs T F -> (forall hp w, In (hp, w) T -> m' hp = m hp) -> (forall x, In x (Fl_head :: F) -> m' x = m x) ->
  m' (Fl_head - 1) = m (Fl_head - 1) -> heap_ok m' cs T F.
Proof.
  intros [H1 H2 H3 H4 H5 H6 H7 H8 H9 H10 H11 H12 H13 H14] A1 A2 A3. constructor; try assumption.
  - intros hp w H. destruct (H1 hp w H) as (W & t & c & Ht & Hc & E). split; [assumption|]. exists t, c. rewrite (A1 hp w) by assumption. auto.
  - now apply (seg_frame m).
  - intros bp. rewrite H12. split; intros (w & Hw & C); exists w; (split; [assumption|]).
    + now rewrite (A1 _ w).
    + now rewrite (A1 _ w) in C.
  - intros hp w H C. rewrite (A1 hp w) in C by assumption. eauto.
  - congruence.
Qed.

Section Ok.
Context {m : mem} {cs : list (Z * Z)} {T : list tile} {F : list Z} (H : heap_ok m cs T F).
Lemma tile_uniq hp w w' : In (hp, w) T -> In (hp, w') T -> w = w'.
Proof. intros A B. destruct (h_dis _ _ _ _ H _ _ _ _ A B) as [[_ E]|[C|C]]; [assumption| |];
  pose proof (proj1 (h_hdr _ _ _ _ H _ _ A)); pose proof (proj1 (h_hdr _ _ _ _ H _ _ B)); lia. Qed.
Lemma tile_pos hp w : In (hp, w) T -> 1 < hp /\ 0 <= w.
Proof.
  intros A. destruct (h_in _ _ _ _ H _ _ A) as (a & n & C & L & _). destruct (h_chunk _ _ _ _ H _ _ C). pose proof (proj1 (h_hdr _ _ _ _ H _ _ A)). lia.
Qed.
Lemma tile_head hp w : In (hp, w) T -> ~ (hp <= Fl_head <= hp + w) /\ ~ (hp <= Fl_head - 1 <= hp + w).
Proof.
  intros A. destruct (h_in _ _ _ _ H _ _ A) as (a & n & C & L & R). destruct (h_chunk _ _ _ _ H _ _ C) as (_ & _ & N1 & N2). lia.
Qed.
Lemma tile_size hp w : In (hp, w) T -> wosize_hd (m hp) = w.
Proof. intros A. destruct (h_hdr _ _ _ _ H _ _ A) as (W & t & c & Ht & Hc & ->). now apply wosize_make. Qed.
Lemma free_tile bp : In bp F -> exists w, In (bp - 1, w) T /\ 1 <= w /\ color_hd (m (bp - 1)) = Blue.
Proof. intros A. apply (h_free _ _ _ _ H) in A as (w & Hw & C). exists w. split; [assumption|]. split; [|assumption]. eapply h_blue; eauto. Qed.
Lemma free_pos bp : In bp F -> 2 < bp /\ bp <> Fl_head /\ bp <> Fl_head - 1 /\ bp - 1 <> Fl_head /\ bp - 1 <> Fl_head - 1.
Proof.
  intros A. apply free_tile in A as (w & Hw & W & _). pose proof (tile_pos _ _ Hw). pose proof (tile_head _ _ Hw). lia.
Qed.
Lemma list_nodup : NoDup (Fl_head :: F).
Proof. constructor; [|apply H]. intros A. apply free_pos in A. lia. Qed.
(** a link word is not a header *)
Lemma link_not_hdr bp hp w : In bp (Fl_head :: F) -> In (hp, w) T -> hp <> bp.
Proof.
  intros [<-|A] B E; subst.
  - pose proof (tile_head _ _ B). pose proof (tile_pos _ _ B). lia.
  - apply free_tile in A as (w' & Hw' & W' & _). destruct (h_dis _ _ _ _ H _ _ _ _ Hw' B) as [[E1 _]|[E1|E1]]; try lia. pose proof (tile_pos _ _ B). lia.
Qed.
End Ok.

(** *** elementary changes *)
(** change the colour or tag of a block that is not and does not become free *)
Lemma recolor m cs T F hp w t c : heap_ok m cs T F -> In (hp, w) T -> color_hd (m hp) <> Blue -> tag_ok t -> color_ok c -> c <> Blue ->
  heap_ok (wr m hp (make_header w t c)) cs T F.
Proof.
  intros H A NB Ht Hc CB. pose proof (tile_pos H _ _ A) as TP.
  assert (U : forall hp' w', In (hp', w') T -> hp' = hp -> w' = w) by (intros hp' w' B ->; eapply tile_uniq; eauto).
  constructor; try apply H.
  - intros hp' w' B. split; [now apply (tile_pos H) in B|]. destruct (Z.eq_dec hp' hp) as [->|Ne].
    + rewrite wr_same. rewrite (U _ _ B eq_refl). eauto.
    + rewrite wr_other by assumption. apply (h_hdr _ _ _ _ H _ _ B).
  - apply (seg_frame m); [|apply H]. intros a Ha. apply wr_other. intros ->. now apply (link_not_hdr H _ _ _ Ha A).
  - intros bp. rewrite (h_free _ _ _ _ H). split; intros (w' & Hw & C); exists w'; (split; [assumption|]).
    + rewrite wr_other; [assumption|]. intros E. apply NB. now rewrite <- E.
    + destruct (Z.eq_dec (bp - 1) hp) as [E|Ne]; [|now rewrite wr_other in C]. rewrite E, wr_same in C. rewrite color_make in C by (assumption || lia). contradiction.
  - intros hp' w' B C. destruct (Z.eq_dec hp' hp) as [->|Ne].
    + rewrite wr_same, color_make in C by (assumption || lia). contradiction.
    + rewrite wr_other in C by assumption. eapply h_blue; eauto.
  - rewrite wr_other; [apply H|]. pose proof (tile_head H _ _ A). lia.
Qed.
(** take a block off the free list, giving it a header that is not blue *)
Lemma unlink m cs T F1 p cur F2 w t c : forall F, heap_ok m cs T F -> Fl_head :: F = F1 ++ p :: cur :: F2 -> In (cur - 1, w) T -> tag_ok t -> color_ok c -> c <> Blue ->
  exists F', Fl_head :: F' = F1 ++ p :: F2 /\ heap_ok (wr (wr m p (m cur)) (cur - 1) (make_header w t c)) cs T F' /\
    (forall x, In x F' <-> In x F /\ x <> cur).
Proof.
  intros F H EF A Ht Hc CB. pose proof (list_nodup H) as ND. rewrite EF in ND.
  assert (EX : exists F', Fl_head :: F' = F1 ++ p :: F2).
  { destruct F1 as [|x F1]; cbn [app] in EF |- *; injection EF as -> ->; eauto. }
  destruct EX as (F' & EF'). exists F'. split; [assumption|].
  assert (CF : In cur F).
  { assert (X : In cur (Fl_head :: F)) by (rewrite EF, in_app_iff; cbn; tauto). destruct X as [X|X]; [|assumption].
    exfalso. pose proof (tile_head H _ _ A). pose proof (tile_pos H _ _ A). lia. }
  assert (IN : forall x, In x F' <-> In x F /\ x <> cur).
  { assert (P2 : Permutation F (cur :: F')).
    { apply (Permutation_cons_inv (a := Fl_head)). rewrite EF. transitivity (cur :: Fl_head :: F'); [|apply perm_swap]. rewrite EF'.
      replace (F1 ++ p :: F2) with ((F1 ++ [p]) ++ F2) by now rewrite <- app_assoc.
      replace (F1 ++ p :: cur :: F2) with ((F1 ++ [p]) ++ cur :: F2) by now rewrite <- app_assoc. symmetry. apply Permutation_middle. }
    assert (ND2 : NoDup (cur :: F')) by (eapply Permutation_NoDup; [exact P2|apply H]). inversion ND2 as [|? ? N1 N2]; subst.
    intros x. split; intros X.
    - split; [apply (Permutation_in _ (Permutation_sym P2)); now right|]. intros ->. contradiction.
    - destruct X as [X Ne]. apply (Permutation_in _ P2) in X as [X|X]; [congruence|assumption]. }
  split; [|assumption].
  assert (PL : In p (Fl_head :: F)) by (rewrite EF, in_app_iff; cbn; tauto).
  pose proof (tile_pos H _ _ A) as TP. set (m' := wr (wr m p (m cur)) (cur - 1) (make_header w t c)).
  assert (M1 : forall hp w', In (hp, w') T -> hp <> cur - 1 -> m' hp = m hp).
  { intros hp w' B Ne. unfold m'. rewrite !wr_other; [reflexivity| |assumption]. now apply (link_not_hdr H _ _ _ PL B). }
  assert (M2 : m' (cur - 1) = make_header w t c) by apply wr_same.
  constructor; try apply H.
  - intros hp w' B. split; [now apply (tile_pos H) in B|]. destruct (Z.eq_dec hp (cur - 1)) as [->|Ne].
    + rewrite M2. rewrite (tile_uniq H _ _ _ B A). eauto.
    + rewrite (M1 hp w' B Ne). apply (h_hdr _ _ _ _ H _ _ B).
  - rewrite EF'. apply (seg_frame (wr m p (m cur))).
    + intros a Ha. unfold m'. apply wr_other. intros ->. assert (X : In (cur - 1) (Fl_head :: F)) by (rewrite EF; rewrite in_app_iff in Ha |- *; cbn in Ha |- *; tauto).
      now apply (link_not_hdr H _ _ _ X A).
    + apply seg_remove; [assumption|]. rewrite <- EF. apply H.
  - assert (ND' : NoDup (Fl_head :: F')). { rewrite EF'. replace (F1 ++ p :: F2) with ((F1 ++ [p]) ++ F2) by now rewrite <- app_assoc.
        replace (F1 ++ p :: cur :: F2) with ((F1 ++ [p]) ++ cur :: F2) in ND by now rewrite <- app_assoc. now apply NoDup_remove_1 in ND. } now inversion ND'.
  - intros bp. rewrite IN, (h_free _ _ _ _ H). split.
    + intros ((w' & B & C) & Ne). exists w'. split; [assumption|]. rewrite (M1 _ _ B); [assumption|lia].
    + intros (w' & B & C). destruct (Z.eq_dec (bp - 1) (cur - 1)) as [E|Ne].
      * rewrite E, M2, color_make in C by (assumption || lia). contradiction.
      * rewrite (M1 _ _ B Ne) in C. split; [eauto|lia].
  - intros hp w' B C. destruct (Z.eq_dec hp (cur - 1)) as [->|Ne].
    + rewrite M2, color_make in C by (assumption || lia). contradiction.
    + rewrite (M1 _ _ B Ne) in C. eapply h_blue; eauto.
  - unfold m'. pose proof (tile_head H _ _ A). rewrite !wr_other; [apply H| |lia]. intros E. destruct PL as [PL|PL]; [lia|].
    pose proof (free_pos H _ PL). lia.
Qed.
(** cut a block in two; a free block keeps its left part *)
Lemma split_tile m cs R hp w1 w2 t1 c1 t2 c2 F : heap_ok m cs ((hp, w1 + 1 + w2) :: R) F -> 0 <= w1 -> 0 <= w2 ->
  tag_ok t1 -> color_ok c1 -> tag_ok t2 -> color_ok c2 -> c2 <> Blue -> (c1 = Blue <-> color_hd (m hp) = Blue) -> (c1 = Blue -> 1 <= w1) ->
  heap_ok (wr (wr m hp (make_header w1 t1 c1)) (hp + 1 + w1) (make_header w2 t2 c2)) cs ((hp, w1) :: (hp + 1 + w1, w2) :: R) F.
Proof.
  intros H W1 W2 Ht1 Hc1 Ht2 Hc2 B2 CB CW. set (w := w1 + 1 + w2) in *. set (m' := wr (wr m hp _) _ _).
  assert (A : In (hp, w) ((hp, w) :: R)) by now left.
  pose proof (tile_pos H _ _ A) as TP. pose proof (tile_head H _ _ A) as TH.
  assert (RD : forall hp' w', In (hp', w') R -> hp + w < hp' \/ hp' + w' < hp).
  { intros hp' w' B. destruct (h_dis _ _ _ _ H _ _ _ _ A (or_intror B)) as [[E1 E2]|D]; [|exact D]. subst.
    pose proof (h_nodup _ _ _ _ H) as N. inversion N; subst. contradiction. }
  assert (M1 : m' hp = make_header w1 t1 c1) by (unfold m'; rewrite wr_other by lia; apply wr_same).
  assert (M2 : m' (hp + 1 + w1) = make_header w2 t2 c2) by (unfold m'; apply wr_same).
  assert (M3 : forall x, x <> hp -> x <> hp + 1 + w1 -> m' x = m x) by (intros x X1 X2; unfold m'; now rewrite !wr_other).
  assert (M4 : forall hp' w', In (hp', w') R -> m' hp' = m hp').
  { intros hp' w' B. apply RD in B as B'. pose proof (tile_pos H _ _ (or_intror B)). apply M3; lia. }
  constructor; try apply H.
  - intros hp' w' [B|[B|B]].
    + injection B as <- <-. split; [assumption|]. rewrite M1. eauto.
    + injection B as <- <-. split; [assumption|]. rewrite M2. eauto.
    + rewrite (M4 _ _ B). apply (h_hdr _ _ _ _ H). now right.
  - intros hp' w' hp'' w'' [B|[B|B]] [C|[C|C]]; try (injection B as <- <-); try (injection C as <- <-); try lia;
      try (apply RD in B as B'); try (apply RD in C as C'); try lia. apply (h_dis _ _ _ _ H); now right.
  - pose proof (h_nodup _ _ _ _ H) as N. inversion N as [|? ? N1 N2]; subst. constructor; [|constructor; [|assumption]].
    + intros [E|E]; [injection E; lia|]. apply RD in E. lia.
    + intros E. apply RD in E. lia.
  - intros hp' w' B. destruct (h_in _ _ _ _ H _ _ A) as (a & n & C & L1 & L2). destruct B as [B|[B|B]].
    + injection B as <- <-. exists a, n. split; [assumption|lia].
    + injection B as <- <-. exists a, n. split; [assumption|lia].
    + apply (h_in _ _ _ _ H). now right.
  - intros a n x C X. destruct (h_cov _ _ _ _ H a n x C X) as (hp' & w' & B & Y). destruct B as [B|B].
    + injection B as <- <-. destruct (Z.le_gt_cases x (hp + w1)).
      * exists hp, w1. split; [now left|lia].
      * exists (hp + 1 + w1), w2. split; [right; now left|lia].
    + exists hp', w'. split; [right; now right|assumption].
  - pose proof (h_sum _ _ _ _ H) as S. cbn [words] in S |- *. lia.
  - apply (seg_frame m); [|apply H]. intros x Hx. apply M3.
    + intros ->. now apply (link_not_hdr H _ _ _ Hx A).
    + intros ->. destruct Hx as [Hx|Hx]; [lia|]. apply (free_tile H) in Hx as (w' & B & W' & C). destruct B as [B|B].
      * injection B as B1 B2'. rewrite <- B1 in C. apply CB in C. specialize (CW C). lia.
      * apply RD in B. lia.
  - intros bp. rewrite (h_free _ _ _ _ H). split.
    + intros (w' & [B|B] & C).
      * injection B as B _. exists w1. rewrite <- B in C |- *. split; [now left|]. rewrite M1, color_make by (assumption || lia). now apply CB.
      * exists w'. split; [right; now right|]. now rewrite (M4 _ _ B).
    + intros (w' & [B|[B|B]] & C).
      * injection B as B _. rewrite <- B in C |- *. exists w. split; [now left|]. rewrite M1, color_make in C by (assumption || lia). now apply CB.
      * injection B as B _. rewrite <- B in C. rewrite M2, color_make in C by (assumption || lia). contradiction.
      * exists w'. split; [now right|]. now rewrite (M4 _ _ B) in C.
  - intros hp' w' [B|[B|B]] C.
    + injection B as <- <-. rewrite M1, color_make in C by (assumption || lia). auto.
    + injection B as <- <-. rewrite M2, color_make in C by (assumption || lia). contradiction.
    + rewrite (M4 _ _ B) in C. apply (h_blue _ _ _ _ H hp'); [now right|assumption].
  - rewrite M3 by lia. apply H.
Qed.
(** join a block with the next one, which is not free *)
Lemma merge_tile m cs R hp w1 w2 t1 c1 F : heap_ok m cs ((hp, w1) :: (hp + 1 + w1, w2) :: R) F ->
  color_hd (m (hp + 1 + w1)) <> Blue -> tag_ok t1 -> color_ok c1 -> (c1 = Blue <-> color_hd (m hp) = Blue) ->
  heap_ok (wr m hp (make_header (w1 + 1 + w2) t1 c1)) cs ((hp, w1 + 1 + w2) :: R) F.
Proof.
  intros H B2 Ht1 Hc1 CB. set (w := w1 + 1 + w2) in *. set (m' := wr m hp _).
  assert (A1 : In (hp, w1) ((hp, w1) :: (hp + 1 + w1, w2) :: R)) by now left.
  assert (A2 : In (hp + 1 + w1, w2) ((hp, w1) :: (hp + 1 + w1, w2) :: R)) by (right; now left).
  pose proof (tile_pos H _ _ A1) as TP1. pose proof (tile_pos H _ _ A2) as TP2.
  pose proof (tile_head H _ _ A1) as TH1. pose proof (tile_head H _ _ A2) as TH2.
  pose proof (h_nodup _ _ _ _ H) as N. inversion N as [|? ? N1 N2]; subst. inversion N2 as [|? ? N3 N4]; subst.
  assert (RD : forall hp' w', In (hp', w') R -> hp + w < hp' \/ hp' + w' < hp).
  { intros hp' w' B. pose proof (tile_pos H hp' w' ltac:(right; right; assumption)).
    destruct (h_dis _ _ _ _ H _ _ _ _ A1 (or_intror (or_intror B))) as [[E1 E2]|D].
    - exfalso. apply N1. right. now rewrite E1, E2.
    - destruct (h_dis _ _ _ _ H _ _ _ _ A2 (or_intror (or_intror B))) as [[E1 E2]|D2]; [|lia]. exfalso. apply N3. now rewrite E1, E2. }
  assert (M1 : m' hp = make_header w t1 c1) by (unfold m'; apply wr_same).
  assert (M3 : forall x, x <> hp -> m' x = m x) by (intros x X1; unfold m'; now rewrite !wr_other).
  assert (M4 : forall hp' w', In (hp', w') R -> m' hp' = m hp').
  { intros hp' w' B. apply RD in B as B'. pose proof (tile_pos H hp' w' ltac:(right; right; assumption)). apply M3; lia. }
  constructor; try apply H.
  - intros hp' w' [B|B].
    + injection B as <- <-. split; [lia|]. rewrite M1. eauto.
    + rewrite (M4 _ _ B). apply (h_hdr _ _ _ _ H). right. now right.
  - intros hp' w' hp'' w'' [B|B] [C|C]; try (injection B as <- <-); try (injection C as <- <-); try lia;
      try (apply RD in B as B'); try (apply RD in C as C'); try lia. apply (h_dis _ _ _ _ H); right; now right.
  - constructor; [|assumption]. intros E. apply RD in E. lia.
  - intros hp' w' [B|B].
    + injection B as <- <-. destruct (h_in _ _ _ _ H _ _ A1) as (a & n & C & L1 & L2). destruct (h_in _ _ _ _ H _ _ A2) as (a' & n' & C' & L1' & L2').
      exists a, n. split; [assumption|]. destruct (h_chdis _ _ _ _ H _ _ _ _ C C') as [[E1 E2]|[E|E]]; lia.
    + apply (h_in _ _ _ _ H). right. now right.
  - intros a n x C X. destruct (h_cov _ _ _ _ H a n x C X) as (hp' & w' & B & Y). destruct B as [B|[B|B]].
    + injection B as <- <-. exists hp, w. split; [now left|lia].
    + injection B as <- <-. exists hp, w. split; [now left|lia].
    + exists hp', w'. split; [now right|assumption].
  - pose proof (h_sum _ _ _ _ H) as S. cbn [words] in S |- *. lia.
  - apply (seg_frame m); [|apply H]. intros x Hx. apply M3. intros ->. now apply (link_not_hdr H _ _ _ Hx A1).
  - intros bp. rewrite (h_free _ _ _ _ H). split.
    + intros (w' & [B|[B|B]] & C).
      * injection B as B _. exists w. rewrite <- B in C |- *. split; [now left|]. rewrite M1, color_make by (assumption || lia). now apply CB.
      * injection B as B _. rewrite <- B in C. contradiction.
      * exists w'. split; [now right|]. now rewrite (M4 _ _ B).
    + intros (w' & [B|B] & C).
      * injection B as B _. rewrite <- B in C |- *. exists w1. split; [now left|]. rewrite M1, color_make in C by (assumption || lia). now apply CB.
      * exists w'. split; [right; now right|]. now rewrite (M4 _ _ B) in C.
  - intros hp' w' [B|B] C.
    + injection B as <- <-. lia.
    + rewrite (M4 _ _ B) in C. apply (h_blue _ _ _ _ H hp'); [right; now right|assumption].
  - rewrite M3 by lia. apply H.
Qed.
(** put a block on the free list *)
Lemma link m cs T F F1 p F2 bp w t : heap_ok m cs T F -> Fl_head :: F = F1 ++ p :: F2 -> In (bp - 1, w) T -> 1 <= w -> color_hd (m (bp - 1)) <> Blue -> tag_ok t ->
  exists F', Fl_head :: F' = F1 ++ p :: bp :: F2 /\
    heap_ok (wr (wr (wr m (bp - 1) (make_header w t Blue)) bp (hd 0 F2)) p bp) cs T F' /\ (forall x, In x F' <-> In x F \/ x = bp).
Proof.
  intros H EF A W NB Ht. pose proof (list_nodup H) as ND. 
  assert (EX : exists F', Fl_head :: F' = F1 ++ p :: bp :: F2).
  { destruct F1 as [|x F1]; cbn [app] in EF |- *; injection EF as -> ->; eauto. }
  destruct EX as (F' & EF'). exists F'. split; [assumption|].
  pose proof (tile_pos H _ _ A) as TP. pose proof (tile_head H _ _ A) as TH.
  assert (NF : ~ In bp (Fl_head :: F)).
  { intros [X|X]; [lia|]. apply (free_tile H) in X as (w' & _ & _ & C). contradiction. }
  assert (P' : Permutation (Fl_head :: F') (bp :: Fl_head :: F)).
  { rewrite EF, EF'. replace (F1 ++ p :: bp :: F2) with ((F1 ++ [p]) ++ bp :: F2) by now rewrite <- app_assoc.
    replace (F1 ++ p :: F2) with ((F1 ++ [p]) ++ F2) by now rewrite <- app_assoc. symmetry. apply Permutation_middle. }
  assert (ND' : NoDup (Fl_head :: F')). { eapply Permutation_NoDup; [symmetry; exact P'|]. now constructor. }
  assert (IN : forall x, In x F' <-> In x F \/ x = bp).
  { intros x. assert (P2 : Permutation F' (bp :: F)). { apply (Permutation_cons_inv (a := Fl_head)). rewrite P'. apply perm_swap. }
    split; intros X.
    - apply (Permutation_in _ P2) in X as [X|X]; auto.
    - apply (Permutation_in _ (Permutation_sym P2)). destruct X; [now right|now left]. }
  split; [|assumption].
  assert (PL : In p (Fl_head :: F)) by (rewrite EF, in_app_iff; cbn; tauto).
  set (m' := wr (wr (wr m _ _) _ _) _ _).
  assert (PB : p <> bp) by (intros ->; contradiction).
  assert (PH : p <> bp - 1) by (intros E; now apply (link_not_hdr H _ _ _ PL A)).
  assert (M1 : m' (bp - 1) = make_header w t Blue) by (unfold m'; rewrite !wr_other by lia; apply wr_same).
  assert (BH : forall hp w', In (hp, w') T -> hp <> bp).
  { intros hp w' B ->. destruct (h_dis _ _ _ _ H _ _ _ _ A B) as [X|[X|X]]; try lia. pose proof (tile_pos H _ _ B). lia. }
  assert (M2 : forall hp w', In (hp, w') T -> hp <> bp - 1 -> m' hp = m hp).
  { intros hp w' B Ne. unfold m'. rewrite !wr_other; [reflexivity|assumption|eapply BH; eauto|]. now apply (link_not_hdr H _ _ _ PL B). }
  constructor; try apply H.
  - intros hp w' B. split; [now apply (tile_pos H) in B|]. destruct (Z.eq_dec hp (bp - 1)) as [->|Ne].
    + rewrite M1, (tile_uniq H _ _ _ B A). exists t, Blue. split; [assumption|]. split; [right; right; now left|reflexivity].
    + rewrite (M2 _ _ B Ne). apply (h_hdr _ _ _ _ H _ _ B).
  - rewrite EF'. unfold m'. apply (seg_insert (wr m (bp - 1) (make_header w t Blue))).
    + now rewrite <- EF.
    + now rewrite <- EF.
    + rewrite <- EF. apply (seg_frame m); [|apply H]. intros a Ha. apply wr_other. intros ->. now apply (link_not_hdr H _ _ _ Ha A).
  - now inversion ND'.
  - intros x. rewrite IN, (h_free _ _ _ _ H). split.
    + intros [(w' & B & C)| ->].
      * exists w'. split; [assumption|]. rewrite (M2 _ _ B); [assumption|]. intros E. apply NB. now rewrite <- E.
      * exists w. split; [assumption|]. rewrite M1. apply color_make; [lia|assumption|right; right; now left].
    + intros (w' & B & C). destruct (Z.eq_dec (x - 1) (bp - 1)) as [E|Ne]; [right; lia|]. rewrite (M2 _ _ B Ne) in C. left. eauto.
  - intros hp w' B C. destruct (Z.eq_dec hp (bp - 1)) as [->|Ne].
    + now rewrite (tile_uniq H _ _ _ B A).
    + rewrite (M2 _ _ B Ne) in C. eapply h_blue; eauto.
  - unfold m'. rewrite !wr_other; [apply H|lia|lia|]. intros E. destruct PL as [PL|PL]; [lia|]. pose proof (free_pos H _ PL). lia.
Qed.
(** a new chunk, as one block that is not free *)
Lemma add_chunk m cs cs' T F a n c : heap_ok m cs T F -> Permutation cs' ((a, n) :: cs) -> 1 < a -> 0 < n -> ~ (a <= Fl_head < a + n) -> ~ (a <= Fl_head - 1 < a + n) ->
  (forall a' n', In (a', n') cs -> a + n < a' \/ a' + n' < a) -> color_ok c -> c <> Blue ->
  heap_ok (wr m a (make_header (n - 1) 0 c)) cs' ((a, n - 1) :: T) F.
Proof.
  intros H P A0 N0 NH NH' D Hc CB. set (m' := wr m a _).
  assert (I : forall t, In t cs' <-> t = (a, n) \/ In t cs).
  { intros t. split; intros X.
    - apply (Permutation_in _ P) in X as [X|X]; auto.
    - apply (Permutation_in _ (Permutation_sym P)). destruct X; [now left|now right]. }
  assert (TD : forall hp w, In (hp, w) T -> a + (n - 1) < hp \/ hp + w < a).
  { intros hp w B. destruct (h_in _ _ _ _ H _ _ B) as (a' & n' & C & L1 & L2). specialize (D _ _ C). pose proof (tile_pos H _ _ B). lia. }
  assert (M1 : m' a = make_header (n - 1) 0 c) by apply wr_same.
  assert (M2 : forall hp w, In (hp, w) T -> m' hp = m hp).
  { intros hp w B. apply wr_other. pose proof (TD _ _ B). pose proof (tile_pos H _ _ B). lia. }
  constructor; try apply H.
  - intros hp w [B|B].
    + injection B as <- <-. split; [lia|]. exists 0, c. split; [unfold tag_ok; lia|]. auto.
    + rewrite (M2 _ _ B). now apply (h_hdr _ _ _ _ H).
  - intros hp w hp' w' [B|B] [C|C].
    + injection B as <- <-. injection C as <- <-. left. auto.
    + injection B as <- <-. specialize (TD _ _ C). lia.
    + injection C as <- <-. specialize (TD _ _ B). lia.
    + now apply (h_dis _ _ _ _ H).
  - constructor; [|apply H]. intros B. specialize (TD _ _ B). pose proof (tile_pos H _ _ B). lia.
  - intros hp w [B|B].
    + injection B as <- <-. exists a, n. split; [apply I; now left|lia].
    + destruct (h_in _ _ _ _ H _ _ B) as (a' & n' & C & L). exists a', n'. split; [apply I; now right|assumption].
  - intros a' n' x C X. apply I in C as [C|C].
    + injection C as -> ->. exists a, (n - 1). split; [now left|lia].
    + destruct (h_cov _ _ _ _ H _ _ _ C X) as (hp & w & B & Y). exists hp, w. split; [now right|assumption].
  - cbn [words]. rewrite (h_sum _ _ _ _ H). replace (csize cs') with (csize ((a, n) :: cs)); [cbn [csize]; lia|].
    clear - P. induction P; cbn [csize]; try (destruct x); try (destruct y); lia.
  - intros a' n' C. apply I in C as [C|C]; [injection C as -> ->; auto|]. now apply (h_chunk _ _ _ _ H).
  - intros a1 n1 a2 n2 C1 C2. apply I in C1 as [C1|C1]; apply I in C2 as [C2|C2]; try (injection C1 as -> ->); try (injection C2 as -> ->); try lia.
    + specialize (D _ _ C2). lia.
    + specialize (D _ _ C1). lia.
    + now apply (h_chdis _ _ _ _ H).
  - apply (seg_frame m); [|apply H]. intros x Hx. apply wr_other. intros ->. destruct Hx as [Hx|Hx]; [lia|].
    apply (free_tile H) in Hx as (w & B & W & _). specialize (TD _ _ B). lia.
  - intros bp. rewrite (h_free _ _ _ _ H). split.
    + intros (w & B & C). exists w. split; [now right|]. now rewrite (M2 _ _ B).
    + intros (w & [B|B] & C).
      * injection B as B _. rewrite <- B, M1, color_make in C by (assumption || unfold tag_ok; lia). contradiction.
      * exists w. split; [assumption|]. now rewrite (M2 _ _ B) in C.
  - intros hp w [B|B] C.
    + injection B as <- <-. rewrite M1, color_make in C by (assumption || unfold tag_ok; lia). contradiction.
    + rewrite (M2 _ _ B) in C. eapply h_blue; eauto.
  - unfold m'. rewrite wr_other by lia. apply H.
Qed.
End FL.
